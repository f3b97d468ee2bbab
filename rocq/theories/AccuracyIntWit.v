(** The constant function 1 meets the hypotheses of the volume integral's error bound. *)
From Coq Require Import Reals List Lia Lra ZArith.
From Coquelicot Require Import Coquelicot.
From Verif Require Import Base BaseLemmas GridModel Poly GridSpec GridProofs NCProofs GridMore GridWitness
  Accuracy AccuracyOp AccuracyWit AccuracyInt.
Import ListNotations.
Local Open Scope R_scope.
Local Opaque sinh cosh.

Lemma smooth_plus : forall n f h, smooth n f -> smooth n h -> smooth n (fun t => f t + h t).
Proof.
  intros n f h Sf Sh k t Hk. apply ex_derive_n_plus; apply filter_forall; intros y j Hj; [apply Sf|apply Sh]; lia.
Qed.
Lemma Derive_plus_n : forall n f h k t, smooth n f -> smooth n h -> (k <= n)%nat ->
  Derive_n (fun s => f s + h s) k t = Derive_n f k t + Derive_n h k t.
Proof.
  intros n f h k t Sf Sh Hk. apply Derive_n_plus; apply filter_forall; intros y j Hj; [apply Sf|apply Sh]; lia.
Qed.

Lemma sin3 : forall t, sin (3 * t) = 3 * sin t - 4 * sin t ^ 3.
Proof.
  intros t. replace (3 * t) with (2 * t + t) by ring. rewrite sin_plus, sin_2a, cos_2a_sin.
  replace (2 * sin t * cos t * cos t) with (2 * sin t * (cos t * cos t)) by ring.
  replace (cos t * cos t) with (1 - sin t * sin t) by (pose proof (sin2_cos2 t) as E; unfold Rsqr in E; lra). ring.
Qed.
Local Transparent sinh cosh.
Lemma sinh3 : forall m, sinh (3 * m) = 3 * sinh m + 4 * sinh m ^ 3.
Proof.
  intros m. unfold sinh. replace (3 * m) with (m + m + m) by ring. replace (- (m + m + m)) with (- m + - m + - m) by ring.
  rewrite !exp_plus. pose proof (exp_plus m (- m)) as E. rewrite Rplus_opp_r, exp_0 in E.
  set (x := exp m) in *. set (y := exp (- m)) in *. clearbody x y.
  replace (4 * ((x - y) / 2) ^ 3) with ((x * x * x - y * y * y - 3 * (x * y) * x + 3 * (x * y) * y) / 2) by field. rewrite <- E. field.
Qed.
Lemma sinh_exp : forall m, Rabs (sinh m) <= exp (Rabs m).
Proof.
  intros m. assert (X : exp m <= exp (Rabs m) /\ exp (- m) <= exp (Rabs m)).
  { assert (M : forall x y, x <= y -> exp x <= exp y) by (intros x y [L| ->]; [left; apply exp_increasing, L|lra]).
    split; apply M; unfold Rabs; destruct (Rcase_abs m); lra. }
  pose proof (exp_pos m). pose proof (exp_pos (- m)). unfold sinh. apply Rabs_le. lra.
Qed.
Local Opaque sinh cosh.

(** The volume element along the two coordinate lines. *)
Lemma vol_t : forall a m t, trig 0 (a ^ 3 * (3 / 4 * sinh m + sinh m ^ 3)) t + trig 0 (- (a ^ 3 / 4 * sinh m)) (3 * t) = vol a t m * 1.
Proof. intros a m t. unfold trig, vol. rewrite sin3. field. Qed.
Lemma vol_m : forall a t m, hyp 0 (a ^ 3 * (sin t ^ 3 - 3 / 4 * sin t)) m + hyp 0 (a ^ 3 / 4 * sin t) (3 * m) = vol a t m * 1.
Proof. intros a t m. unfold hyp, vol. rewrite sinh3. field. Qed.

Lemma vol_smooth_t : forall n a m, smooth n (fun t => vol a t m * 1).
Proof.
  intros n a m. apply (smooth_ext _ _ _ (vol_t a m)). apply smooth_plus; [apply smooth_trig|].
  apply (smooth_scal n (trig 0 _)). apply smooth_trig.
Qed.
Lemma vol_smooth_m : forall n a t, smooth n (fun m => vol a t m * 1).
Proof.
  intros n a t. apply (smooth_ext _ _ _ (vol_m a t)). apply smooth_plus; [apply smooth_hyp|].
  apply (smooth_scal n (hyp 0 _)). apply smooth_hyp.
Qed.

Lemma exp_le : forall x y, x <= y -> exp x <= exp y.
Proof. intros x y [L| ->]; [left; apply exp_increasing, L|lra]. Qed.

Lemma vol_bound_t : forall n a L, 0 < a -> 0 < L -> exists M, forall t m, 0 <= m <= L -> Rabs (Derive_n (fun t => vol a t m * 1) n t) <= M.
Proof.
  intros n a L Ha HL. set (e := exp L).
  assert (A3 : 0 < a ^ 3) by (apply pow_lt; auto). assert (e0 : 0 < e) by apply exp_pos.
  exists (a ^ 3 * (3 / 4 * e + e ^ 3) + 3 ^ n * (a ^ 3 / 4 * e)). intros t m Hm.
  rewrite <- (Derive_n_ext _ _ n t (vol_t a m)).
  rewrite (Derive_plus_n n (trig 0 (a ^ 3 * (3 / 4 * sinh m + sinh m ^ 3))) (fun t => trig 0 (- (a ^ 3 / 4 * sinh m)) (3 * t)) n t
    (smooth_trig n _ _) (smooth_scal n _ 3 (smooth_trig n _ _)) (le_n n)).
  rewrite (Derive_scal_n n (trig 0 (- (a ^ 3 / 4 * sinh m))) 3 n t (smooth_trig n _ _) (le_n n)).
  assert (sb : Rabs (sinh m) <= e) by (eapply Rle_trans; [apply sinh_exp|]; apply exp_le; rewrite Rabs_right; lra).
  eapply Rle_trans; [apply Rabs_triang|]. apply Rplus_le_compat.
  - eapply Rle_trans; [apply trig_bound|]. rewrite Rabs_R0, Rplus_0_l, Rabs_mult, (Rabs_right (a ^ 3)) by lra.
    apply Rmult_le_compat_l; [lra|]. eapply Rle_trans; [apply Rabs_triang|]. rewrite Rabs_mult, (Rabs_right (3 / 4)) by lra.
    apply Rplus_le_compat; [apply Rmult_le_compat_l; lra|]. rewrite <- RPow_abs. apply pow_incr. split; [apply Rabs_pos|auto].
  - assert (P3 : 0 < 3 ^ n) by (apply pow_lt; lra). rewrite Rabs_mult, (Rabs_right (3 ^ n)) by lra.
    apply Rmult_le_compat_l; [lra|]. eapply Rle_trans; [apply trig_bound|].
    rewrite Rabs_R0, Rplus_0_l, Rabs_Ropp, Rabs_mult, (Rabs_right (a ^ 3 / 4)) by lra. apply Rmult_le_compat_l; lra.
Qed.
Lemma vol_bound_m : forall n a L, 0 < a -> 0 < L -> exists M, forall t m, 0 <= m <= L -> Rabs (Derive_n (fun m => vol a t m * 1) n m) <= M.
Proof.
  intros n a L Ha HL. assert (A3 : 0 < a ^ 3) by (apply pow_lt; auto).
  exists (a ^ 3 * (1 + 3 / 4) * exp L + 3 ^ n * (a ^ 3 / 4 * exp (3 * L))). intros t m Hm.
  rewrite <- (Derive_n_ext _ _ n m (vol_m a t)).
  rewrite (Derive_plus_n n (hyp 0 (a ^ 3 * (sin t ^ 3 - 3 / 4 * sin t))) (fun m => hyp 0 (a ^ 3 / 4 * sin t) (3 * m)) n m
    (smooth_hyp n _ _) (smooth_scal n _ 3 (smooth_hyp n _ _)) (le_n n)).
  rewrite (Derive_scal_n n (hyp 0 (a ^ 3 / 4 * sin t)) 3 n m (smooth_hyp n _ _) (le_n n)).
  assert (sb : Rabs (sin t) <= 1) by (apply Rabs_le; pose proof (SIN_bound t); lra).
  pose proof (exp_pos L). pose proof (exp_pos (3 * L)).
  eapply Rle_trans; [apply Rabs_triang|]. apply Rplus_le_compat.
  - eapply Rle_trans; [apply hyp_bound|]. rewrite Rabs_R0, Rplus_0_l, Rabs_mult, (Rabs_right (a ^ 3)) by lra.
    apply Rmult_le_compat; [apply Rmult_le_pos; [lra|apply Rabs_pos]|left; apply exp_pos| |apply exp_le; rewrite Rabs_right; lra].
    apply Rmult_le_compat_l; [lra|]. unfold Rminus. eapply Rle_trans; [apply Rabs_triang|]. rewrite Rabs_Ropp, Rabs_mult, (Rabs_right (3 / 4)), <- RPow_abs by lra.
    assert (Rabs (sin t) ^ 3 <= 1) by (rewrite <- (pow1 3); apply pow_incr; split; [apply Rabs_pos|auto]). lra.
  - assert (P3 : 0 < 3 ^ n) by (apply pow_lt; lra). rewrite Rabs_mult, (Rabs_right (3 ^ n)) by lra.
    apply Rmult_le_compat_l; [lra|]. eapply Rle_trans; [apply hyp_bound|].
    rewrite Rabs_R0, Rplus_0_l, Rabs_mult, (Rabs_right (a ^ 3 / 4)) by lra.
    apply Rmult_le_compat; [apply Rmult_le_pos; [lra|apply Rabs_pos]|left; apply exp_pos| |apply exp_le; rewrite Rabs_right; lra].
    pose proof (Rabs_pos (sin t)). nra.
Qed.

Lemma cont_sin2 : forall x y, continuity_2d_pt (fun t _ => sin t) x y.
Proof. intros. apply continuity_1d_2d_pt_comp with (f := sin) (g := fun u _ => u); [apply continuity_sin|apply continuity_2d_pt_id1]. Qed.
Lemma cont_sinh2 : forall x y, continuity_2d_pt (fun _ m => sinh m) x y.
Proof.
  intros. apply continuity_1d_2d_pt_comp with (f := sinh) (g := fun _ v => v); [|apply continuity_2d_pt_id2].
  apply derivable_continuous_pt. exists (cosh y). apply derivable_pt_lim_sinh.
Qed.
Lemma vol_cont : forall a, cont2 (fun t m => vol a t m * 1).
Proof.
  intros a x y. unfold vol.
  pose proof (cont_sin2 x y) as A. pose proof (cont_sinh2 x y) as B.
  assert (C : forall c, continuity_2d_pt (fun _ _ => c) x y) by (intros; apply continuity_2d_pt_const).
  assert (P : forall f, continuity_2d_pt f x y -> continuity_2d_pt (fun u v => f u v ^ 2) x y).
  { intros f Hf. simpl. apply continuity_2d_pt_mult; [auto|]. apply continuity_2d_pt_mult; auto. }
  apply continuity_2d_pt_mult; [|apply C].
  apply continuity_2d_pt_mult; [apply continuity_2d_pt_mult; [apply continuity_2d_pt_mult; auto|auto]|].
  apply continuity_2d_pt_plus; apply P; auto.
Qed.
