(** The nine-point stencils written out, and functions to which the error bounds apply. *)
From Coq Require Import Reals List Lia Lra ZArith.
From Coquelicot Require Import Coquelicot.
From Verif Require Import Base BaseLemmas GridModel Poly GridSpec GridProofs FDProofs OpProofs LapCont GridWitness
  SolverModel Accuracy AccuracyOp.
Import ListNotations.
Local Open Scope R_scope.
Local Opaque sinh cosh.

(** Coefficients of the stencils -4..4. *)
Definition nine1 : vec := fun j => nth j [1/280; -4/105; 1/5; -4/5; 0; 4/5; -1/5; 4/105; -1/280] 0.
Definition nine2 : vec := fun j => nth j [-1/560; 8/315; -1/5; 8/5; -205/72; 8/5; -1/5; 8/315; -1/560] 0.

Lemma offset4 : forall j, (j < 9)%nat -> offset 4 j = nth j [-4; -3; -2; -1; 0; 1; 2; 3; 4] 0.
Proof. intros j Hj. unfold offset. do 9 (destruct j as [|j]; [simpl; lra|]). lia. Qed.

Ltac nine_sum := cbn [sumR]; rewrite !offset4 by lia; cbn [nth nine1 nine2].

Lemma nine1_moments : forall k, (k < 9)%nat ->
  sumR 9 (fun j => offset 4 j ^ k * nine1 j) = if (k =? 1)%nat then INR (fact k) else 0.
Proof.
  intros k Hk. do 9 (destruct k as [|k]; [nine_sum; simpl Nat.eqb; cbv iota; simpl; lra|]). lia.
Qed.
Lemma nine2_moments : forall k, (k < 9)%nat ->
  sumR 9 (fun j => offset 4 j ^ k * nine2 j) = if (k =? 2)%nat then INR (fact k) else 0.
Proof.
  intros k Hk. do 9 (destruct k as [|k]; [nine_sum; simpl Nat.eqb; cbv iota; simpl; lra|]). lia.
Qed.

Lemma raw_nine : forall d (c raw : vec),
  (forall k, (k < 9)%nat -> sumR 9 (fun j => offset 4 j ^ k * c j) = if (k =? d)%nat then INR (fact k) else 0) ->
  solves (length (sym_stencil 4)) (transp (fd_table (sym_stencil 4))) (fd_rhs d) raw ->
  forall j, (j < 9)%nat -> raw j = c j.
Proof.
  intros d c raw Hc H j Hj.
  assert (D : distinct 9 (offset 4)).
  { intros x y Hx Hy Hn E. apply Hn, INR_eq. unfold offset in E. lra. }
  refine (vander_unique 9 raw c (offset 4) (fun k => if (k =? d)%nat then INR (fact k) else 0) D _ Hc j Hj).
  intros k Hk. rewrite <- (fd_moments _ _ _ H k) by (rewrite sym_stencil_length; exact Hk).
  rewrite sym_stencil_length. apply sumR_ext. intros i Hi. rewrite sym_fd_x by auto. reflexivity.
Qed.

Lemma tiny : / 10 ^ 10 <= / 1000.
Proof. apply Rinv_le_contravar; [lra|]. simpl. lra. Qed.
Lemma big : forall x, / 1000 <= x \/ x <= - / 1000 -> x = 0 \/ / 10 ^ 10 <= Rabs x.
Proof. intros x H. right. pose proof tiny. unfold Rabs. destruct (Rcase_abs x); lra. Qed.

Lemma nine_sharp : forall g, fd_ok g 4 -> sharp g 4.
Proof.
  intros g (E & _ & H1 & H2). rewrite E in H1, H2.
  pose proof (raw_nine 1 nine1 _ nine1_moments H1) as R1. pose proof (raw_nine 2 nine2 _ nine2_moments H2) as R2.
  split; intros j Hj; [rewrite (R1 j Hj)|rewrite (R2 j Hj)];
    do 9 (destruct j as [|j]; [cbn [nth nine1 nine2]; first [left; reflexivity|apply big; lra]|]); lia.
Qed.

Lemma nine_coef : forall g, fd_ok g 4 -> forall j, (j < 9)%nat -> d1 g j = nine1 j /\ d2 g j = nine2 j.
Proof.
  intros g H j Hj. destruct (nine_sharp g H) as [U1 U2]. destruct H as (E & _ & H1 & H2). rewrite E in H1, H2.
  unfold d1, d2, fd_coef. rewrite (fd_flush_id _ (U1 j Hj)), (fd_flush_id _ (U2 j Hj)).
  split; [apply (raw_nine 1 nine1 _ nine1_moments H1 j Hj)|apply (raw_nine 2 nine2 _ nine2_moments H2 j Hj)].
Qed.

Lemma fact9 : INR (fact 9) = 362880.
Proof. rewrite !fact_simpl, !mult_INR. simpl. lra. Qed.
Lemma fact10 : INR (fact 10) = 3628800.
Proof. rewrite fact_simpl, mult_INR, fact9. simpl. lra. Qed.
Lemma nine_const : forall g, fd_ok g 4 -> fd_const 4 9 (d1 g) < 1 / 100 /\ fd_const 4 10 (d2 g) < 1 / 500.
Proof.
  intros g H. unfold fd_const, rule_const.
  rewrite (sumR_ext (2 * 4 + 1) _ (fun j => Rabs (nine1 j) * Rabs (offset 4 j) ^ 9)) by (intros j Hj; rewrite (proj1 (nine_coef g H j Hj)); reflexivity).
  rewrite (sumR_ext (2 * 4 + 1) (fun j => Rabs (d2 g j) * _) (fun j => Rabs (nine2 j) * Rabs (offset 4 j) ^ 10)) by (intros j Hj; rewrite (proj2 (nine_coef g H j Hj)); reflexivity).
  assert (A : forall x, 0 <= x -> Rabs x = x) by (intros; apply Rabs_right; lra).
  assert (B : forall x, x <= 0 -> Rabs x = - x) by (intros; apply Rabs_left1; lra).
  change (2 * 4 + 1)%nat with 9%nat. split; nine_sum;
    repeat match goal with |- context [Rabs ?x] => first [rewrite (A x) by lra|rewrite (B x) by lra] end;
    [rewrite fact9|rewrite fact10]; lra.
Qed.

(** Linear combinations of cos and sin, and of cosh and sinh. *)
Definition trig (A B t : R) : R := A * cos t + B * sin t.
Definition hyp (A B t : R) : R := A * cosh t + B * sinh t.

Lemma is_derive_trig : forall A B t, is_derive (trig A B) t (trig B (- A) t).
Proof. intros A B t. unfold trig. auto_derive; auto. ring. Qed.
Lemma is_derive_hyp : forall A B t, is_derive (hyp A B) t (hyp B A t).
Proof.
  intros A B t. unfold hyp.
  pose proof (is_derive_scal cosh t A _ (is_derive_cosh t)) as D1. pose proof (is_derive_scal sinh t B _ (is_derive_sinh t)) as D2.
  pose proof (is_derive_plus _ _ _ _ _ D1 D2) as D. replace (B * cosh t + A * sinh t) with (plus (A * sinh t) (B * cosh t)) by (unfold plus; simpl; ring).
  exact D.
Qed.

Lemma trig_n : forall k A B, exists A' B', Rabs A' + Rabs B' = Rabs A + Rabs B /\ forall t, is_derive_n (trig A B) k t (trig A' B' t).
Proof.
  induction k; intros A B.
  - exists A, B. split; [reflexivity|]. intros t. reflexivity.
  - destruct (IHk A B) as (A' & B' & E & H). exists B', (- A'). split; [rewrite Rabs_Ropp; lra|].
    intros t. simpl. apply (is_derive_ext (trig A' B')); [|apply is_derive_trig].
    intros s. symmetry. apply is_derive_n_unique, H.
Qed.
Lemma hyp_n : forall k A B, exists A' B', Rabs A' + Rabs B' = Rabs A + Rabs B /\ forall t, is_derive_n (hyp A B) k t (hyp A' B' t).
Proof.
  induction k; intros A B.
  - exists A, B. split; [reflexivity|]. intros t. reflexivity.
  - destruct (IHk A B) as (A' & B' & E & H). exists B', A'. split; [lra|].
    intros t. simpl. apply (is_derive_ext (hyp A' B')); [|apply is_derive_hyp].
    intros s. symmetry. apply is_derive_n_unique, H.
Qed.
Lemma ex_of_is : forall f k t l, is_derive_n f k t l -> ex_derive_n f k t.
Proof. intros f [|k] t l H; [exact Logic.I|]. exists l. exact H. Qed.
Lemma smooth_trig : forall n A B, smooth n (trig A B).
Proof. intros n A B k t _. destruct (trig_n k A B) as (A' & B' & _ & H). exact (ex_of_is _ _ _ _ (H t)). Qed.
Lemma smooth_hyp : forall n A B, smooth n (hyp A B).
Proof. intros n A B k t _. destruct (hyp_n k A B) as (A' & B' & _ & H). exact (ex_of_is _ _ _ _ (H t)). Qed.
Lemma trig_bound : forall k A B t, Rabs (Derive_n (trig A B) k t) <= Rabs A + Rabs B.
Proof.
  intros k A B t. destruct (trig_n k A B) as (A' & B' & E & H). rewrite (is_derive_n_unique _ _ _ _ (H t)), <- E.
  unfold trig. eapply Rle_trans; [apply Rabs_triang|]. rewrite !Rabs_mult.
  assert (As : Rabs (sin t) <= 1) by (apply Rabs_le; pose proof (SIN_bound t); lra).
  assert (Ac : Rabs (cos t) <= 1) by (apply Rabs_le; pose proof (COS_bound t); lra).
  pose proof (Rabs_pos A'). pose proof (Rabs_pos B'). nra.
Qed.
Local Transparent sinh cosh.
Lemma hyp_bound : forall k A B t, Rabs (Derive_n (hyp A B) k t) <= (Rabs A + Rabs B) * exp (Rabs t).
Proof.
  intros k A B t. destruct (hyp_n k A B) as (A' & B' & E & H). rewrite (is_derive_n_unique _ _ _ _ (H t)), <- E.
  unfold hyp. eapply Rle_trans; [apply Rabs_triang|]. rewrite !Rabs_mult.
  assert (X : exp t <= exp (Rabs t) /\ exp (- t) <= exp (Rabs t)).
  { assert (M : forall x y, x <= y -> exp x <= exp y) by (intros x y [L| ->]; [left; apply exp_increasing, L|lra]).
    split; apply M; unfold Rabs; destruct (Rcase_abs t); lra. }
  pose proof (exp_pos t). pose proof (exp_pos (- t)).
  assert (Rabs (cosh t) <= exp (Rabs t)) by (unfold cosh; apply Rabs_le; lra).
  assert (Rabs (sinh t) <= exp (Rabs t)) by (unfold sinh; apply Rabs_le; lra).
  pose proof (Rabs_pos A'). pose proof (Rabs_pos B'). nra.
Qed.
Local Opaque sinh cosh.

Lemma smooth_ext : forall n f h, (forall t, f t = h t) -> smooth n f -> smooth n h.
Proof. intros n f h E Sf k t Hk. apply (ex_derive_n_ext f); auto. Qed.

(** u = z: harmonic, even in y. u = y: odd in y, Laplacian 1/y. *)
Lemma fits_z : forall g b, fits g b 1 (fun z _ => z) (fun _ _ => 1) (fun _ _ => 0) (fun _ _ => 0) (fun _ _ => 0) (fun _ _ => 0).
Proof.
  intros g b. split; [|split; [intros; ring|split]].
  - intros z y. repeat split; intros e; exists (mkposreal 1 Rlt_0_1); intros u v _ _;
      match goal with |- Rabs ?x <= _ => replace x with 0 by ring end; rewrite Rabs_R0;
      apply Rmult_le_pos; try (left; apply cond_pos); apply Rle_trans with (Rabs (u - z)); [apply Rabs_pos|apply Rmax_l|apply Rabs_pos|apply Rmax_l|apply Rabs_pos|apply Rmax_l].
  - intros m. apply (smooth_ext _ (trig (ga g * cosh m) 0)); [|apply smooth_trig]. intros t. unfold trig, seen, pz. ring.
  - intros t. apply (smooth_ext _ (hyp (ga g * cos t) 0)); [|apply smooth_hyp]. intros m. unfold hyp, seen, pz. ring.
Qed.
Lemma fits_y : forall g b, fits g b (-1) (fun _ y => y) (fun _ _ => 0) (fun _ _ => 1) (fun _ _ => 0) (fun _ _ => 0) (fun _ _ => 0).
Proof.
  intros g b. split; [|split; [intros; ring|split]].
  - intros z y. repeat split; intros e; exists (mkposreal 1 Rlt_0_1); intros u v _ _;
      match goal with |- Rabs ?x <= _ => replace x with 0 by ring end; rewrite Rabs_R0;
      apply Rmult_le_pos; try (left; apply cond_pos); apply Rle_trans with (Rabs (u - z)); [apply Rabs_pos|apply Rmax_l|apply Rabs_pos|apply Rmax_l|apply Rabs_pos|apply Rmax_l].
  - intros m. apply (smooth_ext _ (trig 0 (ga g * sinh m))); [|apply smooth_trig]. intros t. unfold trig, seen, py. ring.
  - intros t. apply (smooth_ext _ (hyp 0 (ga g * sin t))); [|apply smooth_hyp]. intros m. unfold hyp, seen, py. ring.
Qed.

Lemma bound_z : forall g b t m, exists Ma Mr, lap_bound g b (seen (fun z _ => z) (ga g)) t m Ma Ma Mr Mr.
Proof.
  intros g b t m. set (r := INR b * (gL g / INR (Nr g))).
  exists (Rabs (ga g * cosh m) + Rabs 0), ((Rabs (ga g * cos t) + Rabs 0) * exp (Rabs m + Rabs r)). split.
  - intros s _. rewrite !(Derive_n_ext (fun t0 => seen (fun z _ => z) (ga g) t0 m) (trig (ga g * cosh m) 0))
      by (intros; unfold seen, pz, trig; ring). split; apply trig_bound.
  - intros s Hs. rewrite !(Derive_n_ext (fun m0 => seen (fun z _ => z) (ga g) t m0) (hyp (ga g * cos t) 0))
      by (intros; unfold seen, pz, hyp; ring).
    assert (X : exp (Rabs s) <= exp (Rabs m + Rabs r)).
    { assert (M : forall x y, x <= y -> exp x <= exp y) by (intros x y [L| ->]; [left; apply exp_increasing, L|lra]).
      apply M. fold r in Hs. replace s with (m + (s - m)) by ring. eapply Rle_trans; [apply Rabs_triang|].
      pose proof (Rle_abs r). lra. }
    assert (P : 0 <= Rabs (ga g * cos t) + Rabs 0) by (pose proof (Rabs_pos (ga g * cos t)); rewrite Rabs_R0; lra).
    split; (eapply Rle_trans; [apply hyp_bound|apply Rmult_le_compat_l; auto]).
Qed.
Lemma bound_y : forall g b t m, exists Ma Mr, lap_bound g b (seen (fun _ y => y) (ga g)) t m Ma Ma Mr Mr.
Proof.
  intros g b t m. set (r := INR b * (gL g / INR (Nr g))).
  exists (Rabs 0 + Rabs (ga g * sinh m)), ((Rabs 0 + Rabs (ga g * sin t)) * exp (Rabs m + Rabs r)). split.
  - intros s _. rewrite !(Derive_n_ext (fun t0 => seen (fun _ y => y) (ga g) t0 m) (trig 0 (ga g * sinh m)))
      by (intros; unfold seen, py, trig; ring). split; apply trig_bound.
  - intros s Hs. rewrite !(Derive_n_ext (fun m0 => seen (fun _ y => y) (ga g) t m0) (hyp 0 (ga g * sin t)))
      by (intros; unfold seen, py, hyp; ring).
    assert (X : exp (Rabs s) <= exp (Rabs m + Rabs r)).
    { assert (M : forall x y, x <= y -> exp x <= exp y) by (intros x y [L| ->]; [left; apply exp_increasing, L|lra]).
      apply M. fold r in Hs. replace s with (m + (s - m)) by ring. eapply Rle_trans; [apply Rabs_triang|].
      pose proof (Rle_abs r). lra. }
    assert (P : 0 <= Rabs 0 + Rabs (ga g * sin t)) by (pose proof (Rabs_pos (ga g * sin t)); rewrite Rabs_R0; lra).
    split; (eapply Rle_trans; [apply hyp_bound|apply Rmult_le_compat_l; auto]).
Qed.

Lemma fine_test : fine g_test 4.
Proof.
  destruct g_test_sizes as (A & B & _). split; [exact g_test_ok|]. split; [exact g_test_fd|].
  split; [exact (nine_sharp _ g_test_fd)|]. rewrite A, B. lia.
Qed.

(** A grid carries samples of every function. *)
Lemma sampled_any : forall g F, sampled g F (fun k => F (node (Na g) PI (k mod Na g)) (node (Nr g) (gL g) (k / Na g))).
Proof. intros g F ja jr H. rewrite pos_mod, pos_div by apply H. reflexivity. Qed.
