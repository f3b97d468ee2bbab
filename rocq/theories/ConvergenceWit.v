(** A potential to which the convergence theorem applies: the field inside a uniform charge density. *)
From Coq Require Import Reals List Lia Lra ZArith.
From Coquelicot Require Import Coquelicot.
From Verif Require Import Base BaseLemmas GridModel Poly GridSpec GridProofs FDProofs OpProofs LapCont GridWitness GridMore
  SolverModel HartreeModel HartreeSpec HartreeProofs LinAlg MaxPrinciple HartreeThms Accuracy AccuracyOp AccuracyWit Convergence.
Import ListNotations.
Local Open Scope R_scope.
Local Opaque sinh cosh.

(** Constants plus cos 2t, sin 2t; constants plus cosh 2m, sinh 2m. *)
Definition trig2 (C A B t : R) : R := C + A * cos (2 * t) + B * sin (2 * t).
Definition hyp2 (C A B t : R) : R := C + A * cosh (2 * t) + B * sinh (2 * t).

Lemma is_derive_trig2 : forall C A B t, is_derive (trig2 C A B) t (trig2 0 (2 * B) (-2 * A) t).
Proof. intros C A B t. unfold trig2. auto_derive; auto. ring. Qed.
Lemma is_derive_hyp2 : forall C A B t, is_derive (hyp2 C A B) t (hyp2 0 (2 * B) (2 * A) t).
Proof.
  intros C A B t.
  assert (T : is_derive (fun x : R => 2 * x) t 2) by (auto_derive; auto; ring).
  pose proof (is_derive_comp cosh (fun x => 2 * x) t _ _ (is_derive_cosh (2 * t)) T) as D1.
  pose proof (is_derive_comp sinh (fun x => 2 * x) t _ _ (is_derive_sinh (2 * t)) T) as D2.
  pose proof (is_derive_plus _ _ _ _ _ (is_derive_plus _ _ _ _ _ (is_derive_const C t) (is_derive_scal _ _ A _ D1)) (is_derive_scal _ _ B _ D2)) as D.
  unfold hyp2. evar_last; [exact D|]. unfold plus, scal, zero. simpl. unfold mult. simpl. ring.
Qed.
Lemma trig2_n : forall k C A B, exists C' A' B', forall t, is_derive_n (trig2 C A B) k t (trig2 C' A' B' t).
Proof.
  induction k; intros C A B; [exists C, A, B; reflexivity|].
  destruct (IHk C A B) as (C' & A' & B' & H). exists 0, (2 * B'), (-2 * A'). intros t. simpl.
  apply (is_derive_ext (trig2 C' A' B')); [|apply is_derive_trig2]. intros s. symmetry. apply is_derive_n_unique, H.
Qed.
Lemma hyp2_n : forall k C A B, exists C' A' B', forall t, is_derive_n (hyp2 C A B) k t (hyp2 C' A' B' t).
Proof.
  induction k; intros C A B; [exists C, A, B; reflexivity|].
  destruct (IHk C A B) as (C' & A' & B' & H). exists 0, (2 * B'), (2 * A'). intros t. simpl.
  apply (is_derive_ext (hyp2 C' A' B')); [|apply is_derive_hyp2]. intros s. symmetry. apply is_derive_n_unique, H.
Qed.
Lemma smooth_trig2 : forall n C A B, smooth n (trig2 C A B).
Proof. intros n C A B k t _. destruct (trig2_n k C A B) as (C' & A' & B' & H). exact (ex_of_is _ _ _ _ (H t)). Qed.
Lemma smooth_hyp2 : forall n C A B, smooth n (hyp2 C A B).
Proof. intros n C A B k t _. destruct (hyp2_n k C A B) as (C' & A' & B' & H). exact (ex_of_is _ _ _ _ (H t)). Qed.

(** Higher derivatives do not depend on the constant, and are bounded on every interval around the origin. *)
Lemma trig2_S : forall k A B, exists A' B', forall C t, is_derive_n (trig2 C A B) (S k) t (trig2 0 A' B' t).
Proof.
  induction k; intros A B.
  - exists (2 * B), (-2 * A). intros C t. apply is_derive_trig2.
  - destruct (IHk A B) as (A' & B' & H). exists (2 * B'), (-2 * A'). intros C t.
    apply (is_derive_ext (trig2 0 A' B')); [|apply is_derive_trig2]. intros s. symmetry. apply is_derive_n_unique, H.
Qed.
Lemma hyp2_S : forall k A B, exists A' B', forall C t, is_derive_n (hyp2 C A B) (S k) t (hyp2 0 A' B' t).
Proof.
  induction k; intros A B.
  - exists (2 * B), (2 * A). intros C t. apply is_derive_hyp2.
  - destruct (IHk A B) as (A' & B' & H). exists (2 * B'), (2 * A'). intros C t.
    apply (is_derive_ext (hyp2 0 A' B')); [|apply is_derive_hyp2]. intros s. symmetry. apply is_derive_n_unique, H.
Qed.
Lemma trig2_bound : forall A B k, exists M, forall C t, Rabs (Derive_n (trig2 C A B) (S k) t) <= M.
Proof.
  intros A B k. destruct (trig2_S k A B) as (A' & B' & H). exists (Rabs A' + Rabs B'). intros C t.
  rewrite (is_derive_n_unique _ _ _ _ (H C t)). unfold trig2. rewrite Rplus_0_l.
  eapply Rle_trans; [apply Rabs_triang|]. rewrite !Rabs_mult.
  assert (As : Rabs (sin (2 * t)) <= 1) by (apply Rabs_le; pose proof (SIN_bound (2 * t)); lra).
  assert (Ac : Rabs (cos (2 * t)) <= 1) by (apply Rabs_le; pose proof (COS_bound (2 * t)); lra).
  pose proof (Rabs_pos A'). pose proof (Rabs_pos B'). nra.
Qed.
Local Transparent sinh cosh.
Lemma hyp2_bound : forall A B k r, exists M, forall C t, Rabs t <= r -> Rabs (Derive_n (hyp2 C A B) (S k) t) <= M.
Proof.
  intros A B k r. destruct (hyp2_S k A B) as (A' & B' & H). exists ((Rabs A' + Rabs B') * exp (2 * r)). intros C t Ht.
  rewrite (is_derive_n_unique _ _ _ _ (H C t)). unfold hyp2. rewrite Rplus_0_l.
  eapply Rle_trans; [apply Rabs_triang|]. rewrite !Rabs_mult.
  apply Rabs_le_between in Ht.
  assert (M : forall x y, x <= y -> exp x <= exp y) by (intros x y [L| ->]; [left; apply exp_increasing, L|lra]).
  pose proof (M (2 * t) (2 * r) ltac:(lra)). pose proof (M (- (2 * t)) (2 * r) ltac:(lra)).
  pose proof (exp_pos (2 * t)). pose proof (exp_pos (- (2 * t))).
  assert (Rabs (cosh (2 * t)) <= exp (2 * r)) by (unfold cosh; apply Rabs_le; lra).
  assert (Rabs (sinh (2 * t)) <= exp (2 * r)) by (unfold sinh; apply Rabs_le; lra).
  pose proof (Rabs_pos A'). pose proof (Rabs_pos B'). nra.
Qed.
Lemma cosh_double : forall m, cosh (2 * m) = 2 * cosh m ^ 2 - 1.
Proof.
  intros m. unfold cosh. replace (2 * m) with (m + m) by ring. replace (- (m + m)) with (- m + - m) by ring. rewrite !exp_plus.
  assert (exp m * exp (- m) = 1) by (rewrite <- exp_plus, Rplus_opp_r, exp_0; reflexivity). nra.
Qed.
Local Opaque sinh cosh.

(** u = c (z^2 + y^2), whose Laplacian is 6 c. *)
Definition ball (c z y : R) : R := c * (z ^ 2 + y ^ 2).
Lemma seen_ball : forall c a t m, seen (ball c) a t m = c * a ^ 2 * ((cosh (2 * m) + cos (2 * t)) / 2).
Proof.
  intros c a t m. unfold seen, ball, pz, py. rewrite cosh_double, cos_2a_cos.
  pose proof (cosh2_sinh2 m) as E. pose proof (sin2_cos2 t) as F. unfold Rsqr in F.
  replace ((a * sinh m * sin t) ^ 2) with (a ^ 2 * (sinh m ^ 2) * (sin t * sin t)) by ring.
  replace (sinh m ^ 2) with (cosh m ^ 2 - 1) by lra. replace (sin t * sin t) with (1 - cos t * cos t) by lra. field.
Qed.
Lemma diff2_lin : forall p q r z y, differentiable_pt_lim (fun z y => p * z + q * y + r) z y p q.
Proof.
  intros p q r z y e. exists (mkposreal 1 Rlt_0_1). intros u v _ _.
  match goal with |- Rabs ?x <= _ => replace x with 0 by ring end. rewrite Rabs_R0.
  apply Rmult_le_pos; [left; apply cond_pos|]. apply Rle_trans with (Rabs (u - z)); [apply Rabs_pos|apply Rmax_l].
Qed.
Lemma fits_ball : forall g b c, fits g b 1 (ball c) (fun z _ => 2 * c * z) (fun _ y => 2 * c * y) (fun _ _ => 2 * c) (fun _ _ => 0) (fun _ _ => 2 * c).
Proof.
  intros g b c. split; [|split; [intros; unfold ball; ring|split]].
  - intros z y. split; [|split].
    + intros e. assert (H : 0 < e / (2 * (Rabs c + 1))) by (apply Rdiv_lt_0_compat; [apply cond_pos|pose proof (Rabs_pos c); lra]).
      exists (mkposreal _ H). intros u v Hu Hv. simpl in Hu, Hv. unfold ball.
      replace (c * (u ^ 2 + v ^ 2) - c * (z ^ 2 + y ^ 2) - (2 * c * z * (u - z) + 2 * c * y * (v - y)))
        with (c * ((u - z) ^ 2 + (v - y) ^ 2)) by ring.
      rewrite Rabs_mult. set (d := Rmax (Rabs (u - z)) (Rabs (v - y))).
      assert (D1 : Rabs (u - z) <= d) by apply Rmax_l. assert (D2 : Rabs (v - y) <= d) by apply Rmax_r.
      assert (D3 : d <= e / (2 * (Rabs c + 1))) by (apply Rmax_lub; lra).
      pose proof (Rabs_pos (u - z)). pose proof (Rabs_pos (v - y)). pose proof (Rabs_pos c).
      assert (Q : forall x, x ^ 2 = Rabs x * Rabs x) by (intros x; rewrite <- Rabs_mult; rewrite Rabs_right; [ring|apply Rle_ge; pose proof (pow2_ge_0 x); lra]).
      rewrite (Rabs_right ((u - z) ^ 2 + (v - y) ^ 2)) by (apply Rle_ge, Rplus_le_le_0_compat; apply pow2_ge_0).
      rewrite (Q (u - z)), (Q (v - y)).
      assert (Rabs (u - z) * Rabs (u - z) <= d * d) by (apply Rmult_le_compat; lra).
      assert (Rabs (v - y) * Rabs (v - y) <= d * d) by (apply Rmult_le_compat; lra).
      apply Rle_trans with (2 * Rabs c * d * d); [|].
      * apply Rle_trans with (Rabs c * (2 * (d * d))); [apply Rmult_le_compat_l; lra|apply Req_le; ring].
      * apply Rmult_le_compat_r; [lra|]. apply Rle_trans with (2 * (Rabs c + 1) * d); [nra|].
        apply Rle_trans with (2 * (Rabs c + 1) * (e / (2 * (Rabs c + 1)))); [apply Rmult_le_compat_l; lra|apply Req_le; field; lra].
    + apply (differentiable_pt_lim_ext (fun z y => 2 * c * z + 0 * y + 0)); [|apply diff2_lin].
      exists (mkposreal 1 Rlt_0_1). intros. ring.
    + apply (differentiable_pt_lim_ext (fun z y => 0 * z + 2 * c * y + 0)); [|apply diff2_lin].
      exists (mkposreal 1 Rlt_0_1). intros. ring.
  - intros m. apply (smooth_ext _ (trig2 (c * ga g ^ 2 * (cosh (2 * m) / 2)) (c * ga g ^ 2 / 2) 0)); [|apply smooth_trig2].
    intros t. rewrite seen_ball. unfold trig2. field.
  - intros t. apply (smooth_ext _ (hyp2 (c * ga g ^ 2 * (cos (2 * t) / 2)) (c * ga g ^ 2 / 2) 0)); [|apply smooth_hyp2].
    intros m. rewrite seen_ball. unfold hyp2. field.
Qed.

Lemma fourth_ball : forall g c, exists Ma Mr, fourth g (seen (ball c) (ga g)) Ma Mr.
Proof.
  intros g c. destruct (trig2_bound (c * ga g ^ 2 / 2) 0 3) as (Ma & HA).
  destruct (hyp2_bound (c * ga g ^ 2 / 2) 0 3 (outer g)) as (Mr & HR). exists Ma, Mr. split.
  - intros ir t _. set (m := node (Nr g) (gL g) ir).
    rewrite (Derive_n_ext _ (trig2 (c * ga g ^ 2 * (cosh (2 * m) / 2)) (c * ga g ^ 2 / 2) 0)); [apply HA|].
    intros s. rewrite seen_ball. unfold trig2. field.
  - intros ia m _ Hm. set (t := node (Na g) PI ia).
    rewrite (Derive_n_ext _ (hyp2 (c * ga g ^ 2 * (cos (2 * t) / 2)) (c * ga g ^ 2 / 2) 0)); [apply HR, Hm|].
    intros s. rewrite seen_ball. unfold hyp2. field.
Qed.

Lemma finite_bound : forall n (f : nat -> R), exists d, forall i, (i < n)%nat -> Rabs (f i) <= d.
Proof.
  induction n; intros f; [exists 0; intros; lia|]. destruct (IHn f) as (d & Hd). exists (Rmax d (Rabs (f n))). intros i Hi.
  destruct (Nat.eq_dec i n) as [->|]; [apply Rmax_r|]. eapply Rle_trans; [apply Hd; lia|apply Rmax_l].
Qed.

(** Charge density 1 everywhere: the potential -2 pi/3 (z^2 + y^2) solves Poisson's equation. *)
Lemma ball_poisson : forall g ia ir, grid_ok g -> is_point g ia ir -> let c := - (2 * PI / 3) in
  lap_at (fun _ y => 2 * c * y) (fun _ _ => 2 * c) (fun _ _ => 2 * c) (ga g) (node (Na g) PI ia) (node (Nr g) (gL g) ir)
  = - 4 * PI * sumR 1 (fun _ => 1).
Proof.
  intros g ia ir Hg Hp c. unfold lap_at. set (y := py _ _ _).
  assert (0 < y).
  { unfold y, py. apply Rmult_lt_0_compat; [apply Rmult_lt_0_compat; [apply Hg|]|].
    - apply sinh_pos, node_range; [apply Hp|apply Hg].
    - apply snP, Hp. }
  simpl sumR. unfold c. field. lra.
Qed.
Theorem converging_case : exists spL spU L U v Ma Mr delta, let n := fun _ _ : nat => 1 in let c := - (2 * PI / 3) in
  grid_ok g3p /\ fd_ok g3p 1 /\ gL g3p / INR (Nr g3p) <= 1 /\
  solver_for (Nelem g3p) L spL /\ solver_for (Nelem g3p) U spU /\
  (forall i j, (i < Nelem g3p)%nat -> (j < Nelem g3p)%nat -> matmul (Nelem g3p) L U i j = elap g3p i j) /\
  v_hartree g3p spL spU (A2 1 n) = Ok v /\
  fits g3p 1 1 (ball c) (fun z _ => 2 * c * z) (fun _ y => 2 * c * y) (fun _ _ => 2 * c) (fun _ _ => 0) (fun _ _ => 2 * c) /\
  fourth g3p (seen (ball c) (ga g3p)) Ma Mr /\
  (forall ia ir, is_point g3p ia ir ->
     lap_at (fun _ y => 2 * c * y) (fun _ _ => 2 * c) (fun _ _ => 2 * c) (ga g3p) (node (Na g3p) PI ia) (node (Nr g3p) (gL g3p) ir)
     = - 4 * PI * sumR 1 (fun s => n (pos g3p ia ir) s)) /\
  (forall ia, (ia < Na g3p)%nat ->
     Rabs (multipole g3p (fun k => sumR 1 (fun s => n k s)) (ghostZ g3p ia 0) (ghostY g3p ia 0)
           - ball c (ghostZ g3p ia 0) (ghostY g3p ia 0)) <= delta) /\
  is_point g3p 3 5.
Proof.
  destruct g3p_spacing as (A & B & C). destruct g3p_factors as (spL & spU & L & U & _ & HL & HU & _ & _ & HLU).
  set (c := - (2 * PI / 3)). destruct (fourth_ball g3p c) as (Ma & Mr & HM).
  destruct (hartree_succeeds g3p spL spU 1 (fun _ _ => 1) B (Nr_pos g3p)) as [(v & Ev) _].
  destruct (finite_bound (Na g3p) (fun ia => multipole g3p (fun k => sumR 1 (fun s => 1)) (ghostZ g3p ia 0) (ghostY g3p ia 0)
           - ball c (ghostZ g3p ia 0) (ghostY g3p ia 0))) as (delta & HD).
  exists spL, spU, L, U, v, Ma, Mr, delta. cbv zeta. fold c.
  split; [exact A|]. split; [exact B|]. split; [exact C|]. split; [exact HL|]. split; [exact HU|]. split; [exact HLU|].
  split; [exact Ev|]. split; [apply fits_ball|]. split; [exact HM|].
  split; [intros; apply ball_poisson; auto|]. split; [exact HD|]. split; compute; lia.
Qed.
