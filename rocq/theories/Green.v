(** Discrete Green identities: the divergence is minus the adjoint of the gradient with respect to
    the volume element (CADMium/psgrid/operators.py:24-36). *)
From Coq Require Import Reals List Arith Lia Lra ZArith Bool.
From Verif Require Import Base BaseLemmas GridModel GridSpec GridProofs FDProofs OpProofs.
Local Open Scope R_scope.
Local Opaque sinh cosh.

Lemma both_entry_anti : forall b n ds,
  (forall j, (j < 2 * b + 1)%nat -> ds (2 * b + 1 - 1 - j)%nat = -1 * ds j) ->
  forall p q, both_entry b n ds (-1) p q = - both_entry b n ds 1 q p.
Proof.
  intros b n ds Hpar p q. unfold both_entry.
  replace (Z.of_nat p - Z.of_nat q)%Z with (- (Z.of_nat q - Z.of_nat p))%Z by ring.
  rewrite (coefZ_opp b ds (-1) Hpar).
  replace (- 1 - Z.of_nat q - Z.of_nat p)%Z with (- 1 - Z.of_nat p - Z.of_nat q)%Z by ring.
  replace (2 * Z.of_nat n - 1 - Z.of_nat q - Z.of_nat p)%Z with (2 * Z.of_nat n - 1 - Z.of_nat p - Z.of_nat q)%Z by ring.
  ring.
Qed.
Lemma inner_entry_anti : forall b ds,
  (forall j, (j < 2 * b + 1)%nat -> ds (2 * b + 1 - 1 - j)%nat = -1 * ds j) ->
  forall p q, inner_entry b ds (-1) p q = - inner_entry b ds 1 q p.
Proof.
  intros b ds Hpar p q. unfold inner_entry.
  replace (Z.of_nat p - Z.of_nat q)%Z with (- (Z.of_nat q - Z.of_nat p))%Z by ring.
  rewrite (coefZ_opp b ds (-1) Hpar).
  replace (- 1 - Z.of_nat q - Z.of_nat p)%Z with (- 1 - Z.of_nat p - Z.of_nat q)%Z by ring.
  ring.
Qed.
Lemma oDa1_adj : forall g b p q, fd_ok g b -> (b <= Na g)%nat -> (p < Na g)%nat -> (q < Na g)%nat -> oDa1 g p q = - eDa1 g q p.
Proof.
  intros. rewrite (oDa1_entry g b), (eDa1_entry g b) by auto. rewrite (both_entry_anti b (Na g) (d1 g) (d1_parity g b H)).
  unfold Rdiv. ring.
Qed.
Lemma oDr1_adj : forall g b p q, fd_ok g b -> oDr1 g p q = - eDr1 g q p.
Proof.
  intros. rewrite (oDr1_entry g b), (eDr1_entry g b) by auto. rewrite (inner_entry_anti b (d1 g) (d1_parity g b H)).
  unfold Rdiv. ring.
Qed.

(** Summation against an operator whose transpose is minus another one. *)
Lemma adj_sum : forall n (A B : mat) u f,
  (forall i j, (i < n)%nat -> (j < n)%nat -> A i j = - B j i) ->
  sumR n (fun k => u k * matvec n A f k) = - sumR n (fun k => f k * matvec n B u k).
Proof.
  intros n A B u f H. unfold matvec.
  rewrite (sumR_ext n _ (fun k => sumR n (fun j => u k * (A k j * f j)))) by (intros; rewrite <- sumR_scal; reflexivity).
  rewrite sumR_swap, <- sumR_opp. apply sumR_ext. intros j Hj.
  rewrite <- sumR_scal, <- sumR_opp. apply sumR_ext. intros k Hk. rewrite H by auto. ring.
Qed.
Lemma mod_lt_Na : forall g k, (k mod Na g < Na g)%nat.
Proof. intros. apply Nat.mod_upper_bound. pose proof (Na_pos g). lia. Qed.
Lemma eye_sym : forall i j, eye i j = eye j i.
Proof. intros. unfold eye. rewrite Nat.eqb_sym. reflexivity. Qed.

Lemma green_a : forall g b u f, grid_ok g -> fd_ok g b -> (b <= Na g)%nat ->
  sumR (Nelem g) (fun k => gw g k * (u k * gapply g (diva g) f k)) =
  - sumR (Nelem g) (fun k => gw g k * (f k * gapply g (grada g) u k)).
Proof.
  intros g b u f Hg H Hb. unfold diva, grada.
  rewrite (sumR_ext (Nelem g) _ (fun k => u k * matvec (Nelem g) (kron (Na g) eye (oDa1 g)) (fun i => h2 g i * h3 g i * f i) k)).
  2:{ intros k Hk. rewrite gapply_muld, gapply_dmul. unfold C123. rewrite (h_prod g k Hg Hk).
      pose proof (h1_pos g k Hg Hk). pose proof (h3_pos g k Hg Hk). rewrite (h2_h1 g k Hk).
      unfold gapply. field. lra. }
  rewrite (adj_sum _ _ (kron (Na g) eye (eDa1 g))).
  - f_equal. apply sumR_ext. intros k Hk. rewrite gapply_dmul, (h_prod g k Hg Hk).
    pose proof (h1_pos g k Hg Hk). unfold gapply. field. lra.
  - intros i j Hi Hj. unfold kron. rewrite (oDa1_adj g b) by (auto using mod_lt_Na). rewrite (eye_sym (i / Na g)). ring.
Qed.
Lemma green_r : forall g b u f, grid_ok g -> fd_ok g b ->
  sumR (Nelem g) (fun k => gw g k * (u k * gapply g (divr g) f k)) =
  - sumR (Nelem g) (fun k => gw g k * (f k * gapply g (gradr g) u k)).
Proof.
  intros g b u f Hg H. unfold divr, gradr.
  rewrite (sumR_ext (Nelem g) _ (fun k => u k * matvec (Nelem g) (kron (Na g) (oDr1 g) eye) (fun i => h1 g i * h3 g i * f i) k)).
  2:{ intros k Hk. rewrite gapply_muld, gapply_dmul. unfold C123. rewrite (h_prod g k Hg Hk).
      pose proof (h1_pos g k Hg Hk). pose proof (h3_pos g k Hg Hk). rewrite (h2_h1 g k Hk).
      unfold gapply. field. lra. }
  rewrite (adj_sum _ _ (kron (Na g) (eDr1 g) eye)).
  - f_equal. apply sumR_ext. intros k Hk. rewrite gapply_dmul, (h_prod g k Hg Hk).
    pose proof (h1_pos g k Hg Hk). rewrite (h2_h1 g k Hk). unfold gapply. field. lra.
  - intros i j Hi Hj. unfold kron. rewrite (oDr1_adj g b) by auto. rewrite (eye_sym (i mod Na g)). ring.
Qed.
