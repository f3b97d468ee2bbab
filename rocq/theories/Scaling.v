(** Uniform scaling: what happens to the grid, the operators and the solvers when the distance between
    the nuclei changes and nothing else does. *)
From Coq Require Import Reals List Arith Lia Lra ZArith Bool.
From Verif Require Import Base BaseLemmas GridModel GridSpec HartreeModel HartreeSpec SolverModel.
Import ListNotations.
Local Open Scope R_scope.

(** The grid built from the same arguments except for the half distance between the nuclei. *)
Definition stretch (lam : R) (g : grid) : grid :=
  mkGrid (gNP g) (gNMa g) (gNMr g) (lam * ga g) (gL g) (gloc g) (ls_nc g) (ls_nc1 g) (ls_fd1 g) (ls_fd2 g).

Lemma mirror_scal (g : grid) (c : R) (f h : vec) (k : nat) :
  (forall x, f x = c * h x) -> mirror1 g f k = c * mirror1 g h k.
Proof. intro H. unfold mirror1, mirror_flat, ravel3, square. apply H. Qed.

Lemma half_scal (g : grid) (c : R) (f h : vec) (k : nat) :
  (forall x, f x = c * h x) -> 1 / 2 * (f k + mirror1 g f k) = c * (1 / 2 * (h k + mirror1 g h k)).
Proof. intro H. rewrite (mirror_scal g c f h k H), (H k). ring. Qed.

Section Scaling.
Variables (lam : R) (g : grid).
Hypothesis Hl : 0 < lam.
Hypothesis Ha : 0 < ga g.
Let g' := stretch lam g.

Lemma sc_Z (k : nat) : gZ g' k = lam * gZ g k.
Proof.
  unfold gZ. rewrite (mirror_scal g' lam (Z0 g') (Z0 g) k).
  - change (mirror1 g' (Z0 g) k) with (mirror1 g (Z0 g) k).
    unfold Z0. change (ga g') with (lam * ga g). change (Xr g') with (Xr g). change (Xa g') with (Xa g). ring.
  - intro x. unfold Z0. change (ga g') with (lam * ga g). change (Xr g') with (Xr g). change (Xa g') with (Xa g). ring.
Qed.

Lemma sc_Y (k : nat) : gY g' k = lam * gY g k.
Proof.
  apply (half_scal g). intro x. unfold Y0. change (ga g') with (lam * ga g).
  change (Xr g') with (Xr g). change (Xa g') with (Xa g). ring.
Qed.

Lemma sc_w (k : nat) : gw g' k = lam ^ 3 * gw g k.
Proof.
  apply (half_scal g). intro x. unfold w0. change (ga g') with (lam * ga g).
  change (Xr g') with (Xr g). change (Xa g') with (Xa g). ring.
Qed.

Lemma sc_f (k : nat) : gf g' k = / lam ^ 2 * gf g k.
Proof.
  apply (half_scal g). intro x. unfold f0. change (ga g') with (lam * ga g).
  change (Xr g') with (Xr g). change (Xa g') with (Xa g).
  replace ((2 * (lam * ga g)) ^ 2) with (lam ^ 2 * (2 * ga g) ^ 2) by ring.
  unfold Rdiv. rewrite Rinv_mult. ring.
Qed.

Lemma sc_coulomb (Za Zb : R) (k : nat) : coulomb g' Za Zb k = / lam * coulomb g Za Zb k.
Proof.
  unfold coulomb. change (ga g') with (lam * ga g). change (Xr g') with (Xr g). change (Xa g') with (Xa g).
  unfold Rdiv. rewrite Rinv_mult. ring.
Qed.

Lemma coulomb_charge (Za Zb c : R) (k : nat) : coulomb g (c * Za) (c * Zb) k = c * coulomb g Za Zb k.
Proof. unfold coulomb, Rdiv. ring. Qed.

Lemma sc_integrate (f : vec) : integrate1 g' f = lam ^ 3 * integrate1 g f.
Proof.
  unfold integrate1. change (iprefac g') with (iprefac g). change (Nelem g') with (Nelem g).
  rewrite (sumR_ext _ _ (fun k => lam ^ 3 * (gwi g k * gw g k * f k))).
  - rewrite sumR_scal. ring.
  - intros k _. rewrite sc_w. change (gwi g' k) with (gwi g k). ring.
Qed.

Lemma sc_elap (i j : nat) : elap g' i j = lam * elap g i j.
Proof.
  unfold elap, madd, kron, eLa, eLr, mscal, madd. change (ga g') with (lam * ga g).
  change (Na g') with (Na g). change (Xr1d g') with (Xr1d g). change (Xa1d g') with (Xa1d g).
  change (eDa2 g') with (eDa2 g). change (eDa1 g') with (eDa1 g).
  change (eDr2 g') with (eDr2 g). change (eDr1 g') with (eDr1 g). ring.
Qed.

Lemma sc_olap (i j : nat) : olap g' i j = lam * olap g i j.
Proof.
  unfold olap, madd, kron, oLa, oLr, mscal, madd. change (ga g') with (lam * ga g).
  change (Na g') with (Na g). change (Xr1d g') with (Xr1d g). change (Xa1d g') with (Xa1d g).
  change (oDa2 g') with (oDa2 g). change (oDa1 g') with (oDa1 g).
  change (oDr2 g') with (oDr2 g). change (oDr1 g') with (oDr1 g). ring.
Qed.

Lemma sc_blap (i j : nat) : blap g' i j = lam * blap g i j.
Proof.
  unfold blap, kron, bLr, mscal, madd. change (ga g') with (lam * ga g).
  change (Na g') with (Na g). change (Xr1d g') with (Xr1d g). change (Xa1d g') with (Xa1d g).
  change (Nr g') with (Nr g). change (bcN g') with (bcN g).
  change (bc1 g') with (bc1 g). change (bc2 g') with (bc2 g). ring.
Qed.

Lemma sc_h1 (k : nat) : h1 g' k = lam * h1 g k.
Proof.
  apply (half_scal g). intro x. unfold h1_0. change (ga g') with (lam * ga g).
  change (Xr g') with (Xr g). change (Xa g') with (Xa g). ring.
Qed.
Lemma sc_h2 (k : nat) : h2 g' k = lam * h2 g k.
Proof.
  apply (half_scal g). intro x. unfold h2_0. change (ga g') with (lam * ga g).
  change (Xr g') with (Xr g). change (Xa g') with (Xa g). ring.
Qed.
Lemma sc_h3 (k : nat) : h3 g' k = lam * h3 g k.
Proof.
  apply (half_scal g). intro x. unfold h3_0. change (ga g') with (lam * ga g).
  change (Xr g') with (Xr g). change (Xa g') with (Xa g). ring.
Qed.

#[local] Opaque h1 h2 h3.

Lemma sc_gradr (i j : nat) : gradr g' i j = / lam * gradr g i j.
Proof.
  unfold gradr, dmul. rewrite sc_h2. change (Na g') with (Na g). change (eDr1 g') with (eDr1 g).
  unfold Rdiv. rewrite Rinv_mult. ring.
Qed.
Lemma sc_grada (i j : nat) : grada g' i j = / lam * grada g i j.
Proof.
  unfold grada, dmul. rewrite sc_h1. change (Na g') with (Na g). change (eDa1 g') with (eDa1 g).
  unfold Rdiv. rewrite Rinv_mult. ring.
Qed.
Lemma sc_C (i : nat) : C123 g' i = / lam ^ 3 * C123 g i.
Proof.
  unfold C123.
  assert (E : h1 g' i * h2 g' i * h3 g' i = lam ^ 3 * (h1 g i * h2 g i * h3 g i)).
  { transitivity ((lam * h1 g i) * (lam * h2 g i) * (lam * h3 g i)); [|ring].
    apply f_equal2; [apply f_equal2; [apply sc_h1|apply sc_h2]|apply sc_h3]. }
  rewrite E. unfold Rdiv. rewrite Rinv_mult. ring.
Qed.

Lemma sc_divr (i j : nat) : divr g' i j = / lam * divr g i j.
Proof.
  unfold divr, muld, dmul. rewrite sc_C.
  assert (E : h1 g' j * h3 g' j = lam ^ 2 * (h1 g j * h3 g j)) by (rewrite (sc_h1 j), (sc_h3 j); ring).
  rewrite E. change (Na g') with (Na g). change (oDr1 g') with (oDr1 g). field. lra.
Qed.
Lemma sc_diva (i j : nat) : diva g' i j = / lam * diva g i j.
Proof.
  unfold diva, muld, dmul. rewrite sc_C.
  assert (E : h2 g' j * h3 g' j = lam ^ 2 * (h2 g j * h3 g j)) by (rewrite (sc_h2 j), (sc_h3 j); ring).
  rewrite E. change (Na g') with (Na g). change (oDa1 g') with (oDa1 g). field. lra.
Qed.

Lemma sc_ham (m : Z) (i j : nat) : hamiltonian g' m i j = lam * hamiltonian g m i j.
Proof.
  unfold hamiltonian, diagflat. rewrite sc_w, sc_f.
  destruct (m mod 2 =? 0)%Z; [rewrite sc_elap | rewrite sc_olap];
    destruct (i =? j)%nat; field; lra.
Qed.

End Scaling.
