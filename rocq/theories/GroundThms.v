(** Theorems on the lowest level of every symmetry on three-point grids. *)
From Coq Require Import Reals List Arith Lia Lra ZArith Bool Relations Permutation.
From Verif Require Import Base BaseLemmas GridModel Poly GridSpec GridProofs FDProofs OpProofs AxisProofs GridWitness GridMore SolverModel SolverSpec SolverResp SolverThms
  MaxPrinciple NCSigns MirrorPart ZMatrix Ground.
Import ListNotations.
Local Open Scope R_scope.
Local Opaque sinh cosh.

(** Grid of CADMium/psgrid/finite_difference_2d.py:13-61 with three-point stencils and radial step at most one. *)
Definition three_point (g : grid) : Prop := grid_ok g /\ fd_ok g 1 /\ gL g / INR (Nr g) <= 1.
(** Positive at every grid point. *)
Definition nodeless (g : grid) (u : vec) : Prop := forall k, (k < Nelem g)%nat -> 0 < u k.
Definition somewhere (g : grid) (p : vec) : Prop := exists k, (k < Nelem g)%nat /\ p k <> 0.
(** A positive solution of the discrete Schroedinger equation of angular momentum m in the potential v. *)
Definition ground (g : grid) (m : Z) (v : vec) (a : R) (u : vec) : Prop :=
  nodeless g u /\ eigenpair g (hamiltonian g m) v a u.
(** (H u)_k for the operator with the potential. *)
Definition happ (g : grid) (m : Z) (v u : vec) (k : nat) : R :=
  sumR (Nelem g) (fun j => hamiltonian g m k j * u j) + gw g k * v k * u k.

Section G.
Variable g : grid.
Hypothesis T : three_point g.
Let Hg : grid_ok g. Proof. apply T. Qed.
Let Hf : fd_ok g 1. Proof. apply T. Qed.
Let Hh : gL g / INR (Nr g) <= 1. Proof. apply T. Qed.
Let W : forall k, (k < Nelem g)%nat -> 0 < gw g k.
Proof. intros. apply gw_pos; auto. Qed.

Lemma ground_exists : forall m v, exists a u, ground g m v a u.
Proof.
  intros m v. destruct (positive_exists (Nelem g) (hmat g m v) (gw g)) as (a & u & U & E).
  - apply Nelem_pos.
  - intros. apply hmat_off; auto.
  - exact W.
  - intros. apply hmat_linked; auto.
  - exists a, u. split; [exact U|]. apply eigvec_pair; auto.
Qed.
Lemma ground_lowest_complex : forall m v a u e f p q, ground g m v a u ->
  (somewhere g p \/ somewhere g q) ->
  (forall k, (k < Nelem g)%nat -> happ g m v p k = gw g k * (e * p k - f * q k)) ->
  (forall k, (k < Nelem g)%nat -> happ g m v q k = gw g k * (e * q k + f * p k)) -> a <= e.
Proof.
  intros m v a u e f p q [U E] N P Q.
  destruct (barta (Nelem g) (hmat g m v) (gw g) ltac:(intros; apply hmat_off; auto) u p q e f U) as (k & K & _ & X).
  - destruct N as [(k & K & N)|(k & K & N)]; exists k; auto.
  - intros k K. rewrite hmat_apply by auto. apply P, K.
  - intros k K. rewrite hmat_apply by auto. apply Q, K.
  - rewrite hmat_apply in X by auto. rewrite (E k K) in X. pose proof (Rmult_lt_0_compat _ _ (W k K) (U k K)). nra.
Qed.
Lemma ground_others : forall m v a u e p, ground g m v a u -> somewhere g p -> eigenpair g (hamiltonian g m) v e p ->
  (exists c, c <> 0 /\ e = a /\ forall k, (k < Nelem g)%nat -> p k = c * u k) \/
  (a < e /\ (exists k, (k < Nelem g)%nat /\ p k < 0) /\ exists k, (k < Nelem g)%nat /\ 0 < p k).
Proof.
  intros m v a u e p [U E] N P. apply (others (Nelem g) (hmat g m v) (gw g)); auto.
  - intros. apply hmat_off; auto.
  - intros. apply hmat_linked; auto.
  - apply eigvec_pair; auto.
  - apply eigvec_pair; auto.
Qed.
Lemma nodeless_somewhere : forall u, nodeless g u -> somewhere g u.
Proof. intros u U. exists 0%nat. pose proof (Nelem_pos g). split; auto. pose proof (U 0%nat H). lra. Qed.
Lemma ground_lowest : forall m v a u e p, ground g m v a u -> somewhere g p -> eigenpair g (hamiltonian g m) v e p -> a <= e.
Proof. intros m v a u e p G N P. destruct (ground_others m v a u e p G N P) as [(c & _ & -> & _)|(L & _)]; lra. Qed.
Lemma ground_unique : forall m v a u b t, ground g m v a u -> ground g m v b t ->
  a = b /\ exists c, 0 < c /\ forall k, (k < Nelem g)%nat -> t k = c * u k.
Proof.
  intros m v a u b t G [U E]. destruct (ground_others m v a u b t G (nodeless_somewhere t U) E) as [(c & C & -> & P)|(_ & (k & K & L) & _)].
  - split; auto. exists c. split; auto. pose proof (Nelem_pos g) as Z. pose proof (P 0%nat Z) as Q. pose proof (U 0%nat Z). destruct G as [V _]. pose proof (V 0%nat Z). nra.
  - pose proof (U k K). lra.
Qed.
(** Bounds from a positive trial function. *)
Lemma ground_between : forall m v a u t, ground g m v a u -> nodeless g t ->
  (exists k, (k < Nelem g)%nat /\ happ g m v t k <= a * (gw g k * t k)) /\
  (exists k, (k < Nelem g)%nat /\ a * (gw g k * t k) <= happ g m v t k).
Proof.
  intros m v a u t [U E] P. split.
  - destruct (barta_real (Nelem g) (hmat g m v) (gw g) ltac:(intros; apply hmat_off; auto) t u a P (nodeless_somewhere u U)) as (k & K & X).
    + apply eigvec_pair; auto.
    + rewrite hmat_apply in X by auto. exists k. split; [exact K|]. unfold happ. rewrite <- Rmult_assoc. exact X.
  - destruct (above (Nelem g) (hmat g m v) (gw g) ltac:(intros; apply hmat_off; auto) t u a (Nelem_pos g) P U) as (k & K & X).
    + apply eigvec_pair; auto.
    + rewrite hmat_apply in X by auto. exists k. split; [exact K|]. unfold happ. rewrite <- Rmult_assoc. exact X.
Qed.
(** A constant is flattened only at the outer boundary. *)
Lemma const_row : forall ia ir, is_point g ia ir -> 0 <= gapply g (hamiltonian g 0) (fun _ => 1) (pos g ia ir).
Proof.
  intros ia ir Hp. rewrite hamiltonian_apply by (auto using pos_lt). rewrite lap_parity, lap_form_sg by auto. cbv zeta.
  unfold parity. change (Z.even 0) with true. cbv iota. unfold sgE, sgW, nbN, aline, rline.
  assert (CN : 0 < cN g ia ir) by (apply cN_pos; auto).
  destruct (Nat.eqb_spec (ia + 1) (Na g)), (Nat.eqb_spec ia 0), (Nat.eqb_spec (ir + 1) (Nr g)), (Nat.eqb_spec ir 0); simpl (IZR 0 ^ 2); unfold Rdiv; rewrite ?Rmult_0_l, ?Rmult_0_r; nra.
Qed.
Lemma shift_nonneg : forall m ia ir, is_point g ia ir -> 0 <= (if Z.even m then 0 else axis_part g ia ir) + IZR m ^ 2 * centri g ia ir.
Proof.
  intros m ia ir Hp. destruct (Z.eq_dec m 0) as [->|N]; [simpl; lra|].
  pose proof (shift_order g Hg Hh 0 m ia ir Hp ltac:(lia)) as Q. simpl in Q. simpl. lra.
Qed.
Lemma happ_pos : forall m v u ia ir, is_point g ia ir -> happ g m v u (pos g ia ir)
  = happ g 0 v u (pos g ia ir) + ((if Z.even m then 0 else axis_part g ia ir) + IZR m ^ 2 * centri g ia ir) * u (pos g ia ir).
Proof.
  intros m v u ia ir Hp. unfold happ. pose proof (ham_shift g Hg Hf m u ia ir Hp) as Q. unfold gapply, matvec in Q. rewrite Q. ring.
Qed.
Lemma ground_above_potential : forall m v a u, ground g m v a u -> exists k, (k < Nelem g)%nat /\ v k <= a.
Proof.
  intros m v a u G. destruct (ground_between m v a u (fun _ => 1) G) as [(k & K & X) _]; [intros ? ?; lra|].
  exists k. split; [exact K|]. destruct (pos_surj g k K) as (ia & ir & Hp & ->). rewrite happ_pos in X by auto.
  pose proof (shift_nonneg m ia ir Hp). pose proof (const_row ia ir Hp) as R0. unfold gapply, matvec in R0. unfold happ in X.
  pose proof (W _ K). nra.
Qed.
Lemma levels_above_potential : forall m v e p b, somewhere g p -> eigenpair g (hamiltonian g m) v e p ->
  (forall k, (k < Nelem g)%nat -> b <= v k) -> b <= e.
Proof.
  intros m v e p b N P B. destruct (ground_exists m v) as (a & u & G). destruct (ground_above_potential m v a u G) as (k & K & L).
  pose proof (ground_lowest m v a u e p G N P). pose proof (B k K). lra.
Qed.
(** Change of the potential. *)
Lemma ground_potential : forall m v v' a a' u u', ground g m v a u -> ground g m v' a' u' ->
  (exists k, (k < Nelem g)%nat /\ v' k - v k <= a' - a) /\ (exists k, (k < Nelem g)%nat /\ a' - a <= v' k - v k).
Proof.
  intros m v v' a a' u u' [U E] G'. destruct (ground_between m v' a' u' u G' U) as [(k & K & X) (l & L & Y)].
  split; [exists k|exists l]; (split; [assumption|]).
  - pose proof (E k K) as Q. unfold happ in X. pose proof (Rmult_lt_0_compat _ _ (W k K) (U k K)). nra.
  - pose proof (E l L) as Q. unfold happ in Y. pose proof (Rmult_lt_0_compat _ _ (W l L) (U l L)). nra.
Qed.
(** Change of the angular momentum. *)
Lemma ground_angular : forall m m' v a u e p, (Z.abs m < Z.abs m')%Z -> ground g m v a u -> somewhere g p -> eigenpair g (hamiltonian g m') v e p -> a < e.
Proof.
  intros m m' v a u e p L G N P. destruct (ground_exists m' v) as (a' & u' & G'). pose proof (ground_lowest m' v a' u' e p G' N P).
  destruct G as [U E]. destruct (ground_between m' v a' u' u G' U) as [(k & K & X) _]. pose proof (E k K) as Q.
  destruct (pos_surj g k K) as (ia & ir & Hp & ->). rewrite happ_pos in X by auto. pose proof (happ_pos m v u ia ir Hp) as Y.
  pose proof (shift_order g Hg Hh m m' ia ir Hp L) as S. change (happ g m v u (pos g ia ir) = a * gw g (pos g ia ir) * u (pos g ia ir)) in Q.
  pose proof (U _ K). pose proof (Rmult_lt_0_compat _ _ (W _ K) (U _ K)). rewrite Q in Y. nra.
Qed.
(** A potential with the mirror symmetry. *)
Lemma ground_even : forall m v a u, ground g m v a u -> (forall k, (k < Nelem g)%nat -> mirror1 g v k = v k) ->
  forall k, (k < Nelem g)%nat -> mirror1 g u k = u k.
Proof.
  intros m v a u [U E] V. assert (B : (1 <= Na g)%nat) by apply Na_pos.
  pose proof (mirror_eigenpair g 1 m v a u Hg Hf B E) as M.
  assert (G' : ground g m v a (mirror1 g u)).
  { split.
    - intros k K. destruct (pos_surj g k K) as (ia & ir & Hp & ->). rewrite mirror1_pos by auto. apply U, pos_lt. apply mirror_point; auto.
    - intros k K. pose proof (M k K) as Q. rewrite (V k K) in Q. exact Q. }
  destruct (ground_unique m v a u a (mirror1 g u) (conj U E) G') as (_ & c & C & P).
  assert (C1 : c * c = 1).
  { pose proof (Nelem_pos g) as Z. destruct (pos_surj g 0 Z) as (ia & ir & Hp & Ep). pose proof (P _ Z) as P1. rewrite Ep, mirror1_pos in P1 by auto.
    assert (Z' : (pos g (Na g - 1 - ia) ir < Nelem g)%nat) by (apply pos_lt, mirror_point; auto).
    pose proof (P _ Z') as P2. rewrite mirror1_pos in P2 by (apply mirror_point; auto).
    replace (Na g - 1 - (Na g - 1 - ia))%nat with ia in P2 by (destruct Hp; lia). pose proof (U _ Z). rewrite Ep in H. nra. }
  assert (c = 1) by nra. intros k K. rewrite (P k K). subst c. ring.
Qed.
End G.
