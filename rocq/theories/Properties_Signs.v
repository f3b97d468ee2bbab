(** Property C118: signs of the quadrature weights, positivity of the integral and what follows from it. *)
From Coq Require Import Reals List Arith Lia Lra ZArith Bool.
From Verif Require Import Base BaseLemmas GridModel Poly GridSpec GridProofs NCProofs FDProofs GridWitness GridMore SolverModel HartreeModel HartreeSpec
  PartitionModel PartitionSpec PartitionOverlap Multipole MultipoleThms NCSigns NCSignsThms.
Import ListNotations.
Local Open Scope R_scope.
Local Opaque sinh cosh.

(** * C118 *)
(** With 2 to 8 or 10 points per block, and any number of blocks, every weight of both rules and of their product is positive. *)
Theorem C118_weights : forall g, grid_ok g -> lstsq_ok g -> In (gNP g) [2; 3; 4; 5; 6; 7; 8; 10]%nat ->
  (forall i, (i < Na g)%nat -> 0 < wa g i) /\ (forall j, (j < Nr g)%nat -> 0 < wr g j) /\ (forall k, (k < Nelem g)%nat -> 0 < gwi g k).
Proof.
  intros g Hg Hl HN. pose proof Hg as (_ & HA & HR & _). pose proof Hl as (Hw & Hs & _).
  split; [apply (rule_positive (gNP g) (gNMa g)); auto|]. split; [apply (rule_positive (gNP g) (gNMr g)); auto|]. apply gwi_positive; auto.
Qed.
Print Assumptions C118_weights.
(** On such grids the integral of flat arrays is monotone, strictly positive on functions that are nowhere negative and
    somewhere positive, bounded by the integral of the magnitude, and satisfies the Cauchy-Schwarz inequality. *)
Theorem C118_integrate : forall g, grid_ok g -> lstsq_ok g -> In (gNP g) [2; 3; 4; 5; 6; 7; 8; 10]%nat ->
  let J := fun f : vec => match integrate g (A1 f) with IScal r => r | IArr _ _ => 0 end in
  (forall f h, (forall k, (k < Nelem g)%nat -> f k <= h k) -> J f <= J h) /\
  (forall f, (forall k, (k < Nelem g)%nat -> 0 <= f k) -> 0 <= J f /\ (J f = 0 <-> forall k, (k < Nelem g)%nat -> f k = 0)) /\
  (forall f, Rabs (J f) <= J (fun k => Rabs (f k))) /\
  (forall f h, J (fun k => f k * h k) ^ 2 <= J (fun k => f k ^ 2) * J (fun k => h k ^ 2)).
Proof.
  intros g Hg Hl HN J. pose proof (gwi_positive g Hg Hl HN) as W. split; [exact (int_mono g Hg W)|]. split.
  - intros f Hf. split; [exact (int_nonneg g Hg W f Hf)|]. split; intros Z.
    + apply (int_vanish g Hg W f Hf). change (J f <= 0). rewrite Z. apply Rle_refl.
    + change (integrate1 g f = 0). rewrite <- (int_zero g). unfold integrate1. f_equal. apply sumR_ext. intros k Hk. rewrite Z by exact Hk. reflexivity.
  - split; [exact (int_abs g Hg W)|exact (int_schwarz g Hg W)].
Qed.
Print Assumptions C118_integrate.
(** The same per spin for densities with two columns; for one column integrate has no such meaning (C11). *)
Theorem C118_two_spins : forall g n, grid_ok g -> lstsq_ok g -> In (gNP g) [2; 3; 4; 5; 6; 7; 8; 10]%nat ->
  (forall k s, (k < Nelem g)%nat -> (s < 2)%nat -> 0 <= n k s) ->
  exists N, integrate g (A2 2 n) = IArr 2 N /\ forall s, (s < 2)%nat -> 0 <= N 0%nat s /\ (N 0%nat s = 0 <-> forall k, (k < Nelem g)%nat -> n k s = 0).
Proof.
  intros g n Hg Hl HN Hn. exists (fun _ s => integrate1 g (fun k => n k s)). split; [reflexivity|]. intros s Hs.
  destruct (C118_integrate g Hg Hl HN) as (_ & P & _). apply (P (fun k => n k s)). intros k Hk. apply Hn; auto.
Qed.
Print Assumptions C118_two_spins.
(** The overlap of two fragment densities is at most the geometric mean of their electron numbers, and the weight made of
    it is in [0, 1). *)
Theorem C118_overlap : forall g pol na nb, grid_ok g -> lstsq_ok g -> In (gNP g) [2; 3; 4; 5; 6; 7; 8; 10]%nat ->
  let ta := fun k => sumR pol (fun s => na k s) in let tb := fun k => sumR pol (fun s => nb k s) in
  (forall k, (k < Nelem g)%nat -> 0 <= ta k /\ 0 <= tb k) ->
  0 <= overlap g pol na nb <= sqrt (integrate1 g ta * integrate1 g tb) /\ 0 <= PartitionModel.erf (2 * overlap g pol na nb) < 1.
Proof.
  intros g pol na nb Hg Hl HN ta tb H. pose proof (gwi_positive g Hg Hl HN) as W.
  destruct (overlap_range g pol na nb Hg (fun k Hk => Rlt_le _ _ (W k Hk))) as [P Q]. split; [|exact Q]. split; [exact P|].
  rewrite <- (sqrt_pow2 (overlap g pol na nb)) by exact P. apply sqrt_le_1_alt.
  pose proof (int_schwarz g Hg W (fun k => sqrt (ta k)) (fun k => sqrt (tb k))) as C. cbv beta in C.
  assert (E : forall f h : vec, (forall k, (k < Nelem g)%nat -> f k = h k) -> integrate1 g f = integrate1 g h).
  { intros f h X. unfold integrate1. f_equal. apply sumR_ext. intros k Hk. rewrite X by exact Hk. reflexivity. }
  rewrite (E (fun k => sqrt (ta k) ^ 2) ta) in C by (intros k Hk; apply pow2_sqrt, (H k Hk)).
  rewrite (E (fun k => sqrt (tb k) ^ 2) tb) in C by (intros k Hk; apply pow2_sqrt, (H k Hk)).
  rewrite (E (fun k => sqrt (ta k) * sqrt (tb k)) (fun k => sqrt (ta k * tb k))) in C by (intros k Hk; symmetry; apply sqrt_mult; apply (H k Hk)).
  exact C.
Qed.
Print Assumptions C118_overlap.
(** C117_nonneg without its condition on the weights. *)
Theorem C118_hartree : forall g spL spU L U (n : nat -> nat -> R) cols v rho,
  grid_ok g -> lstsq_ok g -> In (gNP g) [2; 3; 4; 5; 6; 7; 8; 10]%nat -> fd_ok g 1 -> gL g / INR (Nr g) <= 1 ->
  solver_for (Nelem g) L spL -> solver_for (Nelem g) U spU ->
  (forall i j, (i < Nelem g)%nat -> (j < Nelem g)%nat -> matmul (Nelem g) L U i j = elap g i j) ->
  v_hartree g spL spU (A2 cols n) = Ok v ->
  let tot := fun k => sumR cols (fun s => n k s) in
  (forall k, (k < Nelem g)%nat -> 0 <= tot k) -> inside g tot rho -> 0 <= rho -> 2 * rho <= r_ghosts g ->
  forall k, (k < Nelem g)%nat -> 0 <= entry v k 0.
Proof.
  intros g spL spU L U n cols v rho Hg Hl HN HF H1 HL HU HLU Ev tot Ht. pose proof (gwi_positive g Hg Hl HN) as W.
  apply (nonneg_explicit g spL spU L U n cols v rho Hg HF H1 HL HU HLU Ev). intros k Hk. split; [apply Ht; auto|].
  apply Rmult_le_pos; [apply Rlt_le, W; auto|apply Ht; auto].
Qed.
Print Assumptions C118_hartree.
(** With 9 points per block all of this fails: the fifth weight of each rule is negative, so some function that is
    nowhere negative has a negative integral, on every such grid. *)
Theorem C118_nine_refuted : forall g, grid_ok g -> lstsq_ok g -> gNP g = 9%nat ->
  wa g 4%nat < 0 /\ wr g 4%nat < 0 /\ exists f, (forall k, 0 <= f k) /\ exists r, integrate g (A1 f) = IScal r /\ r < 0.
Proof.
  intros g Hg Hl EN. pose proof Hg as (_ & HA & HR & _). pose proof Hl as (Hw & Hs & _). destruct (nine_refuted g Hg Hl EN) as (f & F & Z).
  rewrite EN in Hw, Hs. unfold wa, wr. rewrite EN. split; [exact (nine_negative _ _ _ HA Hw Hs)|]. split; [exact (nine_negative _ _ _ HR Hw Hs)|].
  exists f. split; [exact F|]. exists (integrate1 g f). split; [reflexivity|exact Z].
Qed.
Print Assumptions C118_nine_refuted.
(** The grid of the project's tests (7 points per block, 4 x 4 blocks) and one with 9 points per block. *)
Lemma C118_witness : (grid_ok g_test /\ lstsq_ok g_test /\ In (gNP g_test) [2; 3; 4; 5; 6; 7; 8; 10]%nat) /\
  (let g := grid_of 9 3 2 1 3 4 in grid_ok g /\ lstsq_ok g /\ gNP g = 9%nat).
Proof.
  split; [split; [exact g_test_ok|]; split; [exact g_test_lstsq|]; cbn; tauto|].
  split; [apply grid_of_ok; try lia; lra|]. split; [apply grid_of_lstsq|reflexivity].
Qed.
(** C118_hartree on the 2 x 2 grid of C117_witness. *)
Lemma C118_hartree_witness : grid_ok g_wide /\ lstsq_ok g_wide /\ In (gNP g_wide) [2; 3; 4; 5; 6; 7; 8; 10]%nat /\ fd_ok g_wide 1 /\
  gL g_wide / INR (Nr g_wide) <= 1 /\ inside g_wide (fun _ => 1) (r_points g_wide) /\ 0 <= r_points g_wide /\ 2 * r_points g_wide <= r_ghosts g_wide.
Proof.
  split; [exact wide_ok|]. split; [apply grid_of_lstsq|]. split; [cbn; tauto|]. split; [exact wide_fd|]. split; [rewrite wide_step; lra|].
  split; [apply points_within, wide_ok|]. split; [apply points_nonneg, wide_ok|exact wide_half].
Qed.
