(** Properties C119 to C123: the levels of the three-point Hamiltonians and those that calc_orbitals finds. *)
From Coq Require Import Reals List Arith Lia Lra ZArith Bool.
From Verif Require Import Base BaseLemmas GridModel Poly GridSpec GridProofs FDProofs AxisProofs GridWitness GridMore HartreeModel HartreeSpec HartreeThms SolverModel SolverSpec SolverThms
  SolverCases ZMatrix ZSym Ground GroundThms GroundSolve GroundSym.
Import ListNotations.
Local Open Scope R_scope.
Local Opaque sinh cosh.

(** * C119 *)
(** In every potential and for every angular momentum there is a level with an orbital that is positive at every grid
    point, and no other level, not even the real part of a complex one, is lower. *)
Theorem C119_ground_level : forall g m v, three_point g ->
  exists a u, (forall k, (k < Nelem g)%nat -> 0 < u k) /\ eigenpair g (hamiltonian g m) v a u /\
    forall e f p q, (exists k, (k < Nelem g)%nat /\ (p k <> 0 \/ q k <> 0)) ->
      (forall k, (k < Nelem g)%nat -> sumR (Nelem g) (fun j => hamiltonian g m k j * p j) + gw g k * v k * p k = gw g k * (e * p k - f * q k)) ->
      (forall k, (k < Nelem g)%nat -> sumR (Nelem g) (fun j => hamiltonian g m k j * q j) + gw g k * v k * q k = gw g k * (e * q k + f * p k)) ->
      a <= e.
Proof.
  intros g m v T. destruct (ground_exists g T m v) as (a & u & G). exists a, u. split; [apply G|]. split; [apply G|].
  intros e f p q (k & K & N) P Q. apply (ground_lowest_complex g T m v a u e f p q G); auto.
  destruct N; [left|right]; exists k; auto.
Qed.
Print Assumptions C119_ground_level.
(** Every orbital is a multiple of the positive one or belongs to a strictly higher level and takes both signs. *)
Theorem C119_simple : forall g m v a u e p, three_point g -> ground g m v a u ->
  (exists k, (k < Nelem g)%nat /\ p k <> 0) -> eigenpair g (hamiltonian g m) v e p ->
  (exists c, c <> 0 /\ e = a /\ forall k, (k < Nelem g)%nat -> p k = c * u k) \/
  (a < e /\ (exists k, (k < Nelem g)%nat /\ p k < 0) /\ exists k, (k < Nelem g)%nat /\ 0 < p k).
Proof. intros g m v a u e p T. exact (ground_others g T m v a u e p). Qed.
Print Assumptions C119_simple.
(** Every positive trial function t gives a lower and an upper bound: the level lies between the smallest and the largest
    of the quotients (H t)_k / (w_k t_k). *)
Theorem C119_bounds : forall g m v a u t lo hi, three_point g -> ground g m v a u -> (forall k, (k < Nelem g)%nat -> 0 < t k) ->
  (forall k, (k < Nelem g)%nat ->
     lo <= (sumR (Nelem g) (fun j => hamiltonian g m k j * t j) + gw g k * v k * t k) / (gw g k * t k) <= hi) -> lo <= a <= hi.
Proof.
  intros g m v a u t lo hi T G P B. destruct (ground_between g T m v a u t G P) as [(k & K & X) (l & L & Y)].
  assert (D : forall k, (k < Nelem g)%nat -> 0 < gw g k * t k) by (intros i I0; apply Rmult_lt_0_compat; [apply gw_pos; [apply T|exact I0]|apply P, I0]).
  destruct (B k K) as [B1 _]. destruct (B l L) as [_ B2]. unfold happ in X, Y. split.
  - apply Rle_trans with (1 := B1). apply Rmult_le_reg_r with (1 := D k K). unfold Rdiv. rewrite Rmult_assoc, Rinv_l, Rmult_1_r by (apply Rgt_not_eq, D, K). exact X.
  - apply Rle_trans with (2 := B2). apply Rmult_le_reg_r with (1 := D l L). unfold Rdiv. rewrite (Rmult_assoc _ (/ _)), Rinv_l, Rmult_1_r by (apply Rgt_not_eq, D, L). exact Y.
Qed.
Print Assumptions C119_bounds.
(** No level lies below the smallest value of the potential. *)
Theorem C119_above_potential : forall g m v e p b, three_point g -> (exists k, (k < Nelem g)%nat /\ p k <> 0) ->
  eigenpair g (hamiltonian g m) v e p -> (forall k, (k < Nelem g)%nat -> b <= v k) -> b <= e.
Proof. intros g m v e p b T. exact (levels_above_potential g T m v e p b). Qed.
Print Assumptions C119_above_potential.

(** * C120 *)
(** Raising the potential by at least lo and at most hi raises the lowest level by at least lo and at most hi. *)
Theorem C120_potential : forall g m v v' a a' u u' lo hi, three_point g -> ground g m v a u -> ground g m v' a' u' ->
  (forall k, (k < Nelem g)%nat -> lo <= v' k - v k <= hi) -> lo <= a' - a <= hi.
Proof.
  intros g m v v' a a' u u' lo hi T G G' B. destruct (ground_potential g T m v v' a a' u u' G G') as [(k & K & X) (l & L & Y)].
  pose proof (B k K). pose proof (B l L). lra.
Qed.
Print Assumptions C120_potential.
(** The lowest level of a smaller angular momentum is strictly below all levels of a larger one. *)
Theorem C120_angular : forall g m m' v a u e p, three_point g -> (Z.abs m < Z.abs m')%Z -> ground g m v a u ->
  (exists k, (k < Nelem g)%nat /\ p k <> 0) -> eigenpair g (hamiltonian g m') v e p -> a < e.
Proof. intros g m m' v a u e p T. exact (ground_angular g T m m' v a u e p). Qed.
Print Assumptions C120_angular.
(** In a potential with the mirror symmetry the lowest orbital has it too. *)
Theorem C120_mirror : forall g m v a u, three_point g -> ground g m v a u -> (forall k, (k < Nelem g)%nat -> mirror1 g v k = v k) ->
  forall k, (k < Nelem g)%nat -> mirror1 g u k = u k.
Proof. intros g m v a u T. exact (ground_even g T m v a u). Qed.
Print Assumptions C120_mirror.

(** * C121 *)
(** If the shift e0 is at or below the lowest level, calc_orbitals returns the lowest levels in ascending order; the first
    column is a multiple of the positive orbital unless the degenerate-pair rule changes it. *)
Theorem C121_lowest_levels : forall g s m v a u eigs asort e0 fuel ev pv, three_point g -> ground g m v a u ->
  eigs e0 = Some (ev, pv) -> (forall xs, argsort_ok xs (asort xs)) -> nearest g m v e0 (s_Nmo s) ev pv -> (1 <= s_Nmo s)%nat -> e0 <= a ->
  exists e ph, calc_orbitals g s eigs asort e0 fuel = Some (e, ph) /\
    e 0%nat = a /\
    (forall i j, (i <= j)%nat -> (j < s_Nmo s)%nat -> e i <= e j) /\
    (forall e' p, (exists k, (k < Nelem g)%nat /\ p k <> 0) -> eigenpair g (hamiltonian g m) v e' p ->
       (exists i, (i < s_Nmo s)%nat /\ e i = e') \/ e (s_Nmo s - 1)%nat <= e') /\
    (no_near (s_Nmo s) e -> (s_sym s = true -> forall k, (k < Nelem g)%nat -> mirror1 g v k = v k) ->
       exists p c, ph 0%nat = Some p /\ c <> 0 /\ forall k, (k < Nelem g)%nat -> p k = c * u k).
Proof. exact lowest_found. Qed.
Print Assumptions C121_lowest_levels.
(** A shift that is nowhere above the potential is at or below the lowest level. *)
Theorem C121_safe_shift : forall g m v a u e0, three_point g -> ground g m v a u -> (forall k, (k < Nelem g)%nat -> e0 <= v k) -> e0 <= a.
Proof. exact below_potential. Qed.
Print Assumptions C121_safe_shift.
(** No shift is safe for all potentials: with one orbital, on every such grid, for every angular momentum and shift there are a
    potential and an answer of the eigenvalue routine within its contract for which calc_orbitals misses the lowest level. *)
Theorem C121_every_shift_refuted : forall g s m e0 asort fuel, three_point g -> s_Nmo s = 1%nat -> (forall xs, argsort_ok xs (asort xs)) ->
  exists v ev pv a u e ph, ground g m v a u /\ nearest g m v e0 1 ev pv /\
    calc_orbitals g s (fun _ => Some (ev, pv)) asort e0 fuel = Some (e, ph) /\ a < e 0%nat.
Proof. exact ground_missed. Qed.
Print Assumptions C121_every_shift_refuted.

(** * C122 *)
(** Eigenvalues are real, and real and imaginary part of a complex eigenvector are solutions each, so nothing is lost by
    eig.real and phi.real unless the real part vanishes altogether. *)
Theorem C122_real : forall g m v e f p q, three_point g -> (exists k, (k < Nelem g)%nat /\ (p k <> 0 \/ q k <> 0)) ->
  (forall k, (k < Nelem g)%nat -> sumR (Nelem g) (fun j => hamiltonian g m k j * p j) + gw g k * v k * p k = gw g k * (e * p k - f * q k)) ->
  (forall k, (k < Nelem g)%nat -> sumR (Nelem g) (fun j => hamiltonian g m k j * q j) + gw g k * v k * q k = gw g k * (e * q k + f * p k)) ->
  f = 0 /\ eigenpair g (hamiltonian g m) v e p /\ eigenpair g (hamiltonian g m) v e q.
Proof. intros g m v e f p q T. exact (levels_real g T m v e f p q). Qed.
Print Assumptions C122_real.
(** One positive weight that depends on the grid only makes the Hamiltonians of all angular momenta symmetric. *)
Theorem C122_weight : forall g, three_point g -> (forall k, (k < Nelem g)%nat -> 0 < balance g k) /\
  forall m i j, (i < Nelem g)%nat -> (j < Nelem g)%nat -> balance g i * hamiltonian g m i j = balance g j * hamiltonian g m j i.
Proof. intros g T. split; [exact (balance_pos g T)|exact (ham_balance g T)]. Qed.
Print Assumptions C122_weight.
(** Orbitals of different levels are orthogonal with this weight times the volume element. *)
Theorem C122_orthogonal : forall g m v e e' p q, three_point g -> eigenpair g (hamiltonian g m) v e p -> eigenpair g (hamiltonian g m) v e' q -> e <> e' ->
  sumR (Nelem g) (fun k => balance g k * gw g k * (p k * q k)) = 0.
Proof. intros g m v e e' p q T. exact (levels_orthogonal g T m v e e' p q). Qed.
Print Assumptions C122_orthogonal.

(** * C123 *)
(** The lowest level is the minimum of the energy quotient, attained by multiples of the lowest orbital only. *)
Theorem C123_minimum : forall g m v a u x, three_point g -> ground g m v a u ->
  let N := sumR (Nelem g) (fun k => balance g k * gw g k * (x k * x k)) in
  let E := sumR (Nelem g) (fun k => balance g k * x k * (sumR (Nelem g) (fun j => hamiltonian g m k j * x j) + gw g k * v k * x k)) in
  a * N <= E /\ (E = a * N <-> exists c, forall k, (k < Nelem g)%nat -> x k = c * u k).
Proof. intros g m v a u x T. exact (ground_rayleigh g T m v a u x). Qed.
Print Assumptions C123_minimum.
(** It is a concave function of the potential, and its first-order change is an upper bound of the change. *)
Theorem C123_concave : forall g m v v' a a' b u u' y t, three_point g -> 0 <= t <= 1 -> ground g m v a u -> ground g m v' a' u' ->
  ground g m (fun k => t * v k + (1 - t) * v' k) b y -> t * a + (1 - t) * a' <= b.
Proof. intros g m v v' a a' b u u' y t T. exact (ground_concave g T m v v' a a' b u u' y t). Qed.
Print Assumptions C123_concave.
Theorem C123_first_order : forall g m v v' a a' u u', three_point g -> ground g m v a u -> ground g m v' a' u' ->
  a' <= a + sumR (Nelem g) (fun k => balance g k * gw g k * ((v' k - v k) * u k * u k)) / sumR (Nelem g) (fun k => balance g k * gw g k * (u k * u k)).
Proof. intros g m v v' a a' u u' T. exact (first_order g T m v v' a a' u u'). Qed.
Print Assumptions C123_first_order.
(** The kinetic energy of every trial orbital is positive. *)
Theorem C123_kinetic : forall g m x, three_point g -> (exists k, (k < Nelem g)%nat /\ x k <> 0) ->
  0 < sumR (Nelem g) (fun k => balance g k * x k * sumR (Nelem g) (fun j => hamiltonian g m k j * x j)).
Proof.
  intros g m x T X. pose proof (kinetic_positive g T m x X) as P. unfold wenergy, happ in P.
  rewrite (sumR_ext _ _ (fun k => balance g k * x k * sumR (Nelem g) (fun j => hamiltonian g m k j * x j))) in P by (intros; ring). exact P.
Qed.
Print Assumptions C123_kinetic.

(** A 16 x 16 grid: one potential with a known lowest orbital, the constant, for every angular momentum. *)
Definition v_flat (g : grid) (m : Z) (a : R) : vec := fun k => a - sumR (Nelem g) (fun j => hamiltonian g m k j) / gw g k.
Lemma C119_witness : three_point g3p /\ (forall m a, ground g3p m (v_flat g3p m a) a (fun _ => 1)) /\
  forall m a, nearest g3p m (v_flat g3p m a) a 1 (fun _ => a) (fun _ _ => 1).
Proof.
  assert (T : three_point g3p).
  { exact g3p_spacing. }
  assert (G : forall m a, ground g3p m (v_flat g3p m a) a (fun _ => 1)).
  { intros m a. split; [intros k _; lra|]. intros k K. unfold v_flat. pose proof (gw_pos g3p k g3p_ok K).
    rewrite (sumR_ext _ (fun j => hamiltonian g3p m k j * 1) (fun j => hamiltonian g3p m k j)) by (intros; ring). field. lra. }
  split; [exact T|]. split; [exact G|]. intros m a. split.
  - intros i _. split; [|apply G]. exists 0%nat. split; [apply Nelem_pos|lra].
  - intros e p _ _. right. intros i _. rewrite Rminus_eq_0, Rabs_R0. apply Rabs_pos.
Qed.
(** Two levels in one potential on the same grid, and a complex multiple of an orbital. *)
Lemma C122_witness : three_point g3p /\ (exists a u, ground g3p 1 (v_bad g3p 1 2) a u /\ eigenpair g3p (hamiltonian g3p 1) (v_bad g3p 1 2) 2 signs /\ a <> 2) /\
  (let v := v_flat g3p 1 2 in let p := fun _ : nat => 1 in let q := fun _ : nat => 3 in forall k, (k < Nelem g3p)%nat ->
     sumR (Nelem g3p) (fun j => hamiltonian g3p 1 k j * p j) + gw g3p k * v k * p k = gw g3p k * (2 * p k - 0 * q k) /\
     sumR (Nelem g3p) (fun j => hamiltonian g3p 1 k j * q j) + gw g3p k * v k * q k = gw g3p k * (2 * q k + 0 * p k)).
Proof.
  destruct C119_witness as (T & G & _). split; [exact T|]. split.
  - destruct (ground_exists g3p T 1 (v_bad g3p 1 2)) as (a & u & H). exists a, u. split; [exact H|]. split; [apply bad_pair, T|].
    pose proof (bad_above g3p 1 2 a u T H). lra.
  - intros v p q k K. destruct (G 1%Z 2) as [_ E]. pose proof (E k K) as X. cbv beta in X. fold v in X. split.
    + unfold p, q. rewrite X. ring.
    + unfold p, q. rewrite (sumR_ext _ (fun j => hamiltonian g3p 1 k j * 3) (fun j => 3 * (hamiltonian g3p 1 k j * 1))) by (intros; ring). rewrite sumR_scal. lra.
Qed.
(** For C120, C121 and C123: two potentials that differ by 1 with their lowest levels, an eigensolver that finds one, and a trial orbital that is not the lowest one. *)
Lemma C120_witness : three_point g3p /\ ground g3p 1 (v_flat g3p 1 2) 2 (fun _ => 1) /\ ground g3p 1 (v_flat g3p 1 3) 3 (fun _ => 1) /\ forall k, (k < Nelem g3p)%nat -> 1 <= v_flat g3p 1 3 k - v_flat g3p 1 2 k <= 1.
Proof. destruct C119_witness as (T & G & _). split; [exact T|]. split; [apply G|]. split; [apply G|]. intros k _. unfold v_flat. lra. Qed.
Lemma C121_witness : exists asort, three_point g3p /\ ground g3p 1 (v_flat g3p 1 2) 2 (fun _ => 1) /\ (forall xs, argsort_ok xs (asort xs)) /\ nearest g3p 1 (v_flat g3p 1 2) (3 / 2) 1 (fun _ => 2) (fun _ _ => 1) /\ no_near 1 (fun _ => 2).
Proof.
  destruct C119_witness as (T & G & _). destruct SolverCases.orbitals_nan_refuted as (_ & _ & _ & asort & _ & _ & _ & HA & _). exists asort. split; [exact T|]. split; [apply G|]. split; [exact HA|]. split; [|intros i j Hi Hj; lia]. split.
  - intros i _. split; [|apply G]. exists 0%nat. split; [apply Nelem_pos|lra].
  - intros e p P E. right. intros i _. pose proof (ground_lowest g3p T 1 _ 2 (fun _ => 1) e p (G 1%Z 2) P E) as L. rewrite !Rabs_pos_eq by lra. lra.
Qed.
Lemma C123_witness : three_point g3p /\ ground g3p 1 (v_flat g3p 1 2) 2 (fun _ => 1) /\ ground g3p 1 (v_flat g3p 1 4) 4 (fun _ => 1) /\ ground g3p 1 (fun k => 1 / 2 * v_flat g3p 1 2 k + (1 - 1 / 2) * v_flat g3p 1 4 k) 3 (fun _ => 1) /\
  (exists k, (k < Nelem g3p)%nat /\ signs k <> 0) /\ ~ exists c, forall k, (k < Nelem g3p)%nat -> signs k = c * 1.
Proof.
  destruct C119_witness as (T & G & _). split; [exact T|]. split; [apply G|]. split; [apply G|]. split.
  - destruct (G 1%Z 3) as (P & E). split; [exact P|]. intros k K. rewrite <- (E k K). f_equal. unfold v_flat. field. pose proof (gw_pos g3p k g3p_ok K). lra.
  - assert (K : (1 < Nelem g3p)%nat) by (unfold Nelem; cbn; lia). split.
    + exists 0%nat. split; [lia|]. unfold signs. cbn. lra.
    + intros (c & H). pose proof (H 0%nat ltac:(lia)) as H0. pose proof (H 1%nat K) as H1. unfold signs in H0, H1. cbn in H0, H1. lra.
Qed.
