(** Property C132: energies of one-orbital runs without interaction as a function of the nuclear charges. *)
From Coq Require Import Reals List Arith Lia Lra ZArith Bool String.
From Verif Require Import Base BaseLemmas GridModel GridSpec GridProofs SolverModel SolverSpec KSModel KSSpec GroundThms GroundSym GridWitness HartreeThms Binding BindingWit.
Import ListNotations.
Local Open Scope R_scope.

(** The stored energy is the number of electrons times the lowest level in the field of the two nuclei, plus their repulsion. *)
Theorem C132_energy : forall g Za Zb n E, three_point g -> bound_run g Za Zb n E ->
  exists a u, (forall x, (x < Nelem g)%nat -> 0 < u x) /\
    (forall x, (x < Nelem g)%nat -> sumR (Nelem g) (fun y => hamiltonian g 0 x y * u y) + gw g x * (- Za / dist2 (gZ g x) (gY g x) (- ga g) 0 - Zb / dist2 (gZ g x) (gY g x) (ga g) 0) * u x = a * gw g x * u x) /\
    E = n * a + Za * Zb / (2 * ga g).
Proof.
  intros g Za Zb n E T R. destruct (ground_exists g T 0 (coulomb g Za Zb)) as (a & u & G). exists a, u. split; [apply G|]. split; [|exact (bound_energy g Za Zb n E T R a u G)].
  intros x Hx. rewrite <- coulomb_val by (auto; apply T). apply G, Hx.
Qed.
Print Assumptions C132_energy.
Lemma bound_count : forall g Za Zb n E, bound_run g Za Zb n E -> 0 <= n.
Proof.
  intros g Za Zb n E (w & sched & d & k & st & o & opt & pol & Nmo & N & ev & _ & _ & _ & _ & HN & -> & _). rewrite <- (sumR_zero pol (fun _ => 0)) by reflexivity. apply sumR_le. intros j Hj.
  unfold in_orbital. pose proof (HN j Hj). destruct (o_frac (k_opt k)); [lra|]. destruct (Req_EM_T _ _); lra.
Qed.
(** More nuclear charge lowers the energy apart from the repulsion of the nuclei. *)
Theorem C132_more_charge : forall g Za Zb Za' Zb' n E E', three_point g -> bound_run g Za Zb n E -> bound_run g Za' Zb' n E' -> Za <= Za' -> Zb <= Zb' ->
  E' - Za' * Zb' / (2 * ga g) <= E - Za * Zb / (2 * ga g) /\ (0 < n -> Za + Zb < Za' + Zb' -> E' - Za' * Zb' / (2 * ga g) < E - Za * Zb / (2 * ga g)).
Proof.
  intros g Za Zb Za' Zb' n E E' T R R' HA HB. destruct (ground_exists g T 0 (coulomb g Za Zb)) as (a & u & G). destruct (ground_exists g T 0 (coulomb g Za' Zb')) as (a' & u' & G').
  rewrite (bound_energy g Za Zb n E T R a u G), (bound_energy g Za' Zb' n E' T R' a' u' G'). pose proof (bound_count _ _ _ _ _ R) as N0.
  destruct (ground_potential g T 0 _ _ a a' u u' G G') as [_ (k & K & X)]. rewrite !coulomb_val in X by (auto; apply T). pose proof (dist_A_pos g k (proj1 T) K) as DA. pose proof (dist_B_pos g k (proj1 T) K) as DB.
  set (x := dist2 _ _ (- ga g) 0) in *. set (y := dist2 _ _ (ga g) 0) in *. apply Rinv_0_lt_compat in DA, DB. unfold Rdiv in X.
  assert (Q1 : a' <= a) by nra. split; [nra|]. intros N1 HZ. assert (Q2 : a' < a).
  { destruct (Rle_lt_or_eq_dec _ _ HA) as [L|<-]; [|assert (Zb < Zb') by lra]; nra. }
  nra.
Qed.
Print Assumptions C132_more_charge.
(** It is a concave function of the pair of charges. *)
Theorem C132_concave : forall g Za Zb Za' Zb' t n E E' F, three_point g -> 0 <= t <= 1 -> bound_run g Za Zb n E -> bound_run g Za' Zb' n E' -> bound_run g (t * Za + (1 - t) * Za') (t * Zb + (1 - t) * Zb') n F ->
  t * (E - Za * Zb / (2 * ga g)) + (1 - t) * (E' - Za' * Zb' / (2 * ga g)) <= F - (t * Za + (1 - t) * Za') * (t * Zb + (1 - t) * Zb') / (2 * ga g).
Proof.
  intros g Za Zb Za' Zb' t n E E' F T Ht R R' R2. destruct (ground_exists g T 0 (coulomb g Za Zb)) as (a & u & G). destruct (ground_exists g T 0 (coulomb g Za' Zb')) as (a' & u' & G').
  destruct (ground_exists g T 0 (coulomb g (t * Za + (1 - t) * Za') (t * Zb + (1 - t) * Zb'))) as (b & y & B).
  rewrite (bound_energy g Za Zb n E T R a u G), (bound_energy g Za' Zb' n E' T R' a' u' G'), (bound_energy g _ _ n F T R2 b y B). pose proof (bound_count _ _ _ _ _ R) as N0.
  assert (Q : t * a + (1 - t) * a' <= b).
  { apply (ground_concave g T 0 (coulomb g Za Zb) (coulomb g Za' Zb') a a' b u u' y t Ht G G'). apply (ground_ext g 0 (coulomb g (t * Za + (1 - t) * Za') (t * Zb + (1 - t) * Zb'))); [|exact B].
    intros x Hx. rewrite !coulomb_val by (auto; apply T). unfold Rdiv. ring. }
  pose proof (Rmult_le_compat_l n _ _ N0 Q). lra.
Qed.
Print Assumptions C132_concave.
(** Every trial orbital gives an upper bound. *)
Theorem C132_trial : forall g Za Zb n E x, three_point g -> bound_run g Za Zb n E ->
  (E - Za * Zb / (2 * ga g)) * sumR (Nelem g) (fun k => balance g k * gw g k * (x k * x k)) <=
  n * sumR (Nelem g) (fun k => balance g k * x k * (sumR (Nelem g) (fun j => hamiltonian g 0 k j * x j) + gw g k * coulomb g Za Zb k * x k)).
Proof.
  intros g Za Zb n E x T R. destruct (ground_exists g T 0 (coulomb g Za Zb)) as (a & u & G). rewrite (bound_energy g Za Zb n E T R a u G). pose proof (bound_count _ _ _ _ _ R) as N0.
  destruct (ground_rayleigh g T 0 _ a u x G) as (Q & _). unfold wdot, wenergy, happ in Q. pose proof (Rmult_le_compat_l n _ _ N0 Q) as P. eapply Rle_trans; [|exact P]. apply Req_le. ring.
Qed.
Print Assumptions C132_trial.
(** two electrons on a 16 x 16 grid: for every pair of charges there is such a run; a second proton lowers the energy apart from the repulsion *)
Lemma C132_witness : three_point g3p /\ (forall Za Zb, exists E, bound_run g3p Za Zb 2 E) /\ exists E E', bound_run g3p 1 0 2 E /\ bound_run g3p 1 1 2 E' /\ E' - 1 * 1 / (2 * ga g3p) < E.
Proof.
  split; [exact g3p_spacing|]. split; [exact bound_case|]. destruct (bound_case 1 0) as (E & R). destruct (bound_case 1 1) as (E' & R'). exists E, E'. split; [exact R|]. split; [exact R'|].
  destruct (C132_more_charge g3p 1 0 1 1 2 E E' g3p_spacing R R' ltac:(lra) ltac:(lra)) as (_ & Q). specialize (Q ltac:(lra) ltac:(lra)). unfold Rdiv in *. lra.
Qed.
