(** Property C136: the density of one orbital moves to where the potential is lowered. *)
From Coq Require Import Reals List Arith Lia Lra ZArith Bool String.
From Verif Require Import Base BaseLemmas GridModel GridSpec GridProofs SolverModel SolverSpec KSModel KSSpec KSTotal NonInteracting KSWit GroundThms GroundSym GridWitness HartreeThms LevelWit BindingWit Binding DensityMap Properties_DensityMap PotentialShift.
Import ListNotations.
Local Open Scope R_scope.

(** Two runs without interaction on one grid: the change of the potential has a mean in the second density that is not above the change of the lowest level, and this not above the mean in the first density. The means agree only when the change is a constant. *)
Theorem C136_response : forall g k k' j n n', three_point g -> (forall x, (x < Nelem g)%nat -> 0 < gwi g x) -> single_run g k j n -> single_run g k' j n' -> s_m (k_sol k 0 j) = s_m (k_sol k' 0 j) ->
  let D := fun x => k_vnuc k' x j + outer k' x j - (k_vnuc k x j + outer k x j) in
  mean g n' D <= mean g n D /\ (mean g n' D = mean g n D -> exists c, forall x, (x < Nelem g)%nat -> D x = c) /\
  forall a a' u u', ground g (s_m (k_sol k 0 j)) (fun x => k_vnuc k x j + outer k x j) a u -> ground g (s_m (k_sol k 0 j)) (fun x => k_vnuc k' x j + outer k' x j) a' u' -> mean g n' D <= a' - a <= mean g n D.
Proof.
  intros g k k' j n n' T W R R' M D. destruct (run_solver g k j n R) as (s & d & DD & MS & O & F & N & V). destruct (run_solver g k' j n' R') as (s' & d' & DD' & MS' & O' & F' & N' & V').
  destruct (orbital_of_density g T W s d DD O F) as (a & u & G & A). destruct (orbital_of_density g T W s' d' DD' O' F') as (a' & u' & G' & A').
  apply (ground_ext _ _ _ (fun x => k_vnuc k x j + outer k x j)) in G; [|intros; apply V]. apply (ground_ext _ _ _ (fun x => k_vnuc k' x j + outer k' x j)) in G'; [|intros; apply V']. rewrite MS in G. rewrite MS', <- M in G'.
  destruct (potential_shift g T _ _ _ a a' u u' G G') as (P1 & P2). cbv beta zeta in P1, P2. fold D in P1, P2.
  rewrite (mean_ext g (fun x => u x ^ 2) n D D) in P1, P2 by (intros; try reflexivity; rewrite <- A, <- N by assumption; reflexivity). rewrite (mean_ext g (fun x => u' x ^ 2) n' D D) in P1, P2 by (intros; try reflexivity; rewrite <- A', <- N' by assumption; reflexivity).
  split; [lra|]. split; [intros Q; exists (a' - a); exact (P2 Q)|]. intros b b' y y' B B'. destruct (ground_unique g T _ _ _ _ _ _ G B) as (<- & _). destruct (ground_unique g T _ _ _ _ _ _ G' B') as (<- & _). exact P1.
Qed.
Print Assumptions C136_response.
(** New objects without external potential that differ in the charge of the first nucleus: the larger charge draws the density towards this nucleus. The same for the second one. *)
Theorem C136_charge : forall g Za Zb Za' Zb' pol Nmo Nmo' N N' opt opt' k k' j n n', three_point g -> (forall x, (x < Nelem g)%nat -> 0 < gwi g x) -> (pol = 1 \/ pol = 2)%nat -> ks_init g Za Zb pol 1 pol Nmo 1 pol N opt = Ok k -> ks_init g Za' Zb' pol 1 pol Nmo' 1 pol N' opt' = Ok k' ->
  single_run g k j n -> single_run g k' j n' ->
  (Za < Za' -> Zb = Zb' -> mean g n (fun x => / dist2 (gZ g x) (gY g x) (- ga g) 0) < mean g n' (fun x => / dist2 (gZ g x) (gY g x) (- ga g) 0)) /\
  (Za = Za' -> Zb < Zb' -> mean g n (fun x => / dist2 (gZ g x) (gY g x) (ga g) 0) < mean g n' (fun x => / dist2 (gZ g x) (gY g x) (ga g) 0)).
Proof.
  intros g Za Zb Za' Zb' pol Nmo Nmo' N N' opt opt' k k' j n n' T W HP KI KI' R R'. destruct (new_potential _ _ _ _ _ _ _ _ _ _ HP KI R) as (M & V). destruct (new_potential _ _ _ _ _ _ _ _ _ _ HP KI' R') as (M' & V').
  destruct (C136_response g k k' j n n' T W R R' ltac:(congruence)) as (P1 & P2 & _).
  set (D := fun x => k_vnuc k' x j + outer k' x j - (k_vnuc k x j + outer k x j)) in *.
  assert (Q : forall z (f : vec), 0 < z -> (Za <> Za' \/ Zb <> Zb') -> (forall x, (x < Nelem g)%nat -> D x = - z * f x) -> mean g n f < mean g n' f).
  { intros z f Hz NE HD. rewrite (mean_ext g n' n' D (fun x => - z * f x)), (mean_ext g n n D (fun x => - z * f x)), !mean_scal in P1, P2 by auto.
    destruct (Rle_lt_or_eq_dec _ _ P1) as [L|L]; [nra|]. exfalso. destruct (P2 L) as (c & C).
    destruct (charges_determined g Za' Zb' Za Zb c (proj1 T)) as (Q1 & Q2); [|destruct NE; congruence]. intros x Hx. rewrite <- V, <- V'. pose proof (C x Hx) as CX. unfold D in CX. lra. }
  split; intros HA HB.
  - apply (Q (Za' - Za)); [lra|left; lra|]. intros x Hx. unfold D. rewrite V, V', !coulomb_val by (auto; apply T). rewrite HB. unfold Rdiv. ring.
  - apply (Q (Zb' - Zb)); [lra|right; lra|]. intros x Hx. unfold D. rewrite V, V', !coulomb_val by (auto; apply T). rewrite HA. unfold Rdiv. ring.
Qed.
Print Assumptions C136_charge.
(** two electrons on a 16 x 16 grid: H2+ like charges 1, 1 and HeH like charges 2, 1 *)
Lemma C136_witness : exists k k' n n', ks_init g3p 1 1 2 1 2 (fun _ _ => 1%nat) 1 2 ex_N ni_opt = Ok k /\ ks_init g3p 2 1 2 1 2 (fun _ _ => 1%nat) 1 2 ex_N ni_opt = Ok k' /\ single_run g3p k 0 n /\ single_run g3p k' 0 n' /\
  mean g3p n (fun x => / dist2 (gZ g3p x) (gY g3p x) (- ga g3p) 0) < mean g3p n' (fun x => / dist2 (gZ g3p x) (gY g3p x) (- ga g3p) 0).
Proof.
  destruct C135_witness as (T & W & C). destruct (C 1 1) as (k & n & KI & R). destruct (C 2 1) as (k' & n' & KI' & R'). exists k, k', n, n'. do 4 (split; [assumption|]).
  destruct (C136_charge g3p 1 1 2 1 2 _ _ _ _ _ _ k k' 0 n n' T W (or_intror eq_refl) KI KI' R R') as (Q & _). apply Q; lra.
Qed.
