(** Property C129: a constant added to the external potential. *)
From Coq Require Import Reals List Arith Lia Lra ZArith Bool String.
From Verif Require Import Base GridModel GridSpec HartreeModel SolverModel SolverSpec LibxcModel OptionsModel KSModel KSSpec KSProofs KSThms KSLoop KSEnergy NonInteracting GridWitness KSWit Gauge GaugeWit.
Import ListNotations.
Local Open Scope R_scope.

(** Constants c_up, c_down added to the external potentials of the two spins: after any number of passes density, total energy and residual are the same. *)
Theorem C129_passes : forall g w c o sched sched' k k' s t, raised_workers g w c -> normed_workers g w -> frame k k' -> k_n k' = k_n k -> (forall x j, (j < k_pol k)%nat -> outer k' x j = outer k x j + c j) ->
  scf_trace g w o sched k s -> scf_trace g w o sched' k' t -> c_iter t = c_iter s -> k_n (c_ks t) = k_n (c_ks s) /\ c_oldE t = c_oldE s /\ c_diff t = c_diff s.
Proof.
  intros g w c o sched sched' k k' s t RW NW F N HV T T' I0. destruct (raised_iterates g w c o o sched sched' k k' s t RW NW (conj eq_refl eq_refl) eq_refl F (fun _ => N) HV T T' I0) as ((_ & A & _) & B & _ & D & _). auto.
Qed.
Print Assumptions C129_passes.
(** Complete calls make the same number of passes and end with the same density and the same total, kinetic and nuclear energy; the sum of the levels of spin s rises by c_s times the number of electrons of the orbitals,
    E.Vext by c_s times the number of electrons of the density. *)
Theorem C129_energies : forall g w c sched sched' d k k' s t, raised_workers g w c -> normed_workers g w -> frame k k' -> k_n k' = k_n k -> (forall x j, (j < k_pol k)%nat -> outer k' x j = outer k x j + c j) ->
  ks_scf g w sched d k = Ok s -> ks_scf g w sched' d k' = Ok t ->
  c_iter t = c_iter s /\ k_n (c_ks t) = k_n (c_ks s) /\
  ((2 <= c_iter s)%Z -> exists n E E', k_n (c_ks s) = Some n /\ k_E (c_ks s) = Some E /\ k_E (c_ks t) = Some E' /\ E_E E' = E_E E /\ E_Ts E' = E_Ts E /\ E_Enuc E' = E_Enuc E /\
     (forall j, (j < k_cols (c_ks s))%nat -> E_Eks E' j = E_Eks E j + c j * sumR (k_lv (c_ks s)) (fun i => integrate1 g (dens g (k_sol (c_ks s) i j)))) /\
     E_Vext E' = E_Vext E + sumR (k_pol (c_ks s)) (fun j => c j * integrate1 g (fun x => n x j))).
Proof.
  intros g w c sched sched' d k k' s t RW NW F N HV H H'. destruct (raised_run g w c sched sched' d k k' s t RW NW F N HV H H') as (A & B & _ & _ & D). split; [exact A|]. split; [exact B|].
  intros I0. destruct (D I0) as (_ & (n & ve & E & E' & X1 & _ & X2 & X3 & X4 & X5 & X6 & X7 & X8) & _). exists n, E, E'. repeat (split; [assumption|]). exact X8.
Qed.
Print Assumptions C129_energies.
(** Every level of spin j rises by c_j; with one constant for both spins the chemical potential rises by it, unless it is the -1/eps that get_homo reports for solvers without electrons. *)
Theorem C129_levels : forall g w c sched sched' d k k' s t, raised_workers g w c -> normed_workers g w -> frame k k' -> k_n k' = k_n k -> (forall x j, (j < k_pol k)%nat -> outer k' x j = outer k x j + c j) ->
  ks_scf g w sched d k = Ok s -> ks_scf g w sched' d k' = Ok t -> (2 <= c_iter s)%Z ->
  (forall i j m e e', place (c_ks s) i j -> eig_at (k_sol (c_ks s) i j) m = Ok e -> eig_at (k_sol (c_ks t) i j) m = Ok e' -> e' = e + c j) /\
  (forall u u', k_u (c_ks s) = Some u -> k_u (c_ks t) = Some u' -> (forall j, (j < k_cols (c_ks s))%nat -> c j = c 0%nat) -> - 1 / feps < u -> - 1 / feps < u' -> u' = u + c 0%nat).
Proof.
  intros g w c sched sched' d k k' s t RW NW F N HV H H' I0. destruct (raised_run g w c sched sched' d k k' s t RW NW F N HV H H') as (_ & _ & _ & _ & D). destruct (D I0) as (A & _ & B). split; [|exact B].
  intros i j m e e' Hp E E'. destruct (A i j Hp) as (q & q' & r & r' & Q1 & Q2 & _ & Q4 & _). rewrite Q1 in E. rewrite Q2 in E'. pose proof (raised_eig (c j) q q' r r' Q4 m) as Y. rewrite E, E' in Y. exact Y.
Qed.
Print Assumptions C129_levels.
(** two electrons in a potential that rises along the grid: the constants 1 and - 3 for the two spins *)
Lemma C129_witness : exists k0 k k' s t, ks_init g22 0 0 2 1 2 (fun _ _ => 1%nat) 1 2 ex_N ex_opt = Ok k0 /\ k = set_vext k0 (Some (fun x _ => INR x)) /\ k' = set_vext k0 (Some (fun x j => INR x + ga_c j)) /\
  raised_workers g22 ga_env ga_c /\ normed_workers g22 ga_env /\ frame k k' /\ k_n k' = k_n k /\ (forall x j, (j < k_pol k)%nat -> outer k' x j = outer k x j + ga_c j) /\
  ks_scf g22 ga_env (fun _ => keys k) [] k = Ok s /\ ks_scf g22 ga_env (fun _ => keys k') [] k' = Ok t /\ (2 <= c_iter s)%Z.
Proof.
  destruct (gauge_case ga_c) as (k0 & k & k' & s & t & u & u' & H1 & H2 & H3 & H4 & H5 & H6 & H7 & H8 & H9 & H10 & H11 & _); [intros j; unfold ga_c; destruct (j =? 0)%nat; lra|].
  exists k0, k, k', s, t. repeat (split; [assumption|]). assumption.
Qed.
(** the same with the constant 1 for both: chemical potentials above -1/eps *)
Lemma C129_witness_u : exists k0 k k' s t u u', ks_init g22 0 0 2 1 2 (fun _ _ => 1%nat) 1 2 ex_N ex_opt = Ok k0 /\ k = set_vext k0 (Some (fun x _ => INR x)) /\ k' = set_vext k0 (Some (fun x j => INR x + 1)) /\
  raised_workers g22 ga_env (fun _ => 1) /\ normed_workers g22 ga_env /\ frame k k' /\ k_n k' = k_n k /\ (forall x j, (j < k_pol k)%nat -> outer k' x j = outer k x j + 1) /\
  ks_scf g22 ga_env (fun _ => keys k) [] k = Ok s /\ ks_scf g22 ga_env (fun _ => keys k') [] k' = Ok t /\ (2 <= c_iter s)%Z /\ k_u (c_ks s) = Some u /\ k_u (c_ks t) = Some u' /\ - 1 / feps < u /\ - 1 / feps < u'.
Proof. apply (gauge_case (fun _ => 1)). intros; lra. Qed.
