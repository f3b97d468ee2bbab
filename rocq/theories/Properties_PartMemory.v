(** C128: Partition.scf with explicit functionals keeps no hidden state and can be continued. *)
From Coq Require Import Reals List Arith Lia Lra ZArith Bool String.
From Verif Require Import Base BaseLemmas GridModel GridSpec HartreeThms SolverModel LibxcModel OptionsModel KSModel KSSpec PartitionModel PartitionSpec PartitionGood PartitionWit NonInteracting EmbedPot EmbedEnergy PartitionMemory PartitionResume PartitionMemoryWit.
Import ListNotations.
Local Open Scope R_scope.

(** A call that continues the passes of the call before it ends where one longer call ends: the same densities, the same
    embedding potential, the same energies of the components. *)
Theorem C128_continued : forall g w sched sched1 sched2 d d1 d2 Za Zb pol spec nua nub opt p o o1 o2 n1 n2 l l1 l2 s s1 s2, partition_init g Za Zb pol spec nua nub opt = Ok p -> steady g (pe_env w) -> explicit p -> po_iso (p_opt p) = false -> po_ab (p_opt p) = false ->
  same_method o o1 -> same_method o1 o2 -> ps_cont o1 = ps_cont o -> ps_cont o2 = true ->
  passes g w sched1 d1 p o1 n1 l1 s1 -> passes g w sched2 d2 (q_p s1) o2 n2 l2 s2 -> passes g w sched d p o (n1 + n2) l s -> agree g p (q_p s) (q_p s2) /\ ((0 < n2)%nat -> agree_results g p (q_p s) (q_p s2)).
Proof. intros until 1. intros ST EX IS AB SM1 SM2 CO CT P1 P2 P. exact (continued_passes _ _ _ _ _ _ _ _ _ _ _ _ _ _ _ _ _ _ _ _ ST (init_uniform _ _ _ _ _ _ _ _ _ H) EX IS AB SM1 SM2 CO CT P1 P2 P). Qed.
Print Assumptions C128_continued.
Theorem C128_continued_energy : forall g w sched sched1 sched2 d d1 d2 Za Zb pol spec nua nub opt p o o1 o2 n1 n2 l l1 l2 s s1 s2, partition_init g Za Zb pol spec nua nub opt = Ok p -> (pol <= 2)%nat -> po_sym (p_opt p) = false -> steady g (pe_env w) -> explicit p ->
  po_hxc (p_opt p) = "exact"%string -> po_int (p_opt p) = "dft"%string -> po_iso (p_opt p) = false -> po_ab (p_opt p) = false -> p_ens p = false ->
  same_method o o1 -> same_method o1 o2 -> ps_cont o1 = ps_cont o -> ps_cont o2 = true ->
  passes g w sched1 d1 p o1 n1 l1 s1 -> passes g w sched2 d2 (q_p s1) o2 (S n2) l2 s2 -> passes g w sched d p o (n1 + S n2) l s -> exists E, p_T (q_p s) "E"%string = Some (SC E) /\ p_T (q_p s2) "E"%string = Some (SC E).
Proof. exact continued_total. Qed.
Print Assumptions C128_continued_energy.
(** Two calls from the same state with other tolerances, iteration limits and worker orders agree pass by pass. *)
Theorem C128_same_passes : forall g w sched sched' d d' Za Zb pol spec nua nub opt p o o' n l l' s s', partition_init g Za Zb pol spec nua nub opt = Ok p -> steady g (pe_env w) -> explicit p -> po_iso (p_opt p) = false -> po_ab (p_opt p) = false -> same_method o o' -> ps_cont o' = ps_cont o ->
  passes g w sched d p o n l s -> passes g w sched' d' p o' n l' s' -> agree g p (q_p s) (q_p s') /\ ((0 < n)%nat -> agree_results g p (q_p s) (q_p s')).
Proof. intros until 1. intros ST EX IS AB SM CO P P'. exact (same_passes _ _ _ _ _ _ _ _ _ _ _ _ _ _ ST (init_uniform _ _ _ _ _ _ _ _ _ H) EX IS AB SM CO P P'). Qed.
Print Assumptions C128_same_passes.
Theorem C128_same_energy : forall g w sched sched' d d' Za Zb pol spec nua nub opt p o o' n l l' s s', partition_init g Za Zb pol spec nua nub opt = Ok p -> (pol <= 2)%nat -> po_sym (p_opt p) = false -> steady g (pe_env w) -> explicit p -> po_hxc (p_opt p) = "exact"%string -> po_int (p_opt p) = "dft"%string ->
  po_iso (p_opt p) = false -> po_ab (p_opt p) = false -> p_ens p = false -> same_method o o' -> ps_cont o' = ps_cont o ->
  passes g w sched d p o (S n) l s -> passes g w sched' d' p o' (S n) l' s' -> exists E, p_T (q_p s) "E"%string = Some (SC E) /\ p_T (q_p s') "E"%string = Some (SC E).
Proof. exact same_total. Qed.
Print Assumptions C128_same_energy.
(** After any number of passes a call with continuing=True returns (no assertion failure, no missing potential), for every kinetic part that is available. *)
Theorem C128_resumes : forall x g w sched lv d d' p o o' n l s, (0 < Nelem g)%nat -> launchable x g w sched lv p -> ps_target o = false -> ps_cont o = false -> List.length (ps_alpha o) = 1%nat \/ List.length (ps_alpha o) = 2%nat -> passes g w sched d p o n l s ->
  psc_options (q_p s) d' = Ok o' -> ps_target o' = false -> ps_cont o' = true -> ps_auto o' = false -> List.length (ps_alpha o') = 1%nat \/ List.length (ps_alpha o') = 2%nat -> exists s', partition_scf g w sched d' (q_p s) = Ok s'.
Proof. exact scf_resumes. Qed.
Print Assumptions C128_resumes.
(** On a new object it raises AssertionError. *)
Theorem C128_no_density : forall g w sched Za Zb pol spec nua nub opt d p o, partition_init g Za Zb pol spec nua nub opt = Ok p -> psc_options p d = Ok o -> ps_cont o = true -> List.length (ps_alpha o) = 1%nat \/ List.length (ps_alpha o) = 2%nat -> partition_scf g w sched d p = Err AssertionError.
Proof. exact new_cannot_continue. Qed.
Print Assumptions C128_no_density.

(** Two fragments with one electron per spin: max_iter=2 in one call, or max_iter=1 and max_iter=1 with continuing=True. *)
Example C128_witness : exists p o o1 o2 l l1 l2 s s1 s2, partition_init g3p 0 0 2 y_spec 1 1 (w_opt "none" false false) = Ok p /\ po_sym (p_opt p) = false /\ po_hxc (p_opt p) = "exact"%string /\ po_int (p_opt p) = "dft"%string /\ po_iso (p_opt p) = false /\ po_ab (p_opt p) = false /\ p_ens p = false /\ explicit p /\ launchable 0 g3p y_penv w_sched 1 p /\
  steady g3p (pe_env y_penv) /\ (same_method o o1 /\ same_method o1 o2) /\ (ps_cont o = false /\ ps_cont o1 = false /\ ps_cont o2 = true) /\ ps_auto o2 = false /\ ps_alpha o = [82 / 100] /\ psc_options (q_p s1) y_second = Ok o2 /\
  partition_scf g3p y_penv w_sched y_whole p = Ok s /\ passes g3p y_penv w_sched y_whole p o 2 l s /\ partition_scf g3p y_penv w_sched y_first p = Ok s1 /\ passes g3p y_penv w_sched y_first p o1 1 l1 s1 /\
  partition_scf g3p y_penv w_sched y_second (q_p s1) = Ok s2 /\ passes g3p y_penv w_sched y_second (q_p s1) o2 1 l2 s2 /\ p_T (q_p s) "E"%string = Some (SC 4).
Proof. exact memory_case. Qed.
(** Both ways end with the total energy 4 and the same densities. *)
Example C128_witness_energy : exists p s s1 s2, partition_scf g3p y_penv w_sched y_whole p = Ok s /\ partition_scf g3p y_penv w_sched y_first p = Ok s1 /\ partition_scf g3p y_penv w_sched y_second (q_p s1) = Ok s2 /\
  p_T (q_p s) "E"%string = Some (SC 4) /\ p_T (q_p s2) "E"%string = Some (SC 4) /\ agree g3p p (q_p s) (q_p s2).
Proof.
  destruct memory_case as (p & o & o1 & o2 & l & l1 & l2 & s & s1 & s2 & IN & SY & HX & HI & IS & AB & EN & EX & LA & ST & (SM & SM1) & (C & C1 & C2) & AU & AL & O2 & E & P & E1 & P1 & E2 & P2 & T). exists p, s, s1, s2. do 4 (split; [assumption|]).
  destruct (C128_continued_energy _ _ _ _ _ _ _ _ _ _ _ _ _ _ _ _ _ _ _ 1 0 _ _ _ _ _ _ IN (le_n 2) SY ST EX HX HI IS AB EN SM SM1 ltac:(congruence) C2 P1 P2 P) as (V & V1 & V2). rewrite T in V1. injection V1 as <-. split; [exact V2|].
  exact (proj1 (C128_continued _ _ _ _ _ _ _ _ _ _ _ _ _ _ _ _ _ _ _ 1 1 _ _ _ _ _ _ IN ST EX IS AB SM SM1 ltac:(congruence) C2 P1 P2 P)).
Qed.
