(** Property C130: lower bounds of levels, level sums, chemical potential and kinetic energy. *)
From Coq Require Import Reals List Arith Lia Lra ZArith Bool String.
From Verif Require Import Base BaseLemmas GridModel GridSpec HartreeThms SolverModel SolverSpec LibxcModel OptionsModel KSModel KSSpec KSProofs KSThms KSLoop KSEnergy NonInteracting GridWitness KSWit GroundThms Gauge LevelBounds LevelWit.
Import ListNotations.
Local Open Scope R_scope.

Lemma last_pass : forall g w sched d k st, ks_scf g w sched d k = Ok st -> (2 <= c_iter st)%Z -> exists o l a, scf_body g w o l a = Ok st.
Proof.
  intros g w sched d k st H I0. destruct (scf_inv _ _ _ _ _ _ H) as (o & _ & T & _). destruct T as [k0 S|a b Ta Te B]; [cbn in I0; lia|]. eauto.
Qed.
(** No level lies below the lowest value of the effective potential in which it was calculated; the sum of the occupied levels of spin j is at least that value times the number of electrons in the orbitals. *)
Theorem C130_levels : forall g w sched d k st E j b, three_point g -> normed_workers g w -> ks_scf g w sched d k = Ok st -> (2 <= c_iter st)%Z -> levels_exact g (c_ks st) ->
  (j < k_cols (c_ks st))%nat -> (forall i x, (i < k_lv (c_ks st))%nat -> (x < Nelem g)%nat -> b <= s_veff (k_sol (c_ks st) i j) x) ->
  (forall i m e, (i < k_lv (c_ks st))%nat -> eig_at (k_sol (c_ks st) i j) m = Ok e -> b <= e) /\
  (k_E (c_ks st) = Some E -> b * sumR (k_lv (c_ks st)) (fun i => integrate1 g (dens g (k_sol (c_ks st) i j))) <= E_Eks E j).
Proof.
  intros g w sched d k st E j b T3 NW H I0 LX Hj HB. destruct (last_pass g w sched d k st H I0) as (o & l & a & B). split.
  - intros i m e Hi. exact (level_above g st T3 LX i j m e b (conj Hi Hj) HB).
  - intros HE. exact (sum_above g w o l a st T3 NW B LX E j b HE Hj HB).
Qed.
Print Assumptions C130_levels.
(** The chemical potential is not below the lowest value of the potentials, unless it is the -1/eps that get_homo reports for solvers without electrons. *)
Theorem C130_chempot : forall g w sched d k st u b, three_point g -> normed_workers g w -> ks_scf g w sched d k = Ok st -> (2 <= c_iter st)%Z -> levels_exact g (c_ks st) ->
  (forall i j x, place (c_ks st) i j -> (x < Nelem g)%nat -> b <= s_veff (k_sol (c_ks st) i j) x) -> k_u (c_ks st) = Some u -> b <= u \/ u = - 1 / feps.
Proof.
  intros g w sched d k st u b T3 NW H I0 LX HB HU. destruct (last_pass g w sched d k st H I0) as (o & l & a & B).
  refine (chempot_above g w o l a st T3 NW B LX u b HU _). intros j Hj i x Hi Hx. apply HB; [split; auto|exact Hx].
Qed.
Print Assumptions C130_chempot.
(** E.Ts is not negative by more than the variation of the potential times the number of electrons; it is not negative at all in potentials that are constant on the grid. *)
Theorem C130_kinetic : forall g w sched d k st E b B, three_point g -> (forall x, (x < Nelem g)%nat -> 0 < gwi g x) -> normed_workers g w -> ks_scf g w sched d k = Ok st -> (2 <= c_iter st)%Z -> levels_exact g (c_ks st) ->
  k_E (c_ks st) = Some E -> (forall i j x, place (c_ks st) i j -> (x < Nelem g)%nat -> b j <= s_veff (k_sol (c_ks st) i j) x <= B j) ->
  exists T, E_Ts E = Fin T /\ - sumR (k_cols (c_ks st)) (fun j => (B j - b j) * sumR (k_lv (c_ks st)) (fun i => integrate1 g (dens g (k_sol (c_ks st) i j)))) <= T /\ ((forall j, (j < k_cols (c_ks st))%nat -> B j = b j) -> 0 <= T).
Proof.
  intros g w sched d k st E b B T3 W NW H I0 LX HE HB. destruct (last_pass g w sched d k st H I0) as (o & l & a & BD).
  destruct (kinetic_above g w o l a st T3 NW BD LX W E b B HE) as (T & T1 & T2).
  - intros j Hj. split; intros i x Hi Hx; apply (HB i j x (conj Hi Hj) Hx).
  - exists T. split; [exact T1|]. split; [exact T2|]. intros Z. rewrite sumR_zero in T2; [lra|]. intros j Hj. rewrite Z by exact Hj. ring.
Qed.
Print Assumptions C130_kinetic.
(** two electrons without interaction on a 16 x 16 grid: levels 2 and 3, the constant orbital, in potentials that vary *)
Lemma C130_witness : exists q b B k0 k st, ks_init g3p 1 0 2 1 2 (fun _ _ => 1%nat) 1 2 ex_N ni_opt = Ok k0 /\ k = set_vext k0 (Some (fun x j => lv_pot q (2 + INR j) x - k_vnuc k0 x j)) /\
  three_point g3p /\ (forall x, (x < Nelem g3p)%nat -> 0 < gwi g3p x) /\ normed_workers g3p (lv_env q (fun _ => 1) 0) /\ ks_scf g3p (lv_env q (fun _ => 1) 0) (fun _ => keys k) [] k = Ok st /\ (2 <= c_iter st)%Z /\ levels_exact g3p (c_ks st) /\
  (forall i j x, place (c_ks st) i j -> (x < Nelem g3p)%nat -> b + 2 + INR j <= s_veff (k_sol (c_ks st) i j) x <= B + 2 + INR j) /\ (forall j, (j < 2)%nat -> exists m, eig_at (k_sol (c_ks st) 0 j) m = Ok (0 + (2 + INR j))).
Proof.
  destruct (finite_bounds (fun x => - lv_row x) (Nelem g3p)) as (b & B & BB). exists (fun x => - lv_row x), b, B.
  destruct (level_case (fun x => - lv_row x) (fun _ => 1) 0 lv_constant (ex_intro _ 0%nat (conj lv_points R1_neq_R0)) b B BB) as (k0 & k & st & H1 & H2 & H3 & H4 & H5 & H6 & H7 & H8 & H9 & H10). exists k0, k, st. repeat (split; [assumption|]). split; [|exact H10].
  intros i j x (Hi & Hj) Hx. destruct (H9 j Hj) as (A & C). split; [apply A|apply C]; assumption.
Qed.
(** the same in the constant potentials 2 and 3, with the lowest orbital of the empty grid *)
Lemma C130_witness_constant : exists u e0 k0 k st, ks_init g3p 1 0 2 1 2 (fun _ _ => 1%nat) 1 2 ex_N ni_opt = Ok k0 /\ k = set_vext k0 (Some (fun x j => lv_pot (fun _ => 0) (2 + INR j) x - k_vnuc k0 x j)) /\
  ground g3p 0 (fun _ => 0) e0 u /\ three_point g3p /\ (forall x, (x < Nelem g3p)%nat -> 0 < gwi g3p x) /\ normed_workers g3p (lv_env (fun _ => 0) u e0) /\ ks_scf g3p (lv_env (fun _ => 0) u e0) (fun _ => keys k) [] k = Ok st /\ (2 <= c_iter st)%Z /\ levels_exact g3p (c_ks st) /\
  (forall i j x, place (c_ks st) i j -> (x < Nelem g3p)%nat -> 2 + INR j <= s_veff (k_sol (c_ks st) i j) x <= 2 + INR j).
Proof.
  destruct (ground_exists g3p g3p_spacing 0 (fun _ => 0)) as (e0 & u & G). exists u, e0.
  destruct (level_case (fun _ => 0) u e0 (proj2 G) (ex_intro _ 0%nat (conj lv_points (Rgt_not_eq _ _ (proj1 G _ lv_points)))) 0 0 ltac:(intros; lra)) as (k0 & k & st & H1 & H2 & H3 & H4 & H5 & H6 & H7 & H8 & H9 & H10). exists k0, k, st. do 2 (split; [assumption|]). split; [exact G|]. repeat (split; [assumption|]).
  intros i j x (Hi & Hj) Hx. destruct (H9 j Hj) as (A & C). pose proof (A i x Hi Hx). pose proof (C i x Hi Hx). lra.
Qed.
