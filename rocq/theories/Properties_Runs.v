(** Properties C87 onward: runs of Partition.scf as a whole. *)
From Coq Require Import Reals List Arith Lia Lra ZArith Bool String.
From Verif Require Import Base BaseLemmas GridModel GridSpec GridProofs NCProofs AxisProofs GridWitness GridMore HartreeModel SolverModel SolverSpec SolverProofs SolverThms
  SolverWitness SolverCases LibxcModel OptionsModel OptionsProofs KSModel KSSpec KSProofs KSThms KSLoop KSEnergy KSTotal KSWit
  InverterModel InverterWit PartitionModel PartitionSpec PartitionBase PartitionConstr PartitionDens PartitionLoop PartitionPass PartitionScf PartitionRun PartitionNew PartitionGood PartitionWit PartitionWit2 PartitionCount
  OptionsMore OptionsSettings SelfConsistent NonInteracting Isolated IsolatedWit.
Import ListNotations.
Local Open Scope R_scope.
Local Opaque sinh cosh.

(** * C87: electron numbers, sign and symmetry in every pass *)
Theorem C87_component_electrons : forall g w sched d p o n l s, passes g w sched d p o n l s -> worker_ok g (pe_env w) -> occupied p -> mirror_safe g p ->
  (ps_cont o = true -> forall c f m j, computed p c -> p_f p c = Some f -> k_n (f_ks f) = Some m -> (j < k_cols (f_ks f))%nat -> integrate1 g (fun x => m x j) = electrons (f_ks f) j) ->
  forall c f0, member (p_ens p) c -> p_f p (source p c) = Some f0 ->
  exists f m, p_f (q_p s) c = Some f /\ k_n (f_ks f) = Some m /\ forall j, (j < k_cols (f_ks f0))%nat -> integrate1 g (fun x => m x j) = electrons (f_ks f0) j.
Proof. exact run_electrons. Qed.
Print Assumptions C87_component_electrons.
Theorem C87_electrons : forall g Za Zb pol spec nua nub opt p w sched d o n l s, constructed g Za Zb pol spec nua nub opt p -> passes g w sched d p o n l s -> ps_target o = false ->
  worker_ok g (pe_env w) -> occupied p -> mirror_safe g p ->
  (forall c, member (p_ens p) c -> (pol <= fs_cols (spec (source p c)))%nat) ->
  exists nf, p_nf (q_p s) = Some nf /\ forall j, (j < pol)%nat ->
    integrate1 g (fun x => nf x j) = lsum (if p_ens p then [Ca; CA; Cb; CB] else [Ca; Cb]) (fun c => weight (p_ens p) (po_ess (p_opt p)) nua nub c *
      (asked spec (source p c) j + (if po_ess (p_opt p) then asked spec (source p c) (pol - 1 - j) else 0))).
Proof. exact new_run_count. Qed.
Print Assumptions C87_electrons.
Theorem C87_nonneg : forall g Za Zb pol spec nua nub opt p w sched d o n l s, constructed g Za Zb pol spec nua nub opt p -> passes g w sched d p o n l s -> ps_target o = false ->
  worker_ok g (pe_env w) -> occupied p -> Forall (fun a => 0 <= a <= 1) (ps_alpha o) -> 0 <= nua <= 1 -> 0 <= nub <= 1 ->
  exists F m na nb nf q, settled g (q_p s) F m na nb nf q /\ forall x j, (x < Nelem g)%nat -> 0 <= na x j /\ 0 <= nb x j /\ 0 <= nf x j /\
    forall c, member (p_ens p) c -> 0 <= m c x j /\ 0 <= q c x j <= 1.
Proof. exact new_run_nonneg. Qed.
Print Assumptions C87_nonneg.
Theorem C87_symmetric : forall g w sched d p o n l s, passes g w sched d p o n l s -> forall c f0, computed p c -> p_f p c = Some f0 -> o_sym (k_opt (f_ks f0)) = true ->
  (ps_cont o = true -> forall m, k_n (f_ks f0) = Some m -> forall cols, symmetric g cols m) ->
  exists f m, p_f (q_p s) c = Some f /\ k_n (f_ks f) = Some m /\ forall cols, symmetric g cols m.
Proof. exact run_component_symmetric. Qed.
Print Assumptions C87_symmetric.
(** an ensemble with ab_sym and ens_spin_sym run to its end: every hypothesis holds, and the molecule has two electrons of each spin *)
Lemma g22_mirror_invariant : mirror_invariant g22.
Proof.
  intros f. apply integrate1_mirror; [reflexivity|]. intros i Hi. change (Na g22) with 2%nat in *. rewrite (proj1 (g22_w i Hi)), (proj1 (g22_w (2 - 1 - i) ltac:(lia))). reflexivity.
Qed.
Lemma C87_witness : exists p o n l s nf, partition_init g22 1 1 2 w_spec (1/2) (1/2) (w_opt "libxcke" true true) = Ok p /\ p_ens p = true /\ po_ab (p_opt p) = true /\ po_ess (p_opt p) = true /\
  partition_scf g22 w_env w_sched [] p = Ok s /\ passes g22 w_env w_sched [] p o (S n) l s /\ ps_target o = false /\ worker_ok g22 (pe_env w_env) /\ occupied p /\ mirror_safe g22 p /\
  Forall (fun a => 0 <= a <= 1) (ps_alpha o) /\ (forall c, member (p_ens p) c -> (2 <= fs_cols (w_spec (source p c)))%nat) /\
  p_nf (q_p s) = Some nf /\ forall j, (j < 2)%nat -> integrate1 g22 (fun x => nf x j) = 2.
Proof.
  destruct (w_runs "libxcke" true true 1 1 (1/2) (1/2)) as (p & o & n & l & s & H & _ & AB & ES & _ & _ & _ & _ & SY & EN & SC & PS & _ & TA & AL); [auto|auto|lra|].
  assert (E : p_ens p = true) by (destruct (p_ens p); auto; assert (1 / 2 = 1) by (apply EN; auto); lra).
  assert (WO : worker_ok g22 (pe_env w_env)). { intros it k r Q. injection Q as <-. cbn [snd]. intros. apply g22_int_pos. intros. lra. }
  assert (OC : occupied p).
  { intros c f i j (Hc & _) F Hp. destruct (w_place _ _ _ _ _ _ c f H SY Hc F) as ((_ & _ & _ & W) & _). destruct (W i j Hp) as (A & B & C). split; [rewrite C; lra|]. right. exists 1%nat. rewrite A, B, C. unfold shell_size. simpl. lra. }
  assert (MS : mirror_safe g22 p) by (intros _; apply g22_mirror_invariant).
  assert (CO : forall c, member (p_ens p) c -> (2 <= fs_cols (w_spec (source p c)))%nat) by (intros; simpl; lia).
  destruct (new_run_count _ _ _ _ _ _ _ _ _ _ _ _ _ _ _ _ (init_constructed _ _ _ _ _ _ _ _ _ H) PS TA WO OC MS CO) as (nf & N1 & N2).
  exists p, o, n, l, s, nf. repeat (split; [assumption|]). split; [rewrite AL; repeat constructor; lra|]. split; [auto|]. split; [auto|].
  intros j Hj. rewrite (N2 j Hj), E, ES. unfold asked, weight. cbn [lsum w_spec fs_lv fs_N sumR]. lra.
Qed.

(** * C88: what the end of a self-consistency loop certifies *)
Theorem C88_ks_fixed : forall g w o l st st', so_flip o = false -> scf_body g w o l st = Ok st' ->
  exists k1 n n' nout ve vh, k_n (c_ks st) = Some n /\ k_n (c_ks st') = Some n' /\
    calc_hxc_potential g w (c_ks st) = Ok k1 /\ k_vext (c_ks st) = Some ve /\ k_vhxc k1 = Some vh /\
    delivered g w (so_iter o) (if so_iter o && so_cont o then Fin 0 else c_diff st) l (c_ks st) ve vh nout /\
    forall x s, n' x s = n x s <-> (so_alpha o = 0 \/ nout x s = n x s).
Proof. exact ks_fixed. Qed.
Print Assumptions C88_ks_fixed.
Theorem C88_ks_certificate : forall g w sched d k st o r, ks_scf g w sched d k = Ok st -> scf_options d = Ok o -> so_flip o = false -> k_pol k = 2%nat -> (0 < Nelem g)%nat ->
  (c_iter st < so_maxiter o)%Z -> c_diff st = Fin r -> so_tol o < 1 -> (forall n s, k_n (c_ks st) = Some n -> (s < 2)%nat -> 0 < amount g n s) ->
  exists st0 k1 n n' nout ve vh E E0, scf_trace g w o sched k st0 /\ c_iter st = (c_iter st0 + 1)%Z /\ (2 <= c_iter st0)%Z /\ k_n (c_ks st0) = Some n /\ k_n (c_ks st) = Some n' /\
    calc_hxc_potential g w (c_ks st0) = Ok k1 /\ k_vext (c_ks st0) = Some ve /\ k_vhxc k1 = Some vh /\
    delivered g w (so_iter o) (if so_iter o && so_cont o then Fin 0 else c_diff st0) (sched (c_iter st0)) (c_ks st0) ve vh nout /\
    c_oldE st = Fin E /\ c_oldE st0 = Fin E0 /\ Rabs (E - E0) <= so_tol o * Rabs E /\
    forall s, (s < 2)%nat -> Rabs (so_alpha o) * distance g nout n s <= so_tol o * amount g n' s.
Proof. exact ks_certificate. Qed.
Print Assumptions C88_ks_certificate.
Theorem C88_part_fixed : forall g w o sched s s', psc_body g w o sched s = Ok s' -> forall c, computed (q_p s) c ->
  exists f f' n n' nout, p_f (q_p s) c = Some f /\ p_f (q_p s') c = Some f' /\ k_n (f_ks f) = Some n /\ k_n (f_ks f') = Some n' /\ answered g w o sched s c f f' nout /\
    forall x j, n' x j = n x j <-> (f_alpha f = 0 \/ nout x j = n x j).
Proof. exact part_fixed. Qed.
Print Assumptions C88_part_fixed.
Theorem C88_part_certificate : forall g w sched d p s, partition_scf g w sched d p = Ok s -> forall o r a, psc_options p d = Ok o -> ps_target o = false -> p_pol p = 2%nat -> (0 < Nelem g)%nat ->
  q_dif s = Fin r -> r <= ps_tol o -> ps_tol o < 10 -> (forall c, member (p_ens p) c -> step_size (ps_alpha o) c = Some a) ->
  (forall nf j, p_nf (q_p s) = Some nf -> (j < 2)%nat -> 0 < amount g nf j) ->
  exists m s0 l0 wt nc nout nf nf', passes g w sched d p o m l0 s0 /\ psc_body g w o (sched (q_iter s0)) s0 = Ok s /\ p_nf (q_p s0) = Some nf /\ p_nf (q_p s) = Some nf' /\
    (forall c, computed p c -> exists f f', p_f (q_p s0) c = Some f /\ p_f (q_p s) c = Some f' /\ k_n (f_ks f) = Some (nc c) /\ wt c = f_scale f /\ answered g w o (sched (q_iter s0)) s0 c f f' (nout c)) /\
    (po_ab (p_opt p) = true -> forall c, member (p_ens p) c -> of_a c -> mirrored g (nout c) (nout (twin c)) /\ mirrored g (nc c) (nc (twin c))) /\
    (forall x j, nf x j = assembled p wt nc x j) /\
    Rabs (q_oldE s - q_oldE s0) <= ps_tol o * Rabs (q_oldE s) /\
    forall j, (j < 2)%nat -> Rabs a * distance g (assembled p wt nout) nf j <= ps_tol o * amount g nf' j.
Proof. exact part_certificate. Qed.
Print Assumptions C88_part_certificate.
(** a run of Kohnsham.scf that ends in its third round with residual 0, and a run of Partition.scf that ends with residual 0; every hypothesis above holds *)
Lemma C88_witness : (exists k st o, ks_init g22 1 0 2 1 2 (fun _ _ => 1%nat) 1 2 ex_N ni_opt = Ok k /\ ks_scf g22 ex_env (fun _ => keys k) [] k = Ok st /\ scf_options [] = Ok o /\ so_flip o = false /\ k_pol k = 2%nat /\ (0 < Nelem g22)%nat /\
    (c_iter st < so_maxiter o)%Z /\ c_diff st = Fin 0 /\ so_tol o < 1 /\ forall n s, k_n (c_ks st) = Some n -> (s < 2)%nat -> 0 < amount g22 n s) /\
  exists p o s, partition_init g22 1 1 2 w_spec 1 1 w_ni = Ok p /\ partition_scf g22 w_env w_sched [] p = Ok s /\ psc_options p [] = Ok o /\ ps_target o = false /\ p_pol p = 2%nat /\ (0 < Nelem g22)%nat /\
    q_dif s = Fin 0 /\ 0 <= ps_tol o /\ ps_tol o < 10 /\ (forall c, member (p_ens p) c -> step_size (ps_alpha o) c = Some (82 / 100)) /\ forall nf j, p_nf (q_p s) = Some nf -> (j < 2)%nat -> 0 < amount g22 nf j.
Proof.
  assert (HN : (0 < Nelem g22)%nat) by (rewrite g22_n; lia). split.
  - destruct ni_run as (k & st & o & k0 & n0 & R0 & R1 & R2 & R3 & R4 & R5 & R6 & R7 & R8 & R9 & R10 & R11 & R12 & R13 & R14 & R15).
    destruct (ni_two_passes _ _ _ _ _ _ _ _ _ (-2) R1 R2 R3 R4 R5 R6 R7 R8 R9 HN R10 R11 R12 (eq_sym R13) ltac:(lra) R14 R15) as (IT & DI & _).
    exists k, st, o. repeat (split; [assumption|]). split; [pose proof R2 as Q; injection Q as <-; rewrite IT; reflexivity|]. split; [exact DI|]. split; [lra|].
    intros n s N Hs. destruct (scf_inv _ _ _ _ _ _ R1) as (o' & O' & T & _). rewrite R2 in O'. injection O' as <-. destruct (ni_density _ _ _ _ _ _ R3 R4 R5 R6 T k0 n0 R10 R11) as (n' & N' & X). rewrite N in N'. injection N' as <-.
    unfold amount. rewrite (integrate1_ext g22 _ (fun x => Rabs (n0 x s))) by (intros; rewrite X; reflexivity). apply R12, Hs.
  - destruct w_ni_run as (p & o & n & l & s & R0 & R1 & R2 & R3 & R4 & R5 & R6 & R7 & R8 & R9 & R10 & R11 & R12 & R13 & R14). exists p, o, s. repeat (split; [assumption|]). split; [lra|]. split; [lra|]. split; assumption.
Qed.

(** * C89: without electron-electron interaction *)
Theorem C89_density : forall g w o sched k st, steady g w -> o_int (k_opt k) = "ni"%string -> so_cont o = false -> so_flip o = false -> scf_trace g w o sched k st ->
  forall k0 n0, scf_start g w o (sched 0%Z) k = Ok k0 -> k_n k0 = Some n0 -> exists n, k_n (c_ks st) = Some n /\ forall x s, n x s = n0 x s.
Proof. exact ni_density. Qed.
Print Assumptions C89_density.
Theorem C89_energy : forall g w o sched k st, steady g w -> o_int (k_opt k) = "ni"%string -> so_cont o = false -> so_flip o = false -> o_sym (k_opt k) = false -> k_pol k = k_cols k ->
  scf_trace g w o sched k st -> (2 <= c_iter st)%Z -> forall k0 n0, scf_start g w o (sched 0%Z) k = Ok k0 -> k_n k0 = Some n0 ->
  c_oldE st = Fin (band k0 - interaction g (k_pol k) n0 (outer k) + k_Za k * k_Zb k / (2 * ga g)).
Proof. exact ni_energy. Qed.
Print Assumptions C89_energy.
Theorem C89_two_passes : forall g w sched d k st o k0 n0 E, ks_scf g w sched d k = Ok st -> scf_options d = Ok o -> steady g w -> o_int (k_opt k) = "ni"%string -> so_cont o = false -> so_flip o = false ->
  o_sym (k_opt k) = false -> k_pol k = 2%nat -> k_cols k = 2%nat -> (0 < Nelem g)%nat -> scf_start g w o (sched 0%Z) k = Ok k0 -> k_n k0 = Some n0 -> (forall s, (s < 2)%nat -> 0 < amount g n0 s) ->
  E = band k0 - interaction g 2 n0 (outer k) + k_Za k * k_Zb k / (2 * ga g) -> E <> 0 -> 0 <= so_tol o < 1 -> (3 <= so_maxiter o)%Z ->
  c_iter st = 3%Z /\ c_diff st = Fin 0 /\ c_oldE st = Fin E.
Proof. exact ni_two_passes. Qed.
Print Assumptions C89_two_passes.
Theorem C89_isolated : forall g w sched d p o n l s n' l' s' c f0 a, steady g (pe_env w) -> passes g w sched d p o n l s -> passes g w sched d p o n' l' s' -> po_iso (p_opt p) = true -> ps_cont o = false ->
  computed p c -> p_f p c = Some f0 -> o_int (k_opt (f_ks f0)) = "ni"%string -> step_size (ps_alpha o) c = Some a ->
  exists f f' m, p_f (q_p s) c = Some f /\ p_f (q_p s') c = Some f' /\ k_n (f_ks f) = Some m /\ k_n (f_ks f') = Some m /\
    ((0 < n)%nat -> (0 < n')%nat -> exists E E', k_E (f_ks f) = Some E /\ k_E (f_ks f') = Some E' /\ E_E E = E_E E').
Proof. exact ni_isolated. Qed.
Print Assumptions C89_isolated.
(** a hydrogen-like atom with two electrons, energy -2; two such atoms as isolated fragments, energy -4 + 1/2 *)
Lemma C89_witness : (exists k st o k0 n0, ks_init g22 1 0 2 1 2 (fun _ _ => 1%nat) 1 2 ex_N ni_opt = Ok k /\ ks_scf g22 ex_env (fun _ => keys k) [] k = Ok st /\ scf_options [] = Ok o /\
    steady g22 ex_env /\ o_int (k_opt k) = "ni"%string /\ so_cont o = false /\ so_flip o = false /\ o_sym (k_opt k) = false /\ k_pol k = 2%nat /\ k_cols k = 2%nat /\
    scf_start g22 ex_env o (keys k) k = Ok k0 /\ k_n k0 = Some n0 /\ (forall s, (s < 2)%nat -> 0 < amount g22 n0 s) /\
    band k0 - interaction g22 2 n0 (outer k) + k_Za k * k_Zb k / (2 * ga g22) = -2 /\ 0 <= so_tol o < 1 /\ (3 <= so_maxiter o)%Z) /\
  exists p o n l s f0, partition_init g22 1 1 2 w_spec 1 1 w_ni = Ok p /\ steady g22 (pe_env w_env) /\ passes g22 w_env w_sched [] p o (S n) l s /\ po_iso (p_opt p) = true /\ ps_cont o = false /\
    computed p Ca /\ p_f p Ca = Some f0 /\ o_int (k_opt (f_ks f0)) = "ni"%string /\ step_size (ps_alpha o) Ca = Some (82 / 100) /\ q_oldE s = - (7 / 2).
Proof.
  split; [exact ni_run|]. destruct w_ni_run as (p & o & n & l & s & R0 & R1 & R2 & R3 & R4 & R5 & R6 & R7 & R8 & R9 & R10 & R11 & R12 & R13 & R14).
  assert (MC : member (p_ens p) Ca) by (destruct (p_ens p); exact Logic.I). destruct (R9 Ca MC) as (HC & f0 & F0 & K). destruct K as (_ & _ & _ & _ & _ & NI & _).
  exists p, o, n, l, s, f0. repeat (split; [solve [auto]|]). assumption.
Qed.

(** * C90: an isolated fragment is a Kohn-Sham calculation *)
Theorem C90_kohnsham_iterates : forall g w o sched k st, so_cont o = false -> so_flip o = false -> scf_trace g w o sched k st ->
  exists n, k_n (c_ks st) = Some n /\ k_vext (c_ks st) = Some (outer k) /\ iterate g w k (outer k) (so_alpha o) (Z.to_nat (c_iter st - 1)) n (c_oldE st).
Proof. exact ks_iterates. Qed.
Print Assumptions C90_kohnsham_iterates.
Theorem C90_partition_iterates : forall g w sched d p o n l s, passes g w sched d p o n l s -> po_iso (p_opt p) = true -> ps_cont o = false -> forall c f0 a, computed p c -> p_f p c = Some f0 -> step_size (ps_alpha o) c = Some a ->
  exists f m e, p_f (q_p s) c = Some f /\ k_n (f_ks f) = Some m /\ (exists v, k_vext (f_ks f) = Some v /\ forall x j, v x j = 0) /\ iterate g (pe_env w) (f_ks f0) (fun _ _ => 0) a n m e /\
    ((0 < n)%nat -> exists E, k_E (f_ks f) = Some E /\ E_E E = e).
Proof. exact part_iterates. Qed.
Print Assumptions C90_partition_iterates.
Theorem C90_iterates_unique : forall g w k ve ve' a i n e n' e', steady g w -> (forall x j, (x < Nelem g)%nat -> ve x j = ve' x j) -> iterate g w k ve a i n e -> iterate g w k ve' a i n' e' -> n' = n /\ e' = e.
Proof. exact iterate_det. Qed.
Print Assumptions C90_iterates_unique.
Theorem C90_isolated_as_kohnsham : forall g w sched d p o n l s c f0 a ko ksched k st, steady g (pe_env w) -> passes g w sched d p o n l s -> po_iso (p_opt p) = true -> ps_cont o = false ->
  computed p c -> p_f p c = Some f0 -> step_size (ps_alpha o) c = Some a ->
  scf_trace g (pe_env w) ko ksched k st -> frame (f_ks f0) k -> k_vext k = None -> so_cont ko = false -> so_flip ko = false -> so_alpha ko = a -> c_iter st = (Z.of_nat n + 1)%Z ->
  exists f m, p_f (q_p s) c = Some f /\ k_n (f_ks f) = Some m /\ k_n (c_ks st) = Some m /\ ((0 < n)%nat -> exists E, k_E (f_ks f) = Some E /\ c_oldE st = E_E E).
Proof. exact isolated_as_kohnsham. Qed.
Print Assumptions C90_isolated_as_kohnsham.
(** interacting fragments: the first pass of both programs *)
Lemma C90_witness : forall Zb, exists p o l s f0 d ko k st, partition_init g22 1 Zb 2 w_spec 1 1 w_iso = Ok p /\ steady g22 (pe_env w_env) /\ passes g22 w_env w_sched [] p o 1 l s /\ po_iso (p_opt p) = true /\ ps_cont o = false /\
  computed p Ca /\ p_f p Ca = Some f0 /\ o_int (k_opt (f_ks f0)) = "dft"%string /\ step_size (ps_alpha o) Ca = Some (82 / 100) /\
  scf_options d = Ok ko /\ k = f_ks f0 /\ scf_trace g22 (pe_env w_env) ko (fun _ => keys k) k st /\ frame (f_ks f0) k /\ k_vext k = None /\ so_cont ko = false /\ so_flip ko = false /\ so_alpha ko = 82 / 100 /\ c_iter st = (Z.of_nat 1 + 1)%Z.
Proof. exact w_iso_pair. Qed.

(** * C40: the settings in force *)
Local Open Scope string_scope.
Theorem C40_inverter_settings : forall lv cols sol vset d iv, case_distinct d -> inverter_init lv cols sol vset d = Ok iv ->
  setting d "ab_sym" (VB false) (VB (io_ab (i_opt iv))) /\ setting d "ens_spin_sym" (VB false) (VB (io_ess (i_opt iv))) /\
  setting d "use_iterative" (VB false) (VB (io_iter (i_opt iv))) /\ setting d "avoid_loop" (VB false) (VB (io_avoid (i_opt iv))) /\
  setting d "invert_type" (VS "wuyang") (VS (io_type (i_opt iv))) /\ real_setting d "tol_invert" (/ 10 ^ 12) (io_tol (i_opt iv)) /\
  setting d "max_iter_invert" (VZ 20) (VZ (io_maxit (i_opt iv))) /\ real_setting d "res_factor" 1 (io_resf (i_opt iv)) /\
  i_lv iv = lv /\ i_cols iv = cols /\ i_sol iv = sol /\ i_vset iv = vset /\ i_vs iv = None /\ i_us iv = None /\ i_Ts iv = None.
Proof. exact inverter_settings. Qed.
Print Assumptions C40_inverter_settings.
Theorem C40_partition_scf_settings : forall p d o, case_distinct d -> psc_options p d = Ok o ->
  real_setting d "e_tol" (/ 10 ^ 7) (ps_tol o) /\ setting d "max_iter" (VZ 50) (VZ (ps_maxit o)) /\ setting d "alpha" (VL [(82 / 100)%R]) (VL (ps_alpha o)) /\
  (exists t, setting d "calc_type" (VS "pdft") (VS t) /\ (ps_sdft o = true <-> t = "sdft")) /\
  setting d "continuing" (VB false) (VB (ps_cont o)) /\ setting d "from_target_density" (VB false) (VB (ps_target o)) /\
  setting d "iterative" (VB true) (VB (ps_iter o)) /\ setting d "auto_tol" (VB false) (VB (ps_auto o)) /\
  setting d "freeze_a" (VB false) (VB (ps_fa o)) /\ setting d "freeze_b" (VB false) (VB (ps_fb o)).
Proof. exact pscf_settings. Qed.
Print Assumptions C40_partition_scf_settings.
(** names in mixed case; an integer where a float is expected; a list for alpha *)
Lemma C40_settings_witness : (exists sol iv d, case_distinct d /\ inverter_init 1 1 sol (fun _ _ => true) d = Ok iv /\ io_ab (i_opt iv) = true /\ io_tol (i_opt iv) = 2%R /\ io_maxit (i_opt iv) = 20%Z /\ io_type (i_opt iv) = "simple") /\
  exists p o d, case_distinct d /\ partition_init g22 1 1 2 w_spec 1 1 w_ni = Ok p /\ psc_options p d = Ok o /\ ps_sdft o = true /\ ps_alpha o = [(1 / 2)%R; (1 / 4)%R] /\ ps_maxit o = 7%Z /\ ps_fa o = false.
Proof.
  split.
  - exists (fun _ _ => one_solver (fun _ => 0%R) None None). eexists. exists [("Tol_Invert", VZ 2); ("AB_SYM", VB true); ("invert_type", VS "simple")]. split; [repeat constructor; simpl; intuition discriminate|]. split; [reflexivity|]. repeat split.
  - destruct w_ni_init as (p & H & _). exists p. eexists. exists [("Calc_Type", VS "sdft"); ("ALPHA", VL [(1 / 2)%R; (1 / 4)%R]); ("max_iter", VZ 7)]. split; [repeat constructor; simpl; intuition discriminate|]. split; [exact H|]. split; [reflexivity|]. repeat split.
Qed.
