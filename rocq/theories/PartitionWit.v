(** Concrete partition calculations on the 2 x 2 grid: cases in which the hypotheses of the partition theorems hold. *)
From Coq Require Import Reals List Arith Lia Lra ZArith Bool String.
From Verif Require Import Base BaseLemmas GridModel GridSpec GridProofs GridWitness GridMore HartreeModel SolverModel SolverSpec SolverThms SolverWitness SolverCases LibxcModel OptionsModel OptionsProofs KSModel KSSpec KSProofs KSThms KSLoop KSEnergy KSTotal KSWit
  InverterModel InverterTotal InverterWit PartitionModel PartitionSpec PartitionBase PartitionConstr PartitionDens PartitionFrame PartitionEnergy PartitionLoop PartitionPass PartitionScf PartitionModes PartitionNew PartitionGood.
Import ListNotations.
Local Open Scope R_scope.
Local Opaque sinh cosh.

(** Every component has one electron of each spin in one orbital. *)
Definition w_spec : comp -> fspec := fun _ => mkFS 1 2 (fun _ _ => 1%nat) 1 2 (fun _ _ => 1).
Definition w_sched : Z -> comp -> list (nat * nat) := fun _ _ => [(0, 0); (0, 1)]%nat.
Definition w_env : penv := mkPE ex_env (one_env 0) (fun _ _ s => (fun _ => 0, s)) (fun _ _ i => i).
Definition ks_dict (d : dict) : dict :=
  [("interaction_type"%string, VS (getS d "interaction_type")); ("sym"%string, VB (getB d "sym")); ("fractional"%string, VB (getB d "fractional"));
   ("xfunc_id"%string, VZ (Z.of_nat (Z.to_nat (getZ d "xfunc_id")))); ("cfunc_id"%string, VZ (Z.of_nat (Z.to_nat (getZ d "cfunc_id")))); ("xc_family"%string, VS (getS d "xc_family"))].
Lemma init_exists : forall g pol spec Za Zb nua nub opt d k, (forall c, exists lv cols, fs_lv (spec c) = lv /\ fs_lv' (spec c) = lv /\ fs_cols (spec c) = cols /\ fs_cols' (spec c) = cols /\ forall i j, (i < lv)%nat -> (j < cols)%nat -> fs_N (spec c) i j <> -1) ->
  (0 < pol)%nat -> configure PartitionOptions opt = Ok d -> configure KohnShamOptions (ks_dict d) = Ok k -> getS d "kinetic_part_type" <> "paramke"%string ->
  (getB d "ab_sym" = true -> Za = Zb) -> (nua = 1 <-> nub = 1) -> exists p, partition_init g Za Zb pol spec nua nub opt = Ok p.
Proof.
  intros g pol spec Za Zb nua nub opt d k SP HP C K NP AB NU. unfold partition_init. rewrite C. cbn [bind]. cbv zeta. set (o := mkPO _ _ _ _ _ _ _ _ _ _ _ _ _ _).
  assert (FI : forall A B c, exists f, frag_init g o A B pol (spec c) = Ok f).
  { intros A B c. destruct (SP c) as (lv & cols & S1 & S2 & S3 & S4 & S5). unfold frag_init. destruct (init_total g A B pol lv cols (fs_Nmo (spec c)) (fs_N (spec c)) (ks_dict d) k K S5) as (x & X). rewrite S1, S2, S3, S4. unfold ks_dict in X. cbn [o po_int po_sym po_frac po_xid po_cid po_fam]. rewrite X. cbn [bind]. eauto. }
  assert (AB' : (po_ab o && (if Req_EM_T Za Zb then false else true))%bool = false).
  { change (po_ab o) with (getB d "ab_sym"). destruct (getB d "ab_sym"); auto. rewrite (AB eq_refl). destruct (Req_EM_T Zb Zb); [reflexivity|congruence]. }
  rewrite AB'. destruct (FI Za 0 Ca) as (fa & ->). cbn [bind]. destruct (FI 0 Zb Cb) as (fb & ->). cbn [bind].
  assert (KP : String.eqb (po_kin o) "paramke" = false) by (apply String.eqb_neq; exact NP).
  rewrite KP. destruct (Req_EM_T nua 1) as [N1|N1], (Req_EM_T nub 1) as [N2|N2]; try (exfalso; tauto); cbn [bind fst snd].
  - unfold calc_scale_factors. destruct pol; [lia|]. cbn. eauto.
  - destruct (FI Za 0 CA) as (fA & ->). cbn [bind]. destruct (FI 0 Zb CB) as (fB & ->). cbn [bind fst snd]. unfold calc_scale_factors. destruct pol; [lia|]. cbn. eauto.
Qed.
Lemma w_init : forall Za Zb nua nub opt d k, configure PartitionOptions opt = Ok d -> configure KohnShamOptions (ks_dict d) = Ok k -> getS d "kinetic_part_type" <> "paramke"%string ->
  (getB d "ab_sym" = true -> Za = Zb) -> (nua = 1 <-> nub = 1) -> exists p, partition_init g22 Za Zb 2 w_spec nua nub opt = Ok p.
Proof. intros. eapply init_exists; eauto. intros c. exists 1%nat, 2%nat. repeat (split; [reflexivity|]). intros. cbn. lra. Qed.
Lemma w_equipped : forall Za Zb nua nub opt p, partition_init g22 Za Zb 2 w_spec nua nub opt = Ok p -> po_fam (p_opt p) = "lda"%string -> equipped g22 ex_env w_sched 1 p.
Proof.
  intros Za Zb nua nub opt p H LDA c Hc. apply init_inv in H. destruct H as (d & _ & _ & _ & PP & _ & _ & _ & _ & _ & _ & _ & _ & _ & H). destruct (H c Hc) as (f & FI & F). eexists. split; [exact F|]. split; auto. intros _.
  pose proof FI as FI0. apply frag_init_inv in FI. destruct FI as (k & -> & _ & _ & P & L & C & _ & _ & _ & _ & _ & _ & I & _ & _ & _ & _ & FM & S). cbn [w_spec fs_lv fs_cols fs_N fs_Nmo] in *. cbn [fscale new_frag f_ks].
  assert (SP : forall i j, place k i j -> s_m (k_sol k i j) = 0%Z /\ s_pol (k_sol k i j) = 2%nat /\ s_N (k_sol k i j) = 1).
  { intros i j Hp. unfold frag_init in FI0. destruct (ks_init _ _ _ _ _ _ _ _ _ _ _) as [k'|] eqn:E; [|discriminate]. cbn [bind] in FI0. injection FI0 as <-. apply init_spec in E.
    destruct E as (o & _ & _ & _ & _ & _ & _ & _ & _ & _ & _ & _ & _ & _ & _ & _ & _ & _ & _ & _ & _ & W). destruct (W i j Hp) as (_ & S1 & S2 & S3 & _ & S4 & _). split; [|split; auto]. rewrite S1. destruct Hp as (Hi & _). rewrite L in Hi. replace i with 0%nat by lia. reflexivity. }
  split; [split; [|split; [|split; lia]]|split; [exact I|split]].
  - intros it i j s Hp (S1 & S2 & S3 & S4). destruct (SP i j Hp) as (M & PJ & N). rewrite S3, N. split; [lra|]. exists 1%nat, (fun _ => -1), (fun _ _ => 1). split; [reflexivity|]. rewrite S1, S2, M, PJ. unfold shell_size. simpl. lra.
  - right. intros n. rewrite P, FM, LDA. do 3 eexists. repeat (split; [reflexivity|]). reflexivity.
  - unfold want. destruct (inverting p); [|exact Logic.I]. split; [exact L|]. split; [rewrite PP; exact C|]. intros i j Hp. right. exists 1%nat. destruct (SP i j Hp) as (M & PJ & N). rewrite M, PJ, N. unfold shell_size. simpl. lra.
  - intros it. split; [repeat constructor; simpl; intuition congruence|]. intros i j. unfold place. rewrite L, C. simpl. split.
    + intros [X|[X|[]]]; injection X as <- <-; lia.
    + intros (Hi & Hj). assert (i = 0%nat) by lia. assert (j = 0 \/ j = 1)%nat by lia. subst i. destruct H1; subst; auto.
Qed.
Lemma w_equipped_c : forall Za Zb nua nub opt p, constructed g22 Za Zb 2 w_spec nua nub opt p -> po_fam (p_opt p) = "lda"%string -> equipped g22 ex_env w_sched 1 p.
Proof. intros Za Zb nua nub opt p H LDA. destruct (constructed_inv _ _ _ _ _ _ _ _ _ H) as (p0 & i & H0 & ->). exact (w_equipped _ _ _ _ _ _ H0 LDA). Qed.
(** A run of Partition.scf with the settings [opt] (and the default arguments of scf) goes through at least one pass. *)
Lemma w_run_c : forall L Za Zb nua nub opt p, constructed g22 Za Zb 2 w_spec nua nub opt p -> po_fam (p_opt p) = "lda"%string -> workable g22 w_env p -> inv_live L w_env p -> (inverting p = true -> lsq_converges (pe_inv w_env)) ->
  exists o n l s, partition_scf g22 w_env w_sched [] p = Ok s /\ psc_options p [] = Ok o /\ passes g22 w_env w_sched [] p o (S n) l s /\ psc_test o s = Ok false /\ ps_target o = false /\ ps_alpha o = [82 / 100].
Proof.
  intros L Za Zb nua nub opt p H F W LV CV. assert (O : exists o, psc_options p [] = Ok o /\ ps_target o = false /\ ps_cont o = false /\ ps_auto o = false /\ ps_alpha o = [82 / 100] /\ ps_maxit o = 50%Z /\ ps_tol o = / 10 ^ 7).
  { unfold psc_options, configure_partition_scf. eexists. split; [reflexivity|]. repeat split. }
  destruct O as (o & O & T & C & A & AL & M & TO). pose proof (constructed_static _ _ _ _ _ _ _ _ _ H) as (P & _).
  assert (V : some (p_V p "vext"%string)). { destruct (constructed_inv _ _ _ _ _ _ _ _ _ H) as (p0 & i & H0 & ->). pose proof (init_inv _ _ _ _ _ _ _ _ _ H0) as (d & _ & _ & _ & _ & _ & _ & _ & _ & _ & _ & _ & V & _ & _). cbn [set_inv p_V]. rewrite V. eexists. reflexivity. }
  destruct (scf_works L g22 w_env w_sched [] p o 1%nat) as (s & E); auto.
  - rewrite g22_n. lia.
  - rewrite AL. left. reflexivity.
  - lia.
  - eapply w_equipped_c; eauto.
  - destruct (pscf_trace _ _ _ _ _ _ E) as (o' & n & l & X & Y). pose proof (passes_start _ _ _ _ _ _ _ _ _ X) as (O' & _). rewrite O in O'. injection O' as <-.
    destruct (scf_one_pass _ _ _ _ _ _ E) as (o2 & n2 & l2 & O2 & X2 & Z2). rewrite O in O2. injection O2 as <-. destruct Z2 as (m & ->); [lia|rewrite TO|].
    + assert (1 <= 10 ^ 7) by (apply pow_R1_Rle; lra). assert (/ 10 ^ 7 <= / 1) by (apply Rinv_le_contravar; lra). lra.
    + exists o, m, l2, s. repeat (split; [assumption|]). assumption.
Qed.
Lemma w_run : forall Za Zb nua nub opt p, partition_init g22 Za Zb 2 w_spec nua nub opt = Ok p -> po_fam (p_opt p) = "lda"%string -> workable g22 w_env p -> inverting p = false ->
  exists o n l s, partition_scf g22 w_env w_sched [] p = Ok s /\ psc_options p [] = Ok o /\ passes g22 w_env w_sched [] p o (S n) l s /\ psc_test o s = Ok false /\ ps_target o = false /\ ps_alpha o = [82 / 100].
Proof. intros Za Zb nua nub opt p H F W NI. eapply (w_run_c 0); eauto; [apply init_constructed; exact H| |]; intros I; congruence. Qed.
Lemma w_xc : forall fam id n, fam = "lda"%string -> exists x, get_xc g22 ex_env.(e_lib) fam id 2 n = Ok x. Proof. intros fam id n ->. eexists. reflexivity. Qed.
(** Interaction type dft, exact hxc, component mode, kinetic_part_type none or libxcke. *)
Lemma w_workable : forall Za Zb nua nub opt p, partition_init g22 Za Zb 2 w_spec nua nub opt = Ok p -> po_fam (p_opt p) = "lda"%string -> po_kfam (p_opt p) = "lda"%string -> po_vp (p_opt p) = "component"%string ->
  po_int (p_opt p) = "dft"%string -> po_hxc (p_opt p) = "exact"%string -> po_kin (p_opt p) = "none"%string \/ po_kin (p_opt p) = "libxcke"%string -> workable g22 w_env p.
Proof.
  intros Za Zb nua nub opt p H F KF V I X K. pose proof (init_inv _ _ _ _ _ _ _ _ _ H) as (d & _ & _ & _ & P & _). right. split; auto. split.
  - destruct K as [K|K]; [left; exact K|right; right]. split; auto. intros n. rewrite P, KF. eexists. reflexivity.
  - right. split; auto. split; auto. split.
    + intros n. rewrite P, F. do 3 eexists. repeat (split; [reflexivity|]). reflexivity.
    + intros n. eexists. reflexivity.
Qed.
Definition w_opt (kin : string) (ab ess : bool) : dict := [("kinetic_part_type"%string, VS kin); ("k_family"%string, VS "lda"); ("ab_sym"%string, VB ab); ("ens_spin_sym"%string, VB ess)].
Lemma w_setup : forall kin ab ess Za Zb nua nub, kin = "none"%string \/ kin = "libxcke"%string -> (ab = true -> Za = Zb) -> (nua = 1 <-> nub = 1) -> exists p, partition_init g22 Za Zb 2 w_spec nua nub (w_opt kin ab ess) = Ok p /\
  po_kin (p_opt p) = kin /\ po_ab (p_opt p) = ab /\ po_ess (p_opt p) = ess /\ po_iso (p_opt p) = false /\ po_int (p_opt p) = "dft"%string /\ po_hxc (p_opt p) = "exact"%string /\ po_vp (p_opt p) = "component"%string /\ po_sym (p_opt p) = false /\ po_fam (p_opt p) = "lda"%string /\ workable g22 w_env p.
Proof.
  intros kin ab ess Za Zb nua nub K AB NU. assert (C : exists d, configure PartitionOptions (w_opt kin ab ess) = Ok d /\ exists k, configure KohnShamOptions (ks_dict d) = Ok k) by (destruct K as [-> | ->]; eexists; (split; [reflexivity|]); eexists; reflexivity).
  destruct C as (d & C & k & C2). destruct (w_init Za Zb nua nub (w_opt kin ab ess) d k C C2) as (p & H).
  - destruct K as [-> | ->]; injection C as <-; discriminate.
  - intros A. apply AB. destruct K as [-> | ->]; injection C as <-; exact A.
  - exact NU.
  - exists p. split; auto. pose proof (init_inv _ _ _ _ _ _ _ _ _ H) as (d' & C' & O & _). rewrite C in C'. injection C' as <-.
    assert (Q : po_kin (p_opt p) = kin /\ po_ab (p_opt p) = ab /\ po_ess (p_opt p) = ess /\ po_iso (p_opt p) = false /\ po_int (p_opt p) = "dft"%string /\ po_hxc (p_opt p) = "exact"%string /\ po_vp (p_opt p) = "component"%string /\ po_sym (p_opt p) = false /\ po_fam (p_opt p) = "lda"%string /\ po_kfam (p_opt p) = "lda"%string).
    { rewrite O. destruct K as [-> | ->]; injection C as <-; repeat (split; [reflexivity|]); reflexivity. }
    destruct Q as (Q1 & Q2 & Q3 & Q4 & Q5 & Q6 & Q7 & Q8 & Q9 & Q10). repeat (split; [assumption|]). eapply w_workable; eauto. rewrite Q1. exact K.
Qed.
(** Such calculations run. *)
Theorem w_runs : forall kin ab ess Za Zb nua nub, kin = "none"%string \/ kin = "libxcke"%string -> (ab = true -> Za = Zb) -> (nua = 1 <-> nub = 1) -> exists p o n l s, partition_init g22 Za Zb 2 w_spec nua nub (w_opt kin ab ess) = Ok p /\
  po_kin (p_opt p) = kin /\ po_ab (p_opt p) = ab /\ po_ess (p_opt p) = ess /\ po_iso (p_opt p) = false /\ po_int (p_opt p) = "dft"%string /\ po_hxc (p_opt p) = "exact"%string /\ po_vp (p_opt p) = "component"%string /\ po_sym (p_opt p) = false /\
  (p_ens p = false <-> nua = 1) /\ partition_scf g22 w_env w_sched [] p = Ok s /\ passes g22 w_env w_sched [] p o (S n) l s /\ psc_test o s = Ok false /\ ps_target o = false /\ ps_alpha o = [82 / 100].
Proof.
  intros kin ab ess Za Zb nua nub K AB NU. destruct (w_setup kin ab ess Za Zb nua nub K AB NU) as (p & H & Q1 & Q2 & Q3 & Q4 & Q5 & Q6 & Q7 & Q8 & Q9 & Q10). assert (NI : inverting p = false) by (unfold inverting; rewrite Q1; destruct K as [-> | ->]; reflexivity). destruct (w_run _ _ _ _ _ _ H Q9 Q10 NI) as (o & n & l & s & R1 & R2 & R3 & R4 & R5 & R6).
  exists p, o, n, l, s. repeat (split; [assumption|]). split; [|auto]. pose proof (init_inv _ _ _ _ _ _ _ _ _ H) as (d' & _ & _ & _ & _ & _ & _ & _ & _ & _ & _ & _ & _ & [(A & _ & B & _)|(A & _ & B)] & _); rewrite B; split; intros; auto; congruence.
Qed.
(** Isolated fragments with otherwise default settings. *)
Definition w_iso : dict := [("isolated"%string, VB true)].
Theorem w_iso_runs : forall Za Zb nua nub, (nua = 1 <-> nub = 1) -> exists p o n l s, partition_init g22 Za Zb 2 w_spec nua nub w_iso = Ok p /\ po_iso (p_opt p) = true /\ po_ab (p_opt p) = false /\
  partition_scf g22 w_env w_sched [] p = Ok s /\ passes g22 w_env w_sched [] p o (S n) l s /\ psc_test o s = Ok false /\ ps_target o = false.
Proof.
  intros Za Zb nua nub NU. assert (C : exists d, configure PartitionOptions w_iso = Ok d /\ exists k, configure KohnShamOptions (ks_dict d) = Ok k) by (eexists; (split; [reflexivity|]); eexists; reflexivity).
  destruct C as (d & C & k & C2). destruct (w_init Za Zb nua nub w_iso d k C C2) as (p & H); [injection C as <-; discriminate|injection C as <-; discriminate|exact NU|].
  pose proof (init_inv _ _ _ _ _ _ _ _ _ H) as (d' & C' & O & _). rewrite C in C'. injection C' as <-. assert (I : po_iso (p_opt p) = true /\ po_ab (p_opt p) = false /\ po_fam (p_opt p) = "lda"%string) by (rewrite O; injection C as <-; repeat split). destruct I as (I & AB & F).
  assert (NI : inverting p = false) by (unfold inverting; rewrite I, andb_false_r; reflexivity). destruct (w_run _ _ _ _ _ _ H F (or_introl I) NI) as (o & n & l & s & R1 & R2 & R3 & R4 & R5 & R6). exists p, o, n, l, s. auto 10.
Qed.

(** * Calculations with kinetic_part_type "inversion" *)
(** The inverter has lv solvers of one electron; least_squares always reports the optimality x. *)
Definition w_inv (lv : nat) : inverter := one_inv (one_opt "wuyang" false false 50) lv 1 (fun _ => 0) None None false.
Definition x_env (x : R) : penv := mkPE ex_env (mkIE (fun _ => Ok (one_eig 0, Some one_phi)) (fun _ _ _ => 0) (fun _ _ _ => ([fun _ => 1], fun _ => / 2, mkInfo 3 (Fin x))) (fun _ _ b => Ok b)) (fun _ _ s => (fun _ => 0, s)) (fun _ _ i => i).
Lemma w_env_x : w_env = x_env 0. Proof. reflexivity. Qed.
Lemma w_inv_ready : forall x lv, (1 <= lv)%nat -> inv_ready (pe_inv (x_env x)) (w_inv lv).
Proof.
  intros x lv L. do 3 (split; [reflexivity|]). split; [exact L|]. intros i s Hi (S1 & S2 & S3 & S4 & S5 & S6). cbn [w_inv one_inv i_sol one_solver s_m s_pol s_N s_frac] in *.
  split; [rewrite S3; lra|]. split; [left; assumption|]. exists 1%nat, (fun _ => 0), (fun _ _ => 1). split; [reflexivity|]. rewrite S1, S2, S3. unfold shell_size. simpl. lra.
Qed.
Lemma x_answers : forall x, lsq_answers (pe_inv (x_env x)). Proof. intros x iv spin x0. do 4 eexists. reflexivity. Qed.
Lemma x_answer : forall x inf, answer (pe_inv (x_env x)) inf -> optimality inf = Fin x. Proof. intros x inf (iv & sp & x0 & <-). reflexivity. Qed.
Lemma w_inversion : forall x lv Za Zb nua nub, (1 <= lv)%nat -> (nua = 1 <-> nub = 1) -> exists p, constructed g22 Za Zb 2 w_spec nua nub (w_opt "inversion" false false) p /\ p_inv p = Some (w_inv lv) /\ po_kin (p_opt p) = "inversion"%string /\ po_ab (p_opt p) = false /\ po_ess (p_opt p) = false /\ po_iso (p_opt p) = false /\
  po_int (p_opt p) = "dft"%string /\ po_hxc (p_opt p) = "exact"%string /\ po_vp (p_opt p) = "component"%string /\ po_sym (p_opt p) = false /\ po_fam (p_opt p) = "lda"%string /\ (p_ens p = false <-> nua = 1) /\ workable g22 (x_env x) p /\ inv_live lv (x_env x) p.
Proof.
  intros x lv Za Zb nua nub HL NU. assert (C : exists d, configure PartitionOptions (w_opt "inversion" false false) = Ok d /\ exists k, configure KohnShamOptions (ks_dict d) = Ok k) by (eexists; (split; [reflexivity|]); eexists; reflexivity).
  destruct C as (d & C & k & C2). destruct (w_init Za Zb nua nub _ d k C C2) as (p0 & H); [injection C as <-; discriminate|injection C as <-; discriminate|exact NU|].
  pose proof (init_inv _ _ _ _ _ _ _ _ _ H) as (d' & C' & O & _ & P & _ & _ & _ & _ & _ & _ & _ & _ & EN & _). rewrite C in C'. injection C' as <-. set (p := set_inv p0 (Some (w_inv lv))). exists p.
  assert (CO : constructed g22 Za Zb 2 w_spec nua nub (w_opt "inversion" false false) p) by (exists p0; split; auto; right; exists (w_inv lv); reflexivity).
  assert (Q : po_kin (p_opt p) = "inversion"%string /\ po_ab (p_opt p) = false /\ po_ess (p_opt p) = false /\ po_iso (p_opt p) = false /\ po_int (p_opt p) = "dft"%string /\ po_hxc (p_opt p) = "exact"%string /\ po_vp (p_opt p) = "component"%string /\ po_sym (p_opt p) = false /\ po_fam (p_opt p) = "lda"%string).
  { unfold p. cbn [set_inv p_opt]. rewrite O. injection C as <-. repeat (split; [reflexivity|]). reflexivity. }
  assert (PP : p_pol p = 2%nat) by exact P. assert (EN' : p_ens p = false <-> nua = 1) by (unfold p; cbn [set_inv p_ens]; destruct EN as [(A & _ & B & _)|(A & _ & B)]; rewrite B; split; intros; auto; congruence).
  assert (PI : p_inv p = Some (w_inv lv)) by reflexivity. assert (LV : inv_live lv (x_env x) p) by (intros _; exists (w_inv lv); split; [reflexivity|split; [apply w_inv_ready; exact HL|reflexivity]]). clearbody p.
  destruct Q as (Q1 & Q2 & Q3 & Q4 & Q5 & Q6 & Q7 & Q8 & Q9). repeat (split; [assumption|]). split; [|exact LV].
  right. split; auto. split; [right; left; split; auto; split; auto; split; auto; apply x_answers|]. right. split; auto. split; auto. split.
  - intros n. rewrite PP, Q9. do 3 eexists. repeat (split; [reflexivity|]). reflexivity.
  - intros n. eexists. reflexivity.
Qed.
Theorem w_inversion_runs : forall Za Zb nua nub, (nua = 1 <-> nub = 1) -> exists p o n l s, constructed g22 Za Zb 2 w_spec nua nub (w_opt "inversion" false false) p /\ po_kin (p_opt p) = "inversion"%string /\ po_ab (p_opt p) = false /\ po_ess (p_opt p) = false /\ po_iso (p_opt p) = false /\
  po_int (p_opt p) = "dft"%string /\ po_hxc (p_opt p) = "exact"%string /\ po_vp (p_opt p) = "component"%string /\ po_sym (p_opt p) = false /\ (p_ens p = false <-> nua = 1) /\
  partition_scf g22 w_env w_sched [] p = Ok s /\ passes g22 w_env w_sched [] p o (S n) l s /\ psc_test o s = Ok false /\ ps_target o = false /\ ps_alpha o = [82 / 100].
Proof.
  intros Za Zb nua nub NU. destruct (w_inversion 0 1 Za Zb nua nub (le_n _) NU) as (p & CO & _ & Q1 & Q2 & Q3 & Q4 & Q5 & Q6 & Q7 & Q8 & Q9 & EN & W & LV). rewrite <- w_env_x in W, LV.
  assert (CV : inverting p = true -> lsq_converges (pe_inv w_env)). { intros _ inf A. rewrite w_env_x in A. rewrite (x_answer _ _ A). cbn [gtb]. destruct (Rlt_dec 1 0); [lra|reflexivity]. }
  destruct (w_run_c _ _ _ _ _ _ _ CO Q9 W LV CV) as (o & n & l & s & R1 & R2 & R3 & R4 & R5 & R6). exists p, o, n, l, s. repeat (split; [assumption|]). assumption.
Qed.
(** The first pass of such a calculation, whatever least_squares reports. *)
Theorem w_inversion_pass : forall x lv Za Zb nua nub, (1 <= lv)%nat -> (nua = 1 <-> nub = 1) -> exists p o s p' r, constructed g22 Za Zb 2 w_spec nua nub (w_opt "inversion" false false) p /\ po_kin (p_opt p) = "inversion"%string /\ po_iso (p_opt p) = false /\
  passes g22 (x_env x) w_sched [] p o 0 [] s /\ psc_test o s = Ok true /\ psc_work g22 (x_env x) o (w_sched (q_iter s)) s = Ok (p', r) /\ filled p' /\ reports p' = repeat (Fin x) lv.
Proof.
  intros x lv Za Zb nua nub HL NU. destruct (w_inversion x lv Za Zb nua nub HL NU) as (p & CO & _ & Q1 & Q2 & Q3 & Q4 & Q5 & Q6 & Q7 & Q8 & Q9 & EN & W & LV).
  assert (O : exists o, psc_options p [] = Ok o /\ ps_target o = false /\ ps_cont o = false /\ ps_alpha o = [82 / 100] /\ ps_maxit o = 50%Z /\ ps_tol o = / 10 ^ 7).
  { unfold psc_options, configure_partition_scf. eexists. split; [reflexivity|]. repeat split. }
  destruct O as (o & O & T & C & AL & M & TO). pose proof (constructed_static _ _ _ _ _ _ _ _ _ CO) as (P & _).
  assert (V : some (p_V p "vext"%string)). { destruct (constructed_inv _ _ _ _ _ _ _ _ _ CO) as (p0 & i & H0 & ->). pose proof (init_inv _ _ _ _ _ _ _ _ _ H0) as (d & _ & _ & _ & _ & _ & _ & _ & _ & _ & _ & _ & V & _ & _). cbn [set_inv p_V]. rewrite V. eexists. reflexivity. }
  destruct (start_total 0 g22 ex_env o w_sched 1%nat p) as (p0 & E & ST & I0); auto; [rewrite g22_n; lia|rewrite AL; auto|eapply w_equipped_c; eauto|]. pose proof ST as (_ & (nf & NF)).
  destruct (start_stat _ _ _ _ _ _ E) as (p1 & E1 & (A1 & A2 & _ & _ & _ & _ & _ & _ & _ & A10 & _)). apply setup_inv in E1. destruct E1 as (W1 & _). rewrite W1 in A1, A2, A10. cbn [with_f p_opt p_pol p_V] in A1, A2, A10.
  set (s := mkPst p0 (Fin 10) 0 nf 1%Z 0 (Fin 10) 0%Z []). exists p, o, s.
  destruct (pass_total lv g22 (x_env x) o w_sched 1%nat s) as (p' & r & E2 & _ & _ & D); cbn [s q_p].
  { rewrite g22_n. lia. } { exact T. } { rewrite A2. lia. } { unfold workable, kin_available, int_available. rewrite A1, A2. exact W. } { rewrite A1, A10. auto. } { exact ST. } { unfold inv_live, inverting. rewrite A1, I0. exact LV. }
  exists p', r. split; auto. split; auto. split; auto. split; [econstructor; eauto|]. split.
  { unfold psc_test. cbn [s q_dif q_iter gtb]. rewrite TO, M. destruct (Rlt_dec (/ 10 ^ 7) 10) as [_|N]; [reflexivity|]. exfalso. apply N. assert (1 <= 10 ^ 7) by (apply pow_R1_Rle; lra). assert (/ 10 ^ 7 <= / 1) by (apply Rinv_le_contravar; lra). lra. }
  split; [exact E2|]. assert (IV : inverting p' = true). { pose proof (pass_static _ _ _ _ _ _ _ E2) as (B1 & _). unfold inverting. rewrite B1. cbn [s q_p]. rewrite A1, Q1, Q4. reflexivity. }
  destruct (D IV) as (iv & oo & inf & PI & (RD & LVL) & SO & PF & HO & AN).
  rewrite LVL in PF. unfold filled, reports. rewrite PF. split.
  - intros i j Hi Hj. replace j with 0%nat by lia. rewrite HO. discriminate.
  - clear - HO AN. change (seq 0 1) with [0%nat]. cbn [flat_map]. assert (Q : forall k n, flat_map (fun i => (match oo i 0%nat with Some x => [optimality x] | None => [] end ++ [])%list) (seq k n) = repeat (Fin x) n).
    { intros k n. revert k. induction n as [|n IH]; intros k; [reflexivity|]. cbn [seq flat_map repeat]. rewrite HO, (x_answer _ _ AN). cbn [app]. f_equal. apply IH. }
    apply Q.
Qed.
