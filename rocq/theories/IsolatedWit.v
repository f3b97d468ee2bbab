(** A complete run with isolated fragments and no electron-electron interaction on the 2 x 2 grid. *)
From Coq Require Import Reals List Arith Lia Lra ZArith Bool String FunctionalExtensionality.
From Verif Require Import Base BaseLemmas GridModel GridSpec GridProofs GridWitness GridMore HartreeModel SolverModel SolverSpec SolverProofs SolverThms SolverWitness SolverCases LibxcModel OptionsModel OptionsProofs KSModel KSSpec KSProofs KSThms KSLoop KSEnergy KSTotal KSWit
  InverterModel PartitionModel PartitionSpec PartitionBase PartitionConstr PartitionDens PartitionFrame PartitionEnergy PartitionLoop PartitionStep PartitionKeep PartitionPass PartitionScf PartitionRun PartitionModes PartitionNew PartitionGood PartitionWit PartitionWit2 PartitionMain PartitionFinal PartitionFinal PartitionCount SelfConsistent NonInteracting Isolated.
Import ListNotations.
Local Open Scope R_scope.
Local Opaque sinh cosh.

Definition w_ni : dict := [("isolated"%string, VB true); ("interaction_type"%string, VS "ni")].
Lemma w_ni_init : exists p, partition_init g22 1 1 2 w_spec 1 1 w_ni = Ok p /\ po_iso (p_opt p) = true /\ po_ab (p_opt p) = false /\ po_ess (p_opt p) = false /\ po_fam (p_opt p) = "lda"%string /\ po_sym (p_opt p) = false /\ po_int (p_opt p) = "ni"%string.
Proof.
  assert (C : exists d, configure PartitionOptions w_ni = Ok d /\ exists k, configure KohnShamOptions (ks_dict d) = Ok k) by (eexists; (split; [reflexivity|]); eexists; reflexivity).
  destruct C as (d & C & k & C2). destruct (w_init 1 1 1 1 w_ni d k C C2) as (p & H); [injection C as <-; discriminate|injection C as <-; discriminate|tauto|].
  exists p. split; auto. pose proof (init_inv _ _ _ _ _ _ _ _ _ H) as (d' & C' & O & _). rewrite C in C'. injection C' as <-. rewrite O. injection C as <-. repeat split.
Qed.
Lemma w_ni_object : forall p c, partition_init g22 1 1 2 w_spec 1 1 w_ni = Ok p -> po_sym (p_opt p) = false -> po_int (p_opt p) = "ni"%string -> po_ess (p_opt p) = false -> member (p_ens p) c -> exists f, p_f p c = Some f /\ f_scale f = 1 /\ ni_object (f_ks f).
Proof.
  intros p c H SY NI ES Hc. pose proof H as H0. apply init_inv in H. destruct H as (d & _ & _ & _ & _ & _ & _ & _ & _ & _ & _ & _ & _ & EN & H). destruct EN as [(_ & _ & EN & _)|(Z & _)]; [|lra].
  destruct (H c Hc) as (f & FI & F). eexists. split; [exact F|]. split; [cbn [fscale f_scale]; rewrite EN, ES; unfold weight; try lra; destruct c; lra|].
  destruct (w_place _ _ _ _ _ _ c _ H0 SY Hc F) as ((L & _ & _ & W) & _). apply frag_init_inv in FI. destruct FI as (k & -> & A1 & A2 & A3 & A4 & A5 & _ & _ & A8 & _ & _ & _ & A12 & A13 & _). cbn [fscale new_frag f_ks] in *.
  split; [rewrite A1, A2; destruct c; ring|]. split; auto. split; auto. split; auto. split; [congruence|]. split; [congruence|]. split; auto.
Qed.
Lemma w_ni_energy : forall k a i n e, ni_object k -> iterate g22 ex_env k (fun _ _ => 0) a (S i) n e -> e = Fin (-2).
Proof.
  intros k a i n e K H. destruct (ni_run_of k K) as (st & o & k0 & n0 & R1 & R2 & R3 & R4 & R5 & R6 & R7 & R8 & R9 & R10 & R11 & R12 & R13 & R14 & R15).
  destruct (ni_two_passes _ _ _ _ _ _ _ _ _ (-2) R1 R2 R3 R4 R5 R6 R7 R8 R9 ltac:(rewrite g22_n; lia) R10 R11 R12 (eq_sym R13) ltac:(lra) R14 R15) as (I & _ & E).
  destruct (scf_inv _ _ _ _ _ _ R1) as (o' & O' & T & _). rewrite R2 in O'. injection O' as <-. destruct (ks_iterates _ _ _ _ _ _ R5 R6 T) as (m & _ & _ & IT). rewrite I, E in IT. change (Z.to_nat (3 - 1)) with 2%nat in IT.
  assert (V : outer k = fun _ _ => 0) by (unfold outer; destruct K as (_ & _ & _ & _ & _ & _ & -> & _); reflexivity). rewrite V in IT. exact (ni_iterate_energy _ _ _ _ _ _ _ _ _ _ _ _ R3 R4 H IT).
Qed.
Theorem w_ni_run : exists p o n l s, partition_init g22 1 1 2 w_spec 1 1 w_ni = Ok p /\ partition_scf g22 w_env w_sched [] p = Ok s /\ psc_options p [] = Ok o /\ passes g22 w_env w_sched [] p o (S n) l s /\
  steady g22 (pe_env w_env) /\ po_iso (p_opt p) = true /\ ps_cont o = false /\ ps_target o = false /\ p_pol p = 2%nat /\ (forall c, member (p_ens p) c -> computed p c /\ exists f, p_f p c = Some f /\ ni_object (f_ks f)) /\
  (forall c, member (p_ens p) c -> step_size (ps_alpha o) c = Some (82 / 100)) /\ q_oldE s = - (7 / 2) /\ q_dif s = Fin 0 /\ 0 <= ps_tol o < 10 /\
  (forall nf j, p_nf (q_p s) = Some nf -> (j < 2)%nat -> 0 < amount g22 nf j).
Proof.
  destruct w_ni_init as (p & H & IS & AB & ES & FA & SY & NI). assert (NV : inverting p = false) by (unfold inverting; rewrite IS, andb_false_r; reflexivity).
  destruct (w_run _ _ _ _ _ _ H FA (or_introl IS) NV) as (o & n & l & s & R1 & R2 & R3 & R4 & R5 & R6). exists p, o, n, l, s.
  assert (OO : ps_cont o = false /\ ps_maxit o = 50%Z /\ ps_tol o = / 10 ^ 7 /\ ps_auto o = false). { pose proof R2 as Q. unfold psc_options, configure_partition_scf in Q. injection Q as <-. repeat split. }
  destruct OO as (CO & MI & TO & AU). assert (TT : 0 <= ps_tol o < 1). { rewrite TO. replace (/ 10 ^ 7) with (1 / 10000000) by field. lra. }
  assert (ST : steady g22 (pe_env w_env)) by (intros it it' s1 s2 _ _; reflexivity).
  pose proof (init_inv _ _ _ _ _ _ _ _ _ H) as (d & _ & _ & _ & PP & ZA & ZB & _ & _ & _ & _ & _ & _ & EN & _). destruct EN as [(_ & _ & EN & _)|(Z & _)]; [|lra].
  assert (OB : forall c, member (p_ens p) c -> exists f, p_f p c = Some f /\ f_scale f = 1 /\ ni_object (f_ks f)) by (intros; eapply w_ni_object; eauto).
  assert (CM : forall c, member (p_ens p) c -> computed p c) by (intros c Hc; split; auto; congruence).
  assert (AL : forall c, member (p_ens p) c -> step_size (ps_alpha o) c = Some (82 / 100)) by (intros; rewrite R6; reflexivity).
  assert (EE : forall m l' t, passes g22 w_env w_sched [] p o (S m) l' t -> q_oldE t = - (7 / 2)).
  { intros m l' t P. destruct (run_bookkeeping _ _ _ _ _ _ _ _ _ P) as (Ef & Ep & E & B1 & B2 & B3 & B4 & B5 & B6). destruct (run_sums _ _ _ _ _ _ _ _ _ P) as (F & e & (FR & FE) & S).
    destruct S as (_ & _ & S3 & _). rewrite B1 in S3. injection S3 as S3. rewrite (B6 IS), ZA, ZB in B4. rewrite B5, B4, S3, EN, AB, ES. unfold share. cbn [lsum].
    pose proof (run_static _ _ _ _ _ _ _ _ _ P) as (_ & _ & _ & _ & _ & _ & RE & _ & _ & _ & RF).
    assert (Q : forall c, member (p_ens p) c -> f_scale (F c) * to_R (E_E (e c)) = -2).
    { intros c Hc. destruct (OB c Hc) as (f0 & F0 & SC & K). destruct (part_iterates _ _ _ _ _ _ _ _ _ P IS CO c f0 _ (CM c Hc) F0 (AL c Hc)) as (f & mm & ee & A1 & _ & _ & A4 & A5).
      destruct (A5 ltac:(lia)) as (Ek & X1 & X2). pose proof (w_ni_energy _ _ _ _ _ K A4) as Y. assert (Hc' : member (p_ens (q_p t)) c) by (rewrite RE; exact Hc).
      rewrite (FR c Hc') in A1. injection A1 as <-. rewrite (FE c Hc') in X1. injection X1 as <-. rewrite X2, Y. cbn [to_R].
      destruct (RF c Hc) as (g0 & g1 & G1 & G2 & _ & G4 & _). rewrite F0 in G1. injection G1 as <-. rewrite (FR c Hc') in G2. injection G2 as <-. rewrite G4, SC. ring. }
    rewrite !Q by (rewrite EN; exact Logic.I). change (ga g22) with 1. lra. }
  assert (NN : forall m l' t m' l2 t', passes g22 w_env w_sched [] p o m l' t -> passes g22 w_env w_sched [] p o m' l2 t' -> exists nf nf', p_nf (q_p t) = Some nf /\ p_nf (q_p t') = Some nf' /\ q_oldn t = nf /\ forall x j, nf x j = nf' x j).
  { intros m l' t m' l2 t' P P'. destruct (run_settled _ _ _ _ _ _ _ _ _ P R5) as (F & nc & na & nb & nf & q & ((D1 & D2) & PM & _) & ON). destruct (run_settled _ _ _ _ _ _ _ _ _ P' R5) as (F' & nc' & na' & nb' & nf' & q' & ((D1' & D2') & PM' & _) & _).
    pose proof (run_static _ _ _ _ _ _ _ _ _ P) as (Q1 & Q2 & _ & _ & _ & _ & Q7 & _ & _ & _ & QF). pose proof (run_static _ _ _ _ _ _ _ _ _ P') as (Q1' & Q2' & _ & _ & _ & _ & Q7' & _ & _ & _ & QF').
    exists nf, nf'. split; [apply PM|]. split; [apply PM'|]. split; auto. intros x j. rewrite (whole_group _ _ _ _ _ _ PM x j), (whole_group _ _ _ _ _ _ PM' x j). unfold group. rewrite Q1, Q1', Q7, Q7', EN, ES. cbn [lsum].
    assert (Q : forall c, member (p_ens p) c -> f_scale (F c) = f_scale (F' c) /\ nc c = nc' c).
    { intros c Hc. assert (Hc1 : member (p_ens (q_p t)) c) by (rewrite Q7; exact Hc). assert (Hc2 : member (p_ens (q_p t')) c) by (rewrite Q7'; exact Hc).
      destruct (OB c Hc) as (f0 & F0 & SC & K). destruct (ni_isolated _ _ _ _ _ _ _ _ _ _ _ _ _ _ _ ST P P' IS CO (CM c Hc) F0 ltac:(apply K) (AL c Hc)) as (f & f' & mm & A1 & A2 & A3 & A4 & _).
      rewrite (D1 c Hc1) in A1. injection A1 as <-. rewrite (D1' c Hc2) in A2. injection A2 as <-. rewrite (D2 c Hc1) in A3. injection A3 as A3. rewrite (D2' c Hc2) in A4. injection A4 as A4. split; [|congruence].
      destruct (QF c Hc) as (g0 & g1 & G1 & G2 & _ & G4 & _). rewrite F0 in G1. injection G1 as <-. rewrite (D1 c Hc1) in G2. injection G2 as <-.
      destruct (QF' c Hc) as (g0' & g1' & G1' & G2' & _ & G4' & _). rewrite F0 in G1'. injection G1' as <-. rewrite (D1' c Hc2) in G2'. injection G2' as <-. congruence. }
    destruct (Q Ca ltac:(rewrite EN; exact Logic.I)) as (-> & ->). destruct (Q Cb ltac:(rewrite EN; exact Logic.I)) as (-> & ->). reflexivity. }
  assert (WO : worker_ok g22 (pe_env w_env)). { intros it k r Q. injection Q as <-. cbn [snd]. intros. apply g22_int_pos. intros. lra. }
  assert (OC : occupied p). { intros c f i j (Hc & _) F Hp. destruct (OB c Hc) as (f0 & F0 & _ & K). rewrite F in F0. injection F0 as <-. apply (ni_capable _ K). exact Hp. }
  assert (MS : mirror_safe g22 p). { intros [X|(c & f & Hc & F & X)]; [congruence|]. destruct (OB c (proj1 Hc)) as (f0 & F0 & _ & K). rewrite F in F0. injection F0 as <-. destruct K as (_ & _ & _ & _ & K & _). congruence. }
  pose proof (init_constructed _ _ _ _ _ _ _ _ _ H) as CT.
  assert (AM : forall nf j, p_nf (q_p s) = Some nf -> (j < 2)%nat -> 0 < amount g22 nf j).
  { intros nf j N Hj. destruct (new_run_count _ _ _ _ _ _ _ _ _ _ _ _ _ _ _ _ CT R3 R5 WO OC MS) as (nf1 & N1 & N2); [intros; simpl; lia|]. rewrite N in N1. injection N1 as <-.
    destruct (new_run_nonneg _ _ _ _ _ _ _ _ _ _ _ _ _ _ _ _ CT R3 R5 WO OC) as (F & m & na & nb & nf2 & q & (_ & PM & _) & NG); [rewrite R6; repeat constructor; lra|lra|lra|].
    assert (nf2 = nf) by (destruct PM as (_ & _ & X & _); congruence). subst nf2.
    unfold amount. rewrite (integrate1_ext g22 _ (fun x => nf x j)) by (intros x Hx; apply Rabs_pos_eq, NG, Hx). rewrite (N2 j Hj), EN, ES. unfold asked, weight. cbn [lsum w_spec fs_lv fs_N sumR]. lra. }
  split; auto. split; auto. split; auto. split; auto. split; auto. split; auto. split; auto. split; auto. split; auto. split. { intros c Hc. split; auto. destruct (OB c Hc) as (f & F & _ & K). exists f. auto. }
  split; auto. split; [apply (EE _ _ _ R3)|]. split; [|split; [lra|exact AM]].
  pose proof R3 as P. inversion P as [|m l0 s0 s1 P0 T B]; subst. destruct (body_residual _ _ _ _ _ _ B) as (E & nf & dn & _ & N1 & OE & ON & DR & DI).
  rewrite (EE _ _ _ R3) in OE. rewrite (proj1 (proj2 (run_static _ _ _ _ _ _ _ _ _ R3))), PP in DR. destruct (NN _ _ _ _ _ _ P0 R3) as (nf0 & nf1 & M1 & M2 & M3 & M4). rewrite N1 in M2. injection M2 as <-.
  destruct (dens_two g22 nf (q_oldn s0) ltac:(rewrite g22_n; lia)) as (dm & D1 & D2); [intros; apply AM; auto|]. rewrite D1 in DR. injection DR as <-.
  assert (D0 : dm <= 0). { apply D2. intros j Hj. unfold distance. rewrite (integrate1_ext g22 _ (fun _ => 0)); [rewrite integrate1_zero; lra|]. intros x _. rewrite M3, M4. rewrite Rminus_eq_0, Rabs_R0. reflexivity. }
  rewrite <- OE in DI. unfold ndiv in DI. destruct (Req_EM_T (- (7 / 2)) 0) as [Z|_]; [lra|]. destruct n as [|n].
  - exfalso. inversion P0 as [p0 nf2 O1 S1 N2|]; subst. cbn [q_oldE] in DI. unfold psc_test in R4. rewrite DI in R4. replace ((- (7 / 2) - 0) / - (7 / 2)) with 1 in R4 by field. cbn [nabs] in R4. rewrite Rabs_R1 in R4. unfold pymax in R4. cbn [gtb] in R4.
    destruct (Rlt_dec 1 dm); [lra|]. destruct (Rlt_dec (ps_tol o) 1); [|lra]. pose proof (passes_count _ _ _ _ _ _ _ _ _ R3) as (IT & _). rewrite IT, MI in R4. cbn in R4. destruct (Rlt_dec (ps_tol o) 1); [discriminate|lra].
  - rewrite (EE _ _ _ P0) in DI. rewrite DI, Rminus_eq_0. unfold Rdiv. rewrite Rmult_0_l. cbn [nabs]. rewrite Rabs_R0. unfold pymax. cbn [gtb]. destruct (Rlt_dec 0 dm); [lra|reflexivity].
Qed.

(** The first pass of isolated fragments with interaction, next to the first pass of Kohnsham.scf on the object of fragment A. *)
Lemma passes_first : forall g w sched d p o n l s, passes g w sched d p o n l s -> (0 < n)%nat -> exists l1 s1, passes g w sched d p o 1 l1 s1.
Proof. intros g w sched d p o n l s H. induction H as [|n l s s' H IH T B]; intros; [lia|]. destruct n; [|apply IH; lia]. eexists _, _. eapply pass_step; eauto. Qed.
Lemma trace_second : forall g w o sched k st, scf_trace g w o sched k st -> (2 <= c_iter st)%Z -> exists st2, scf_trace g w o sched k st2 /\ c_iter st2 = 2%Z.
Proof.
  intros g w o sched k st H. induction H as [k0 H|st st' H IH T B]; intros I; [cbn [c_iter] in I; lia|]. destruct (Z_le_gt_dec 2 (c_iter st)) as [Y|N]; [auto|].
  exists st'. split; [eapply trace_step; eauto|]. pose proof (trace_bound _ _ _ _ _ _ H). apply body_frame in B. lia.
Qed.
Theorem w_iso_pair : forall Zb, exists p o l s f0 d ko k st, partition_init g22 1 Zb 2 w_spec 1 1 w_iso = Ok p /\ steady g22 (pe_env w_env) /\ passes g22 w_env w_sched [] p o 1 l s /\ po_iso (p_opt p) = true /\ ps_cont o = false /\
  computed p Ca /\ p_f p Ca = Some f0 /\ o_int (k_opt (f_ks f0)) = "dft"%string /\ step_size (ps_alpha o) Ca = Some (82 / 100) /\
  scf_options d = Ok ko /\ k = f_ks f0 /\ scf_trace g22 (pe_env w_env) ko (fun _ => keys k) k st /\ frame (f_ks f0) k /\ k_vext k = None /\ so_cont ko = false /\ so_flip ko = false /\ so_alpha ko = 82 / 100 /\ c_iter st = (Z.of_nat 1 + 1)%Z.
Proof.
  intros Zb. assert (NU : 1 = 1 <-> 1 = 1) by tauto. destruct (w_iso_runs 1 Zb 1 1 NU) as (p & o & n & l & s & H & IS & AB & _ & P & _ & _).
  destruct (passes_first _ _ _ _ _ _ _ _ _ P) as (l1 & s1 & P1); [lia|].
  pose proof (init_inv _ _ _ _ _ _ _ _ _ H) as (d & CF & OP & _ & PP & _ & _ & _ & _ & _ & _ & _ & _ & _ & FR). assert (OO : po_fam (p_opt p) = "lda"%string /\ po_sym (p_opt p) = false /\ po_int (p_opt p) = "dft"%string) by (rewrite OP; injection CF as <-; repeat split). destruct OO as (FA & SY & IN).
  assert (MC : member (p_ens p) Ca) by (destruct (p_ens p); exact Logic.I). assert (HC : computed p Ca) by (split; auto; congruence).
  destruct (w_equipped _ _ _ _ _ _ H FA Ca MC) as (f0 & F0 & _ & RD). destruct (RD HC) as ((A1 & A2 & A3 & A4) & A5 & _). set (k := f_ks f0) in *.
  assert (KV : k_vext k = None). { destruct (FR Ca MC) as (f & FI & F). rewrite F0 in F. injection F as F. apply frag_init_inv in FI. destruct FI as (k' & -> & _ & _ & _ & _ & _ & _ & _ & V & _). unfold k. rewrite F. exact V. }
  set (dd := [("alpha"%string, VR (82 / 100))]). assert (KO : exists ko, scf_options dd = Ok ko /\ so_auto ko = false /\ so_cont ko = false /\ so_flip ko = false /\ so_alpha ko = 82 / 100 /\ so_tol ko = 10 * / 10 ^ 6 /\ so_maxiter ko = 100%Z) by (eexists; split; [reflexivity|repeat split]).
  destruct KO as (ko & K1 & K2 & K3 & K4 & K5 & K6 & K7).
  edestruct (scf_total g22 ex_env k) with (sched := fun _ : Z => keys k) (d := dd) as (st & E); try eassumption; try reflexivity; try (intros _; apply keys_schedule); try (rewrite ?g22_n; lia). { congruence. }
  destruct (scf_inv _ _ _ _ _ _ E) as (ko' & K1' & T & X). rewrite K1 in K1'. injection K1' as <-.
  assert (I2 : (2 <= c_iter st)%Z).
  { destruct T as [k0 S0|st0 st T TE B]; [|pose proof (trace_bound _ _ _ _ _ _ T); apply body_frame in B; lia]. exfalso. unfold scf_test in X. cbn [c_diff c_iter gtb] in X. rewrite K6, K7 in X. destruct (Rlt_dec (10 * / 10 ^ 6) 10) as [_|N]; [discriminate|].
    apply N. replace (10 * / 10 ^ 6) with (1 / 100000) by field. lra. }
  destruct (trace_second _ _ _ _ _ _ T I2) as (st2 & T2 & I3). pose proof (passes_start _ _ _ _ _ _ _ _ _ P1) as (O1 & _).
  assert (Q : ps_cont o = false /\ ps_alpha o = [82 / 100]) by (unfold psc_options, configure_partition_scf in O1; injection O1 as <-; repeat split). destruct Q as (Q1 & Q2).
  exists p, o, l1, s1, f0, dd, ko, k, st2. split; auto. split; [intros it it' s2 s3 _ _; reflexivity|]. split; auto. split; auto. split; auto. split; auto. split; auto. split; [unfold k in A5; congruence|]. split; [rewrite Q2; reflexivity|].
  split; auto. split; auto. split; auto. split; [apply frame_refl|]. repeat (split; auto).
Qed.
