(** A complete run of an interacting fragment next to an empty one on the grid g3p. *)
From Coq Require Import Reals List Arith Lia Lra ZArith Bool String FunctionalExtensionality.
From Verif Require Import Base BaseLemmas GridModel GridSpec GridProofs GridWitness GridMore FDProofs HartreeModel HartreeSpec HartreeProofs LinAlg HartreeThms SolverModel SolverSpec SolverProofs SolverThms LibxcModel LibxcSpec LibxcThms OptionsModel OptionsProofs KSModel KSSpec KSProofs KSThms KSLoop KSEnergy KSTotal KSWit
  InverterModel InverterTotal InverterWit PartitionModel PartitionSpec PartitionBase PartitionConstr PartitionDens PartitionFrame PartitionEnergy PartitionLoop PartitionStep PartitionKeep PartitionPass PartitionScf PartitionRun PartitionNew PartitionGood PartitionWit
  SelfConsistent NonInteracting Isolated IsolatedWit Transport MirrorRun MirrorPart MirrorWit EmbedPot EmbedEnergy MirrorEmbed EmbedWit EmptyFrag.
Import ListNotations.
Local Open Scope R_scope.
Local Opaque sinh cosh.

(** One orbital, which depends on the potential at the grid points. *)
Definition z_env (spL spU : vec -> vec) : env := mkEnv (fun _ s => Some ((1%nat, fun _ => -1), Some (1%nat, fun _ x => 1 + (if (x <? Nelem g3p)%nat then s_veff s x ^ 2 else 0)))) (fun _ pol => lib_ex 0%nat pol) spL spU.
Definition z_penv (spL spU : vec -> vec) : penv := mkPE (z_env spL spU) (one_env 0) (fun _ _ s => (fun _ => 0, s)) (fun _ _ i => i).
Lemma z_steady : forall spL spU, steady g3p (z_env spL spU).
Proof.
  intros spL spU it it' s s' _ V. unfold z_env. cbn [e_worker]. do 4 f_equal. apply functional_extensionality. intros _. apply functional_extensionality. intros x. f_equal. destruct (Nat.ltb_spec x (Nelem g3p)) as [L|L]; [rewrite V by exact L; reflexivity|reflexivity].
Qed.
(** Fragment A has one electron per spin, fragment B none. *)
Definition z_spec : comp -> fspec := fun c => mkFS 1 2 (fun _ _ => 1%nat) 1 2 (fun _ _ => match c with Ca => 1 | _ => 0 end).
Lemma z_xc : forall spL spU id n, exists x, get_xc g3p (e_lib (z_env spL spU)) "lda" id 2 n = Ok x.
Proof. exact m_xc. Qed.
Lemma z_hartree : forall spL spU n, exists v, v_hartree g3p (e_spL (z_env spL spU)) (e_spU (z_env spL spU)) (A2 2 n) = Ok v.
Proof. exact m_hartree. Qed.
Lemma z_part : forall spL spU Za Zb spec kin ess ct nua nub, kin = "none"%string \/ kin = "libxcke"%string -> ct = "pdft"%string \/ ct = "sdft"%string -> (nua = 1 <-> nub = 1) -> (forall c, exists N, spec c = mkFS 1 2 (fun _ _ => 1%nat) 1 2 N /\ forall j, 0 <= N 0%nat j <= 1) ->
  exists p o n l s, partition_init g3p Za Zb 2 spec nua nub (w_opt kin false ess) = Ok p /\ po_kin (p_opt p) = kin /\ po_ess (p_opt p) = ess /\ po_hxc (p_opt p) = "exact"%string /\ po_iso (p_opt p) = false /\ po_ab (p_opt p) = false /\ po_sym (p_opt p) = false /\ po_int (p_opt p) = "dft"%string /\ p_pol p = 2%nat /\
  (p_ens p = false <-> nua = 1) /\ partition_scf g3p (z_penv spL spU) w_sched (e_dict ct) p = Ok s /\ passes g3p (z_penv spL spU) w_sched (e_dict ct) p o (S n) l s /\ ps_cont o = false /\ ps_target o = false /\ ps_sdft o = String.eqb ct "sdft" /\ ps_fa o = false /\ ps_fb o = false /\ ps_alpha o = [82 / 100].
Proof.
  intros spL spU Za Zb spec kin ess ct nua nub K CT NU SP. assert (C : exists d, configure PartitionOptions (w_opt kin false ess) = Ok d /\ exists k, configure KohnShamOptions (ks_dict d) = Ok k) by (destruct K as [-> | ->]; eexists; (split; [reflexivity|]); eexists; reflexivity). destruct C as (d & C & k & C2).
  destruct (init_exists g3p 2 spec Za Zb nua nub (w_opt kin false ess) d k) as (p & H); auto; try lia; try tauto; try (destruct K as [-> | ->]; injection C as <-; discriminate).
  { intros c. destruct (SP c) as (N & -> & HN). exists 1%nat, 2%nat. repeat (split; [reflexivity|]). intros i j Hi _. cbn [fs_N]. replace i with 0%nat by lia. pose proof (HN j). lra. }
  pose proof (init_inv _ _ _ _ _ _ _ _ _ H) as (d' & C' & O & _ & PP & _ & _ & _ & _ & _ & _ & _ & VX & EN & FR). rewrite C in C'. injection C' as <-.
  assert (Q : po_kin (p_opt p) = kin /\ po_ab (p_opt p) = false /\ po_ess (p_opt p) = ess /\ po_iso (p_opt p) = false /\ po_int (p_opt p) = "dft"%string /\ po_hxc (p_opt p) = "exact"%string /\ po_vp (p_opt p) = "component"%string /\ po_sym (p_opt p) = false /\ po_fam (p_opt p) = "lda"%string /\ po_kfam (p_opt p) = "lda"%string).
  { rewrite O. destruct K as [-> | ->]; injection C as <-; repeat (split; [reflexivity|]); reflexivity. }
  destruct Q as (Q1 & AB & ES & IS & IN & HX & VC & SY & LDA & KL).
  assert (NV : inverting p = false) by (unfold inverting; rewrite Q1; destruct K as [-> | ->]; reflexivity).
  assert (Q : exists o, psc_options p (e_dict ct) = Ok o /\ ps_target o = false /\ ps_cont o = false /\ ps_auto o = false /\ ps_alpha o = [82 / 100] /\ ps_maxit o = 50%Z /\ ps_tol o = / 10 ^ 7 /\ ps_sdft o = String.eqb ct "sdft" /\ ps_fa o = false /\ ps_fb o = false) by (unfold psc_options, configure_partition_scf; destruct CT as [-> | ->]; eexists; (split; [reflexivity|repeat split])).
  destruct Q as (o & Q & T & CO & A & AL & M & TO & SD & FA & FB).
  assert (WK : workable g3p (z_penv spL spU) p).
  { right. split; [exact VC|]. split.
    - rewrite <- Q1 in K. destruct K as [K|K]; [left; exact K|right; right]. split; [exact K|]. intros n. rewrite PP, KL. apply (z_xc spL spU).
    - right. split; [exact IN|]. split; [left; exact HX|]. split.
      + intros n. rewrite PP, LDA. cbn [z_penv pe_env]. destruct (z_xc spL spU (po_xid (p_opt p)) n) as (x & ->). destruct (z_xc spL spU (po_cid (p_opt p)) n) as (c & ->). destruct (z_hartree spL spU n) as (v & V). exists x, c, v. auto.
      + intros n. eexists. reflexivity. }
  destruct (scf_works 0 g3p (z_penv spL spU) w_sched (e_dict ct) p o 1%nat) as (s & E); auto.
  - exact g3p_pos.
  - rewrite AL. left. reflexivity.
  - lia.
  - rewrite VX. eexists. reflexivity.
  - intros c Hc. destruct (FR c Hc) as (f & FI & F). eexists. split; [exact F|]. split; auto. intros _. destruct (SP c) as (N & SC & HN). rewrite SC in FI.
    pose proof FI as FI0. apply frag_init_inv in FI. destruct FI as (k1 & -> & _ & _ & P & L & CC & _ & _ & _ & _ & _ & _ & I & _ & _ & _ & _ & FM & S). cbn [fs_lv fs_cols fs_N fs_Nmo] in *. cbn [fscale new_frag f_ks].
    assert (SP1 : forall i j, place k1 i j -> s_m (k_sol k1 i j) = 0%Z /\ s_pol (k_sol k1 i j) = 2%nat /\ s_N (k_sol k1 i j) = N 0%nat j).
    { intros i j Hp. unfold frag_init in FI0. destruct (ks_init _ _ _ _ _ _ _ _ _ _ _) as [k'|] eqn:E; [|discriminate]. cbn [bind] in FI0. injection FI0 as <-. apply init_spec in E.
      destruct E as (o1 & _ & _ & _ & _ & _ & _ & _ & _ & _ & _ & _ & _ & _ & _ & _ & _ & _ & _ & _ & _ & W). destruct (W i j Hp) as (_ & S1 & S2 & S3 & _ & S4 & _). destruct Hp as (Hi & _). rewrite L in Hi. replace i with 0%nat in * by lia. split; [rewrite S1; reflexivity|]. split; [exact S2|exact S3]. }
    split; [split; [|split; [|split; lia]]|split; [exact I|split]].
    + intros it i j s (Hi & Hj) (S1 & S2 & S3 & S4). destruct (SP1 i j (conj Hi Hj)) as (MM & PJ & NJ). rewrite S3, NJ. split; [apply HN|]. eexists 1%nat, _, _. split; [reflexivity|]. rewrite S1, S2, MM, PJ. unfold shell_size. simpl. pose proof (HN j). lra.
    + right. intros n. rewrite P, FM, LDA. cbn [z_penv pe_env]. destruct (z_xc spL spU (o_xid (k_opt k1)) n) as (x & ->). destruct (z_xc spL spU (o_cid (k_opt k1)) n) as (c0 & ->). destruct (z_hartree spL spU n) as (v & V). exists x, c0, v. auto.
    + unfold want. rewrite NV. exact Logic.I.
    + intros it. split; [repeat constructor; simpl; intuition congruence|]. intros i j. unfold place. rewrite L, CC. simpl. split.
      * intros [X|[X|[]]]; injection X as <- <-; lia.
      * intros (Hi & Hj). assert (i = 0%nat) by lia. assert (J : (j = 0 \/ j = 1)%nat) by lia. subst i. destruct J; subst; auto.
  - intros X. congruence.
  - intros X. congruence.
  - destruct (pscf_trace _ _ _ _ _ _ E) as (o' & n & l & X & Y). pose proof (passes_start _ _ _ _ _ _ _ _ _ X) as (O' & _). rewrite Q in O'. injection O' as <-.
    exists p, o, (pred n), l, s. repeat (split; [assumption|]). split; [destruct EN as [(E1 & _ & E2 & _)|(E1 & _ & E2)]; rewrite E2; split; intros; congruence|]. split; [exact E|]. split; [|auto 10]. destruct n as [|n]; [|exact X]. exfalso. inversion X as [p0 nf O1 S1 N1|]; subst. unfold psc_test in Y. cbn [q_dif q_iter gtb] in Y. rewrite TO, M in Y. cbn in Y.
    destruct (Rlt_dec _ _) as [_|NL] in Y; [discriminate|]. apply NL. replace (/ 10 ^ 7) with (1 / 10000000) by field. lra.
Qed.
Lemma z_range : forall c, exists N, z_spec c = mkFS 1 2 (fun _ _ => 1%nat) 1 2 N /\ forall j, 0 <= N 0%nat j <= 1.
Proof. intros c. eexists. split; [reflexivity|]. intros j. destruct c; lra. Qed.
Lemma z_lone : forall spL spU Za kin ct, kin = "none"%string \/ kin = "libxcke"%string -> ct = "pdft"%string \/ ct = "sdft"%string ->
  exists p o n l s, lone g3p Za 2 z_spec (w_opt kin false false) p /\ po_kin (p_opt p) = kin /\ po_hxc (p_opt p) = "exact"%string /\ po_int (p_opt p) = "dft"%string /\ partition_scf g3p (z_penv spL spU) w_sched (e_dict ct) p = Ok s /\
  passes g3p (z_penv spL spU) w_sched (e_dict ct) p o (S n) l s /\ ps_cont o = false /\ ps_target o = false /\ ps_sdft o = String.eqb ct "sdft" /\ ps_alpha o = [82 / 100].
Proof.
  intros spL spU Za kin ct K CT. destruct (z_part spL spU Za 0 z_spec kin false ct 1 1 K CT ltac:(tauto) z_range) as (p & o & n & l & s & A1 & A2 & A3 & A4 & A5 & A6 & A7 & A8 & A9 & A10 & A11 & A12 & A13 & A14 & A15 & A16 & A17 & A18).
  exists p, o, n, l, s. split; [|repeat (split; [assumption|]); assumption]. split; [exact A1|]. split; [lia|]. split; [intros i j _ _; reflexivity|]. split; [exact A7|]. split; [eapply e_explicit; eauto|]. auto.
Qed.
(** The last pass of a complete run. *)
Theorem lone_case : forall Za kin ct, kin = "none"%string \/ kin = "libxcke"%string -> ct = "pdft"%string \/ ct = "sdft"%string ->
  exists w p o n l s0 s, lone g3p Za 2 z_spec (w_opt kin false false) p /\ po_kin (p_opt p) = kin /\ po_hxc (p_opt p) = "exact"%string /\ po_int (p_opt p) = "dft"%string /\ partition_scf g3p w w_sched (e_dict ct) p = Ok s /\
  passes g3p w w_sched (e_dict ct) p o n l s0 /\ psc_test o s0 = Ok true /\ psc_body g3p w o (w_sched (q_iter s0)) s0 = Ok s /\ ps_cont o = false /\ ps_target o = false /\ ps_sdft o = String.eqb ct "sdft".
Proof.
  intros Za kin ct K CT. destruct (z_lone (fun v => v) (fun v => v) Za kin ct K CT) as (p & o & n & l & s & A1 & A2 & A3 & A4 & A5 & A6 & A7 & A8 & A9 & _). pose proof A6 as X. apply passes_S in X. destruct X as (l0 & s0 & X1 & X0 & X2 & _).
  exists (z_penv (fun v => v) (fun v => v)), p, o, n, l0, s0, s. repeat (split; [assumption|]). assumption.
Qed.
(** The first pass, next to the first pass of Kohnsham.scf on the object of fragment A. *)
Theorem lone_pair : forall Za kin ct, kin = "none"%string \/ kin = "libxcke"%string -> ct = "pdft"%string \/ ct = "sdft"%string ->
  exists w p o l s f0 dk ko k st, steady g3p (pe_env w) /\ lone g3p Za 2 z_spec (w_opt kin false false) p /\ passes g3p w w_sched (e_dict ct) p o 1 l s /\ ps_cont o = false /\ ps_target o = false /\ p_f p Ca = Some f0 /\ step_size (ps_alpha o) Ca = Some (82 / 100) /\
  scf_options dk = Ok ko /\ k = f_ks f0 /\ scf_trace g3p (pe_env w) ko (fun _ => keys k) k st /\ frame (f_ks f0) k /\ k_vext k = None /\ so_cont ko = false /\ so_flip ko = false /\ so_alpha ko = 82 / 100 /\ c_iter st = (Z.of_nat 1 + 1)%Z.
Proof.
  intros Za kin ct K CT. destruct (z_lone (fun v => v) (fun v => v) Za kin ct K CT) as (p & o & n & l & s & A1 & A2 & A3 & A4 & A5 & A6 & A7 & A8 & A9 & A10). destruct (passes_first _ _ _ _ _ _ _ _ _ A6) as (l1 & s1 & P1); [lia|].
  pose proof (lone_ens _ _ _ _ _ _ A1) as EN. pose proof A1 as (H & _). pose proof (init_inv _ _ _ _ _ _ _ _ _ H) as (d & CF & OP & _ & PP & _ & _ & _ & _ & _ & _ & _ & _ & _ & FR).
  assert (LDA : po_fam (p_opt p) = "lda"%string) by (rewrite OP; destruct K as [-> | ->]; injection CF as <-; reflexivity). destruct (FR Ca) as (f & FI & F); [rewrite EN; exact Logic.I|].
  pose proof FI as FI0. apply frag_init_inv in FI. destruct FI as (k & -> & _ & _ & P & L & CC & _ & _ & KV & _ & _ & _ & I & _ & _ & _ & _ & FM & S). cbn [fs_lv fs_cols fs_N fs_Nmo z_spec] in *. set (f0 := fscale (new_frag k) (weight (p_ens p) (po_ess (p_opt p)) 1 1 Ca)) in *.
  assert (SP1 : forall i j, place k i j -> s_m (k_sol k i j) = 0%Z /\ s_pol (k_sol k i j) = 2%nat /\ s_N (k_sol k i j) = 1).
  { intros i j Hp. unfold frag_init in FI0. destruct (ks_init _ _ _ _ _ _ _ _ _ _ _) as [k'|] eqn:E; [|discriminate]. cbn [bind] in FI0. injection FI0 as <-. apply init_spec in E.
    destruct E as (o1 & _ & _ & _ & _ & _ & _ & _ & _ & _ & _ & _ & _ & _ & _ & _ & _ & _ & _ & _ & _ & W). destruct (W i j Hp) as (_ & S1 & S2 & S3 & _ & S4 & _). destruct Hp as (Hi & _). rewrite L in Hi. replace i with 0%nat in * by lia. split; [rewrite S1; reflexivity|]. split; [exact S2|exact S3]. }
  set (dd := [("alpha"%string, VR (82 / 100))]). assert (KO : exists ko, scf_options dd = Ok ko /\ so_auto ko = false /\ so_cont ko = false /\ so_flip ko = false /\ so_alpha ko = 82 / 100 /\ so_tol ko = 10 * / 10 ^ 6 /\ so_maxiter ko = 100%Z) by (eexists; split; [reflexivity|repeat split]).
  destruct KO as (ko & K1 & K2 & K3 & K4 & K5 & K6 & K7). set (w := z_penv (fun v => v) (fun v => v)) in *.
  destruct (scf_total g3p (pe_env w) k) with (sched := fun _ : Z => keys k) (d := dd) (o := ko) as (st & E); try assumption; try congruence.
  - exact g3p_pos.
  - intros it i j s2 Hp (S1 & S2 & S3 & S4). destruct (SP1 i j Hp) as (MM & PJ & NJ). rewrite S3, NJ. split; [lra|]. eexists 1%nat, _, _. split; [reflexivity|]. rewrite S1, S2, MM, PJ. unfold shell_size. simpl. lra.
  - right. intros m. rewrite FM, LDA, P. destruct (z_xc (fun v => v) (fun v => v) (o_xid (k_opt k)) m) as (x & X). destruct (z_xc (fun v => v) (fun v => v) (o_cid (k_opt k)) m) as (c & Y). destruct (z_hartree (fun v => v) (fun v => v) m) as (v & V). exists x, c, v. auto.
  - rewrite P, CC. lia.
  - rewrite L. lia.
  - intros _. apply keys_schedule.
  - destruct (scf_inv _ _ _ _ _ _ E) as (ko' & K1' & T & X). rewrite K1 in K1'. injection K1' as <-.
    assert (I2 : (2 <= c_iter st)%Z).
    { destruct T as [k0 S0|st0 st T TE B]; [|pose proof (trace_bound _ _ _ _ _ _ T); apply body_frame in B; lia]. exfalso. unfold scf_test in X. cbn [c_diff c_iter gtb] in X. rewrite K6, K7 in X. destruct (Rlt_dec (10 * / 10 ^ 6) 10) as [_|NL]; [discriminate|].
      apply NL. replace (10 * / 10 ^ 6) with (1 / 100000) by field. lra. }
    destruct (trace_second _ _ _ _ _ _ T I2) as (st2 & T2 & I3).
    exists w, p, o, l1, s1, f0, dd, ko, k, st2. split; [apply z_steady|]. do 5 (split; [assumption|]). split; [rewrite A10; reflexivity|]. split; [assumption|]. split; [reflexivity|]. split; [exact T2|]. split; [apply frame_refl|]. repeat (split; [assumption|]). exact I3.
Qed.
