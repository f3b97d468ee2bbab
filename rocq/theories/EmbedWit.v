(** Complete runs of interacting fragments on the grid g3p meeting the hypotheses on embedding potentials. *)
From Coq Require Import Reals List Arith Lia Lra ZArith Bool String.
From Verif Require Import Base BaseLemmas GridModel GridSpec GridProofs GridWitness GridMore FDProofs HartreeModel HartreeSpec HartreeProofs LinAlg HartreeThms SolverModel SolverSpec SolverProofs SolverThms LibxcModel LibxcSpec LibxcThms OptionsModel OptionsProofs KSModel KSSpec KSProofs KSThms KSLoop KSEnergy KSTotal KSWit
  InverterModel InverterTotal InverterWit PartitionModel PartitionSpec PartitionBase PartitionConstr PartitionDens PartitionFrame PartitionEnergy PartitionLoop PartitionStep PartitionKeep PartitionPass PartitionScf PartitionRun PartitionNew PartitionGood PartitionWit
  SelfConsistent NonInteracting Isolated IsolatedWit Transport MirrorRun MirrorPart MirrorWit EmbedPot MirrorEmbed.
Import ListNotations.
Local Open Scope R_scope.
Local Opaque sinh cosh.

Definition e_dict (ct : string) : dict := [("calc_type"%string, VS ct)].
Lemma e_part : forall spL spU Za Zb spec kin ess ct nua nub, kin = "none"%string \/ kin = "libxcke"%string -> ct = "pdft"%string \/ ct = "sdft"%string -> (nua = 1 <-> nub = 1) -> (forall c, exists N, spec c = mkFS 1 2 (fun _ _ => 1%nat) 1 2 N /\ forall j, 0 <= N 0%nat j <= 1) ->
  exists p o n l s, partition_init g3p Za Zb 2 spec nua nub (w_opt kin false ess) = Ok p /\ po_kin (p_opt p) = kin /\ po_ess (p_opt p) = ess /\ po_hxc (p_opt p) = "exact"%string /\ po_iso (p_opt p) = false /\ po_ab (p_opt p) = false /\ po_sym (p_opt p) = false /\ po_int (p_opt p) = "dft"%string /\ p_pol p = 2%nat /\
  (p_ens p = false <-> nua = 1) /\ partition_scf g3p (m_penv spL spU) w_sched (e_dict ct) p = Ok s /\ passes g3p (m_penv spL spU) w_sched (e_dict ct) p o (S n) l s /\ ps_cont o = false /\ ps_target o = false /\ ps_sdft o = String.eqb ct "sdft" /\ ps_fa o = false /\ ps_fb o = false /\ ps_alpha o = [82 / 100].
Proof.
  intros spL spU Za Zb spec kin ess ct nua nub K CT NU SP. assert (C : exists d, configure PartitionOptions (w_opt kin false ess) = Ok d /\ exists k, configure KohnShamOptions (ks_dict d) = Ok k) by (destruct K as [-> | ->]; eexists; (split; [reflexivity|]); eexists; reflexivity). destruct C as (d & C & k & C2).
  destruct (init_exists g3p 2 spec Za Zb nua nub (w_opt kin false ess) d k) as (p & H); auto; try lia; try tauto; try (destruct K as [-> | ->]; injection C as <-; discriminate).
  { intros c. destruct (SP c) as (N & -> & HN). exists 1%nat, 2%nat. repeat (split; [reflexivity|]). intros i j Hi _. cbn [fs_N]. replace i with 0%nat by lia. pose proof (HN j). lra. }
  pose proof (init_inv _ _ _ _ _ _ _ _ _ H) as (d' & C' & O & _ & PP & _ & _ & _ & _ & _ & _ & _ & VX & EN & FR). rewrite C in C'. injection C' as <-.
  assert (Q : po_kin (p_opt p) = kin /\ po_ab (p_opt p) = false /\ po_ess (p_opt p) = ess /\ po_iso (p_opt p) = false /\ po_int (p_opt p) = "dft"%string /\ po_hxc (p_opt p) = "exact"%string /\ po_vp (p_opt p) = "component"%string /\ po_sym (p_opt p) = false /\ po_fam (p_opt p) = "lda"%string /\ po_kfam (p_opt p) = "lda"%string).
  { rewrite O. destruct K as [-> | ->]; injection C as <-; repeat (split; [reflexivity|]); reflexivity. }
  destruct Q as (Q1 & AB & ES & IS & IN & HX & VC & SY & LDA & KL).
  assert (NV : inverting p = false) by (unfold inverting; rewrite Q1; destruct K as [-> | ->]; reflexivity).
  assert (Q : exists o, psc_options p (e_dict ct) = Ok o /\ ps_target o = false /\ ps_cont o = false /\ ps_auto o = false /\ ps_alpha o = [82 / 100] /\ ps_maxit o = 50%Z /\ ps_tol o = / 10 ^ 7 /\ ps_sdft o = String.eqb ct "sdft" /\ ps_fa o = false /\ ps_fb o = false) by (unfold psc_options, configure_partition_scf; destruct CT as [-> | ->]; eexists; (split; [reflexivity|repeat split])).
  destruct Q as (o & Q & T & CO & A & AL & M & TO & SD & FA & FB).
  assert (WK : workable g3p (m_penv spL spU) p).
  { right. split; [exact VC|]. split.
    - rewrite <- Q1 in K. destruct K as [K|K]; [left; exact K|right; right]. split; [exact K|]. intros n. rewrite PP, KL. apply m_xc.
    - right. split; [exact IN|]. split; [left; exact HX|]. split.
      + intros n. rewrite PP, LDA. cbn [m_penv pe_env]. destruct (m_xc spL spU (po_xid (p_opt p)) n) as (x & ->). destruct (m_xc spL spU (po_cid (p_opt p)) n) as (c & ->). destruct (m_hartree spL spU n) as (v & V). exists x, c, v. auto.
      + intros n. eexists. reflexivity. }
  destruct (scf_works 0 g3p (m_penv spL spU) w_sched (e_dict ct) p o 1%nat) as (s & E); auto.
  - exact g3p_pos.
  - rewrite AL. left. reflexivity.
  - lia.
  - rewrite VX. eexists. reflexivity.
  - intros c Hc. destruct (FR c Hc) as (f & FI & F). eexists. split; [exact F|]. split; auto. intros _. destruct (SP c) as (N & SC & HN). rewrite SC in FI.
    pose proof FI as FI0. apply frag_init_inv in FI. destruct FI as (k1 & -> & _ & _ & P & L & CC & _ & _ & _ & _ & _ & _ & I & _ & _ & _ & _ & FM & S). cbn [fs_lv fs_cols fs_N fs_Nmo] in *. cbn [fscale new_frag f_ks].
    assert (SP1 : forall i j, place k1 i j -> s_m (k_sol k1 i j) = 0%Z /\ s_pol (k_sol k1 i j) = 2%nat /\ s_N (k_sol k1 i j) = N 0%nat j).
    { intros i j Hp. unfold frag_init in FI0. destruct (ks_init _ _ _ _ _ _ _ _ _ _ _) as [k'|] eqn:E; [|discriminate]. cbn [bind] in FI0. injection FI0 as <-. apply init_spec in E.
      destruct E as (o1 & _ & _ & _ & _ & _ & _ & _ & _ & _ & _ & _ & _ & _ & _ & _ & _ & _ & _ & _ & _ & W). destruct (W i j Hp) as (_ & S1 & S2 & S3 & _ & S4 & _). destruct Hp as (Hi & _). rewrite L in Hi. replace i with 0%nat in * by lia. split; [rewrite S1; reflexivity|]. split; [exact S2|exact S3]. }
    split; [split; [|split; [|split; lia]]|split; [exact I|split]].
    + intros it i j s (Hi & Hj) (S1 & S2 & S3 & S4). destruct (SP1 i j (conj Hi Hj)) as (MM & PJ & NJ). rewrite S3, NJ. split; [apply HN|]. eexists 1%nat, _, _. split; [reflexivity|]. rewrite S1, S2, MM, PJ. unfold shell_size. simpl. pose proof (HN j). lra.
    + right. intros n. rewrite P, FM, LDA. cbn [m_penv pe_env]. destruct (m_xc spL spU (o_xid (k_opt k1)) n) as (x & ->). destruct (m_xc spL spU (o_cid (k_opt k1)) n) as (c0 & ->). destruct (m_hartree spL spU n) as (v & V). exists x, c0, v. auto.
    + unfold want. rewrite NV. exact Logic.I.
    + intros it. split; [repeat constructor; simpl; intuition congruence|]. intros i j. unfold place. rewrite L, CC. simpl. split.
      * intros [X|[X|[]]]; injection X as <- <-; lia.
      * intros (Hi & Hj). assert (i = 0%nat) by lia. assert (J : (j = 0 \/ j = 1)%nat) by lia. subst i. destruct J; subst; auto.
  - intros X. congruence.
  - intros X. congruence.
  - destruct (pscf_trace _ _ _ _ _ _ E) as (o' & n & l & X & Y). pose proof (passes_start _ _ _ _ _ _ _ _ _ X) as (O' & _). rewrite Q in O'. injection O' as <-.
    exists p, o, (pred n), l, s. repeat (split; [assumption|]). split; [destruct EN as [(E1 & _ & E2 & _)|(E1 & _ & E2)]; rewrite E2; split; intros; congruence|]. split; [exact E|]. split; [|auto 10]. destruct n as [|n]; [|exact X]. exfalso. inversion X as [p0 nf O1 S1 N1|]; subst. unfold psc_test in Y. cbn [q_dif q_iter gtb] in Y. rewrite TO, M in Y. cbn in Y.
    destruct (Rlt_dec _ _) as [_|NL] in Y; [discriminate|]. apply NL. replace (/ 10 ^ 7) with (1 / 10000000) by field. lra.
Qed.
Lemma e_local : forall spL spU p, p_pol p = 2%nat -> local_embedding (pe_env (m_penv spL spU)) p.
Proof. intros spL spU p Hp. split; [apply m_local, Hp|]. intros _. rewrite Hp. destruct (m_lib spL spU (po_kid (p_opt p)) 2 ltac:(auto)) as (F & F1 & F2 & _). exists F. auto. Qed.
Lemma e_explicit : forall p kin, kin = "none"%string \/ kin = "libxcke"%string -> po_kin (p_opt p) = kin -> po_hxc (p_opt p) = "exact"%string -> po_int (p_opt p) = "dft"%string -> explicit p.
Proof. intros p kin K A B C. split; [rewrite A; exact K|]. auto. Qed.

Theorem embedding_case : forall Za Zb kin ess ct nua nub, kin = "none"%string \/ kin = "libxcke"%string -> ct = "pdft"%string \/ ct = "sdft"%string -> (nua = 1 <-> nub = 1) -> exists w p p' o o' n l l' s s', mirror_setting g3p (pe_env w) /\ equivariant g3p (pe_env w) (across g3p) /\
  partition_init g3p Za Zb 2 m_spec nua nub (w_opt kin false ess) = Ok p /\ partition_init g3p Zb Za 2 (fun c => m_spec (partner c)) nub nua (w_opt kin false ess) = Ok p' /\ local_embedding (pe_env w) p /\ explicit p /\ po_iso (p_opt p) = false /\ po_ab (p_opt p) = false /\
  po_kin (p_opt p) = kin /\ po_ess (p_opt p) = ess /\ (p_ens p = false <-> nua = 1) /\ passes g3p w w_sched (e_dict ct) p o n l s /\ passes g3p w w_sched (e_dict ct) p' o' n l' s' /\ (0 < n)%nat /\
  ps_cont o = false /\ ps_cont o' = false /\ ps_target o = false /\ ps_target o' = false /\ ps_sdft o' = ps_sdft o /\ ps_fa o' = ps_fb o /\ ps_fb o' = ps_fa o /\ (forall c, member (p_ens p) c -> step_size (ps_alpha o') (partner c) = step_size (ps_alpha o) c).
Proof.
  intros Za Zb kin ess ct nua nub K CT NU. destruct m_setting as (spL & spU & MS & _).
  destruct (e_part spL spU Za Zb m_spec kin ess ct nua nub K CT NU) as (p & o & n & l & s & A1 & A2 & A3 & A4 & A5 & A6 & A7 & A8 & A9 & A10 & A11 & A12 & A13 & A14 & A15 & A16 & A17 & A18). { intros c. destruct c; eexists; (split; [reflexivity|]); intros; try apply half_range; lra. }
  destruct (e_part spL spU Zb Za (fun c => m_spec (partner c)) kin ess ct nub nua K CT) as (p' & o' & n' & l' & s' & B1 & B2 & B3 & B4 & B5 & B6 & B7 & B8 & B9 & B10 & B11 & B12 & B13 & B14 & B15 & B16 & B17 & B18). { tauto. } { intros c. destruct c; eexists; (split; [reflexivity|]); intros; try apply half_range; lra. }
  destruct (passes_first _ _ _ _ _ _ _ _ _ A12) as (l1 & s1 & P1); [lia|]. destruct (passes_first _ _ _ _ _ _ _ _ _ B12) as (l2 & s2 & P2); [lia|].
  exists (m_penv spL spU), p, p', o, o', 1%nat, l1, l2, s1, s2. split; [exact MS|]. split; [apply m_equivariant|]. split; [exact A1|]. split; [exact B1|]. split; [apply e_local, A9|]. split; [eapply e_explicit; eauto|]. do 5 (split; [assumption|]). split; [exact P1|]. split; [exact P2|]. split; [lia|]. do 4 (split; [assumption|]). split; [congruence|]. split; [congruence|]. split; [congruence|]. intros c _. rewrite A18, B18. reflexivity.
Qed.
Theorem identical_embedding_case : forall Z kin ess ct nu, kin = "none"%string \/ kin = "libxcke"%string -> ct = "pdft"%string \/ ct = "sdft"%string -> exists w p o n l s, mirror_setting g3p (pe_env w) /\ equivariant g3p (pe_env w) (across g3p) /\
  partition_init g3p Z Z 2 w_spec nu nu (w_opt kin false ess) = Ok p /\ w_spec Cb = w_spec Ca /\ w_spec CB = w_spec CA /\ local_embedding (pe_env w) p /\ explicit p /\ po_iso (p_opt p) = false /\ po_ab (p_opt p) = false /\
  po_kin (p_opt p) = kin /\ (p_ens p = false <-> nu = 1) /\ partition_scf g3p w w_sched (e_dict ct) p = Ok s /\ passes g3p w w_sched (e_dict ct) p o n l s /\ (0 < n)%nat /\
  ps_cont o = false /\ ps_target o = false /\ ps_fb o = ps_fa o /\ step_size (ps_alpha o) Cb = step_size (ps_alpha o) Ca /\ (p_ens p = true -> step_size (ps_alpha o) CB = step_size (ps_alpha o) CA).
Proof.
  intros Z kin ess ct nu K CT. destruct m_setting as (spL & spU & MS & _).
  destruct (e_part spL spU Z Z w_spec kin ess ct nu nu K CT) as (p & o & n & l & s & A1 & A2 & A3 & A4 & A5 & A6 & A7 & A8 & A9 & A10 & A11 & A12 & A13 & A14 & A15 & A16 & A17 & A18). { tauto. } { intros c. eexists. (split; [reflexivity|]); intros; cbv beta; lra. }
  exists (m_penv spL spU), p, o, (S n), l, s. split; [exact MS|]. split; [apply m_equivariant|]. split; [exact A1|]. split; [reflexivity|]. split; [reflexivity|]. split; [apply e_local, A9|]. split; [eapply e_explicit; eauto|]. do 6 (split; [assumption|]). split; [lia|]. do 2 (split; [assumption|]). split; [congruence|]. rewrite A18. auto.
Qed.
(** One pass of a run with embedding potentials. *)
Theorem subsystem_case : forall Za Zb kin ess ct nua nub, kin = "none"%string \/ kin = "libxcke"%string -> ct = "pdft"%string \/ ct = "sdft"%string -> (nua = 1 <-> nub = 1) -> exists w p o n l s0 s, partition_init g3p Za Zb 2 m_spec nua nub (w_opt kin false ess) = Ok p /\ po_sym (p_opt p) = false /\ explicit p /\ po_kin (p_opt p) = kin /\
  po_hxc (p_opt p) = "exact"%string /\ po_iso (p_opt p) = false /\ (p_ens p = false <-> nua = 1) /\ passes g3p w w_sched (e_dict ct) p o n l s0 /\ psc_body g3p w o (w_sched (q_iter s0)) s0 = Ok s /\ ps_sdft o = String.eqb ct "sdft" /\ ps_fa o = false /\ ps_fb o = false /\ forall c, member (p_ens p) c -> computed p c.
Proof.
  intros Za Zb kin ess ct nua nub K CT NU. destruct m_setting as (spL & spU & MS & _).
  destruct (e_part spL spU Za Zb m_spec kin ess ct nua nub K CT NU) as (p & o & n & l & s & A1 & A2 & A3 & A4 & A5 & A6 & A7 & A8 & A9 & A10 & A11 & A12 & A13 & A14 & A15 & A16 & A17 & A18). { intros c. destruct c; eexists; (split; [reflexivity|]); intros; try apply half_range; lra. }
  pose proof A12 as X. apply passes_S in X. destruct X as (l0 & s0 & X1 & _ & X2 & _). exists (m_penv spL spU), p, o, n, l0, s0, s. split; [exact A1|]. split; [exact A7|]. split; [eapply e_explicit; eauto|]. do 8 (split; [assumption|]). split; [assumption|]. intros c Hc. split; [exact Hc|congruence].
Qed.
(** The last pass of a complete run with one component per fragment. *)
Theorem explicit_case : forall Za Zb kin ess ct, kin = "none"%string \/ kin = "libxcke"%string -> ct = "pdft"%string \/ ct = "sdft"%string -> exists w p o n l s0 s, partition_init g3p Za Zb 2 m_spec 1 1 (w_opt kin false ess) = Ok p /\ po_sym (p_opt p) = false /\ po_kin (p_opt p) = kin /\
  po_hxc (p_opt p) = "exact"%string /\ po_int (p_opt p) = "dft"%string /\ po_iso (p_opt p) = false /\ po_ab (p_opt p) = false /\ p_ens p = false /\ passes g3p w w_sched (e_dict ct) p o n l s0 /\ psc_test o s0 = Ok true /\ psc_body g3p w o (w_sched (q_iter s0)) s0 = Ok s /\ ps_target o = false /\
  partition_scf g3p w w_sched (e_dict ct) p = Ok s.
Proof.
  intros Za Zb kin ess ct K CT. destruct m_setting as (spL & spU & MS & _).
  destruct (e_part spL spU Za Zb m_spec kin ess ct 1 1 K CT) as (p & o & n & l & s & A1 & A2 & A3 & A4 & A5 & A6 & A7 & A8 & A9 & A10 & A11 & A12 & A13 & A14 & A15 & A16 & A17 & A18). { tauto. } { intros c. destruct c; eexists; (split; [reflexivity|]); intros; try apply half_range; lra. }
  pose proof A12 as X. apply passes_S in X. destruct X as (l0 & s0 & X1 & X0 & X2 & _). exists (m_penv spL spU), p, o, n, l0, s0, s. split; [exact A1|]. split; [exact A7|]. do 5 (split; [assumption|]). split; [apply A10; reflexivity|]. auto.
Qed.
(** Two complete runs with the nuclei exchanged. *)
Theorem exchanged_case : forall Za Zb kin ess ct, kin = "none"%string \/ kin = "libxcke"%string -> ct = "pdft"%string \/ ct = "sdft"%string -> exists w p p' o s s', mirror_setting g3p (pe_env w) /\ equivariant g3p (pe_env w) (across g3p) /\
  partition_init g3p Za Zb 2 m_spec 1 1 (w_opt kin false ess) = Ok p /\ partition_init g3p Zb Za 2 (fun c => m_spec (partner c)) 1 1 (w_opt kin false ess) = Ok p' /\ local_embedding (pe_env w) p /\ po_kin (p_opt p) = kin /\ po_hxc (p_opt p) = "exact"%string /\ po_int (p_opt p) = "dft"%string /\
  po_sym (p_opt p) = false /\ po_iso (p_opt p) = false /\ po_ab (p_opt p) = false /\ p_ens p = false /\ partition_scf g3p w w_sched (e_dict ct) p = Ok s /\ partition_scf g3p w w_sched (e_dict ct) p' = Ok s' /\ psc_options p (e_dict ct) = Ok o /\
  ps_cont o = false /\ ps_target o = false /\ ps_fb o = ps_fa o /\ step_size (ps_alpha o) Cb = step_size (ps_alpha o) Ca /\ (1 < q_iter s)%Z.
Proof.
  intros Za Zb kin ess ct K CT. destruct m_setting as (spL & spU & MS & _).
  destruct (e_part spL spU Za Zb m_spec kin ess ct 1 1 K CT) as (p & o & n & l & s & A1 & A2 & A3 & A4 & A5 & A6 & A7 & A8 & A9 & A10 & A11 & A12 & A13 & A14 & A15 & A16 & A17 & A18). { tauto. } { intros c. destruct c; eexists; (split; [reflexivity|]); intros; try apply half_range; lra. }
  destruct (e_part spL spU Zb Za (fun c => m_spec (partner c)) kin ess ct 1 1 K CT) as (p' & o' & n' & l' & s' & B1 & B2 & B3 & B4 & B5 & B6 & B7 & B8 & B9 & B10 & B11 & B12 & B13 & B14 & B15 & B16 & B17 & B18). { tauto. } { intros c. destruct c; eexists; (split; [reflexivity|]); intros; try apply half_range; lra. }
  exists (m_penv spL spU), p, p', o, s, s'. split; [exact MS|]. split; [apply m_equivariant|]. split; [exact A1|]. split; [exact B1|]. split; [apply e_local, A9|]. do 6 (split; [assumption|]). split; [apply A10; reflexivity|]. split; [exact A11|]. split; [exact B11|].
  split; [apply (passes_start _ _ _ _ _ _ _ _ _ A12)|]. do 2 (split; [assumption|]). split; [congruence|]. split; [rewrite A18; reflexivity|].
  pose proof A12 as X. apply passes_S in X. destruct X as (l0 & s0 & X1 & X0 & X2 & _). pose proof (body_count _ _ _ _ _ _ X2) as (-> & _). pose proof (passes_count _ _ _ _ _ _ _ _ _ X1) as (-> & _). lia.
Qed.
