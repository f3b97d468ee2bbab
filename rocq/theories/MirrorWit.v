(** Complete interacting runs on the grid g3p meeting the hypotheses of the symmetry theorems. *)
From Coq Require Import Reals List Arith Lia Lra ZArith Bool String.
From Verif Require Import Base BaseLemmas GridModel GridSpec GridProofs GridWitness GridMore FDProofs HartreeModel HartreeSpec HartreeProofs LinAlg HartreeThms SolverModel SolverSpec SolverProofs SolverThms LibxcModel LibxcSpec LibxcThms OptionsModel OptionsProofs KSModel KSSpec KSProofs KSThms KSLoop KSEnergy KSTotal KSWit
  InverterModel InverterTotal InverterWit PartitionModel PartitionSpec PartitionBase PartitionConstr PartitionDens PartitionFrame PartitionEnergy PartitionLoop PartitionStep PartitionKeep PartitionPass PartitionScf PartitionRun PartitionNew PartitionGood PartitionWit
  SelfConsistent NonInteracting Isolated IsolatedWit Transport MirrorRun MirrorPart.
Import ListNotations.
Local Open Scope R_scope.
Local Opaque sinh cosh.

(** One orbital, which depends on the potential. *)
Definition m_env (spL spU : vec -> vec) : env := mkEnv (fun _ s => Some ((1%nat, fun _ => -1), Some (1%nat, fun _ x => 1 + s_veff s x ^ 2))) (fun _ pol => lib_ex 0%nat pol) spL spU.
Lemma g3p_pos : (0 < Nelem g3p)%nat.
Proof. compute. lia. Qed.
Lemma m_setting : exists spL spU, mirror_setting g3p (m_env spL spU) /\ hartree_setting g3p (m_env spL spU).
Proof.
  destruct g3p_factors as (spL & spU & L & U & F & SL & SU & NL & NU & LU). destruct g3p_mirror_hyps as (A1 & A2 & A3 & A4 & A5 & A6 & A7 & A8). exists spL, spU. split.
  - repeat (split; [assumption|]). exists 1%nat, L, U. repeat (split; [assumption|]). assumption.
  - exists L, U. auto.
Qed.
Lemma m_equivariant : forall spL spU tau, equivariant g3p (m_env spL spU) tau.
Proof. intros spL spU tau it it' s s' r r' _ V E E'. injection E as <-. injection E' as <-. split; [reflexivity|]. split; [reflexivity|]. cbn [snd fst]. split; [reflexivity|]. intros i _. left. intros x Hx. rewrite V by exact Hx. reflexivity. Qed.
Lemma m_lib : forall spL spU id pol, (pol = 1 \/ pol = 2)%nat -> exists F, e_lib (m_env spL spU) id pol = Ok F /\ pointwise pol (2 * pol - 1) F /\ (pol = 2%nat -> spin_symmetric F).
Proof. intros spL spU id pol Hp. destruct (ex_point pol Hp) as (A & B). exists (ex_F pol). split; [exact A|]. split; [exact B|]. intros ->. apply ex_spin. Qed.
Lemma m_xc : forall spL spU id n, exists x, get_xc g3p (e_lib (m_env spL spU)) "lda" id 2 n = Ok x.
Proof. intros. eexists. reflexivity. Qed.
Lemma m_hartree : forall spL spU n, exists v, v_hartree g3p spL spU (A2 2 n) = Ok v.
Proof. intros. eexists. reflexivity. Qed.

(** * Kohnsham *)
Section Runs.
  Context (spL spU : vec -> vec).
  Notation w := (m_env spL spU).
  Lemma m_run : forall Za Zb N, (forall j, 0 <= N 0%nat j <= 1) -> exists k, ks_init g3p Za Zb 2 1 2 (fun _ _ => 1%nat) 1 2 N [] = Ok k /\ k_pol k = 2%nat /\
    exists o st, ks_scf g3p w (fun _ => keys k) [] k = Ok st /\ scf_options [] = Ok o /\ so_cont o = false /\ so_flip o = false /\ scf_trace g3p w o (fun _ => keys k) k st /\ (1 < c_iter st)%Z.
  Proof.
    intros Za Zb N HN. assert (C : exists d, configure KohnShamOptions [] = Ok d) by (eexists; reflexivity). destruct C as (d & C).
    destruct (init_total g3p Za Zb 2 1 2 (fun _ _ => 1%nat) N [] d C) as (k & H). { intros i j Hi _. replace i with 0%nat by lia. pose proof (HN j). lra. }
    exists k. split; [exact H|]. pose proof H as H0. apply init_spec in H0. destruct H0 as (o1 & C1 & _ & _ & _ & _ & A3 & A4 & A5 & O1 & O2 & O3 & O4 & O5 & O6 & _ & _ & _ & _ & _ & _ & P). rewrite C in C1. injection C1 as <-. split; [exact A3|].
    assert (OO : exists o, scf_options [] = Ok o /\ so_auto o = false /\ so_cont o = false /\ so_flip o = false /\ so_tol o = 10 * / 10 ^ 6 /\ so_maxiter o = 100%Z) by (eexists; split; [reflexivity|repeat split]). destruct OO as (o & Q1 & Q2 & Q3 & Q4 & Q5 & Q6).
    assert (FM : o_fam (k_opt k) = "lda"%string) by (rewrite O6; injection C as <-; reflexivity).
    destruct (scf_total g3p w k) with (sched := fun _ : Z => keys k) (d := [] : dict) (o := o) as (st & E); try assumption; try congruence.
    - exact g3p_pos.
    - intros it i j s Hp (S1 & S2 & S3 & S4). destruct (P i j Hp) as (_ & P1 & P5 & P2 & _). assert (I0 : i = 0%nat) by (destruct Hp as (Hp & _); rewrite A4 in Hp; lia). subst i. rewrite S3, P2. split; [apply HN|].
      eexists 1%nat, _, _. split; [reflexivity|]. rewrite S1, S2, P1, P5. unfold shell_size. simpl. pose proof (HN j). lra.
    - right. intros n. rewrite FM, A3. destruct (m_xc spL spU (o_xid (k_opt k)) n) as (x & ->). destruct (m_xc spL spU (o_cid (k_opt k)) n) as (c & ->). destruct (m_hartree spL spU n) as (v & V). exists x, c, v. auto.
    - rewrite A3, A5. lia.
    - rewrite A4. lia.
    - intros _. apply keys_schedule.
    - exists o, st. split; [exact E|]. split; [exact Q1|]. split; auto. split; auto. destruct (scf_inv _ _ _ _ _ _ E) as (o' & O' & T & X). rewrite Q1 in O'. injection O' as <-. split; auto.
      destruct T as [k0 S0|st0 st T TE B]; [|pose proof (trace_bound _ _ _ _ _ _ T); apply body_frame in B; lia]. exfalso. unfold scf_test in X. cbn [c_diff c_iter gtb] in X. rewrite Q5, Q6 in X. destruct (Rlt_dec (10 * / 10 ^ 6) 10) as [_|NL]; [discriminate|].
      apply NL. replace (10 * / 10 ^ 6) with (1 / 100000) by field. lra.
  Qed.
End Runs.
Theorem mirror_case : forall Za Zb, exists w k k' st st' o, mirror_setting g3p w /\ equivariant g3p w (across g3p) /\ ks_init g3p Za Zb 2 1 2 (fun _ _ => 1%nat) 1 2 (fun _ _ => 1) [] = Ok k /\ ks_init g3p Zb Za 2 1 2 (fun _ _ => 1%nat) 1 2 (fun _ _ => 1) [] = Ok k' /\ local_functionals w k /\
  ks_scf g3p w (fun _ => keys k) [] k = Ok st /\ ks_scf g3p w (fun _ => keys k') [] k' = Ok st' /\ scf_options [] = Ok o /\ so_cont o = false /\ so_flip o = false /\ scf_trace g3p w o (fun _ => keys k) k st /\ (1 < c_iter st)%Z.
Proof.
  intros Za Zb. destruct m_setting as (spL & spU & MS & _). destruct (m_run spL spU Za Zb (fun _ _ => 1) ltac:(intros; lra)) as (k & A1 & A2 & o & st & A3 & A4 & A5 & A6 & A7 & A8). destruct (m_run spL spU Zb Za (fun _ _ => 1) ltac:(intros; lra)) as (k' & B1 & B2 & o' & st' & B3 & _).
  exists (m_env spL spU), k, k', st, st', o. split; auto. split; [apply m_equivariant|]. split; auto. split; auto. split; [|repeat (split; auto)]. intros id _. rewrite A2. destruct (m_lib spL spU id 2 ltac:(auto)) as (F & F1 & F2 & _). exists F. auto.
Qed.
Definition half_spin : mat := fun _ j => if (j =? 0)%nat then 1 else / 2.
Definition half_other : mat := fun _ j => if (j =? 0)%nat then / 2 else 1.
Theorem spin_case : forall Za Zb, exists w k k' st st' o, hartree_setting g3p w /\ equivariant g3p w same /\ ks_init g3p Za Zb 2 1 2 (fun _ _ => 1%nat) 1 2 half_spin [] = Ok k /\ ks_init g3p Za Zb 2 1 2 (fun _ _ => 1%nat) 1 2 half_other [] = Ok k' /\ spin_functionals w k /\
  (forall i j, (i < 1)%nat -> (j < 2)%nat -> half_other i j = half_spin i (1 - j)%nat) /\ ks_scf g3p w (fun _ => keys k) [] k = Ok st /\ ks_scf g3p w (fun _ => keys k') [] k' = Ok st' /\ scf_options [] = Ok o /\ so_cont o = false /\ so_flip o = false /\ (1 < c_iter st)%Z.
Proof.
  intros Za Zb. destruct m_setting as (spL & spU & _ & MS). destruct (m_run spL spU Za Zb half_spin) as (k & A1 & A2 & o & st & A3 & A4 & A5 & A6 & A7 & A8). { intros j. unfold half_spin. destruct (j =? 0)%nat; lra. }
  destruct (m_run spL spU Za Zb half_other) as (k' & B1 & B2 & o' & st' & B3 & _). { intros j. unfold half_other. destruct (j =? 0)%nat; lra. }
  exists (m_env spL spU), k, k', st, st', o. split; auto. split; [apply m_equivariant|]. split; auto. split; auto. split. { intros id _. destruct (m_lib spL spU id 2 ltac:(auto)) as (F & F1 & F2 & F3). exists F. auto. }
  split. { intros i j _ Hj. unfold half_other, half_spin. destruct j as [|[|]]; simpl; lra || lia. } repeat (split; auto).
Qed.
Theorem closed_case : forall Za Zb, exists w k st o, hartree_setting g3p w /\ equivariant g3p w same /\ ks_init g3p Za Zb 2 1 2 (fun _ _ => 1%nat) 1 2 (fun _ _ => 1) [] = Ok k /\ spin_functionals w k /\ so_cont o = false /\ so_flip o = false /\ scf_trace g3p w o (fun _ => keys k) k st /\ (1 < c_iter st)%Z.
Proof.
  intros Za Zb. destruct m_setting as (spL & spU & _ & MS). destruct (m_run spL spU Za Zb (fun _ _ => 1) ltac:(intros; lra)) as (k & A1 & A2 & o & st & A3 & A4 & A5 & A6 & A7 & A8).
  exists (m_env spL spU), k, st, o. split; auto. split; [apply m_equivariant|]. split; auto. split; [|repeat (split; auto)]. intros id _. destruct (m_lib spL spU id 2 ltac:(auto)) as (F & F1 & F2 & F3). exists F. auto.
Qed.

(** * Partition *)
Definition m_penv (spL spU : vec -> vec) : penv := mkPE (m_env spL spU) (one_env 0) (fun _ _ s => (fun _ => 0, s)) (fun _ _ i => i).
(** Fragment A has one electron per spin, fragment B one and a half. *)
Definition m_spec : comp -> fspec := fun c => match c with Ca | CA => mkFS 1 2 (fun _ _ => 1%nat) 1 2 (fun _ _ => 1) | _ => mkFS 1 2 (fun _ _ => 1%nat) 1 2 half_spin end.
Lemma half_range : forall j, 0 <= half_spin 0%nat j <= 1.
Proof. intros j. unfold half_spin. destruct (j =? 0)%nat; lra. Qed.
Lemma m_part : forall spL spU Za Zb spec, (forall c, exists N, spec c = mkFS 1 2 (fun _ _ => 1%nat) 1 2 N /\ forall j, 0 <= N 0%nat j <= 1) -> exists p o n l s, partition_init g3p Za Zb 2 spec 1 1 w_iso = Ok p /\ po_iso (p_opt p) = true /\ po_ab (p_opt p) = false /\ po_int (p_opt p) = "dft"%string /\ p_pol p = 2%nat /\
  partition_scf g3p (m_penv spL spU) w_sched [] p = Ok s /\ passes g3p (m_penv spL spU) w_sched [] p o (S n) l s /\ ps_cont o = false /\ ps_target o = false /\ ps_alpha o = [82 / 100].
Proof.
  intros spL spU Za Zb spec SP. assert (C : exists d, configure PartitionOptions w_iso = Ok d /\ exists k, configure KohnShamOptions (ks_dict d) = Ok k) by (eexists; (split; [reflexivity|]); eexists; reflexivity). destruct C as (d & C & k & C2).
  destruct (init_exists g3p 2 spec Za Zb 1 1 w_iso d k) as (p & H); auto; try lia; try tauto; try (injection C as <-; discriminate).
  { intros c. destruct (SP c) as (N & -> & HN). exists 1%nat, 2%nat. repeat (split; [reflexivity|]). intros i j Hi _. cbn [fs_N]. replace i with 0%nat by lia. pose proof (HN j). lra. }
  pose proof (init_inv _ _ _ _ _ _ _ _ _ H) as (d' & C' & O & _ & PP & _ & _ & _ & _ & _ & _ & _ & _ & EN & FR). rewrite C in C'. injection C' as <-.
  assert (OO : po_iso (p_opt p) = true /\ po_ab (p_opt p) = false /\ po_int (p_opt p) = "dft"%string /\ po_fam (p_opt p) = "lda"%string) by (rewrite O; injection C as <-; repeat split). destruct OO as (IS & AB & IN & LDA).
  assert (NV : inverting p = false) by (unfold inverting; rewrite IS, andb_false_r; reflexivity).
  assert (Q : exists o, psc_options p [] = Ok o /\ ps_target o = false /\ ps_cont o = false /\ ps_auto o = false /\ ps_alpha o = [82 / 100] /\ ps_maxit o = 50%Z /\ ps_tol o = / 10 ^ 7) by (eexists; split; [reflexivity|repeat split]).
  destruct Q as (o & Q & T & CO & A & AL & M & TO).
  destruct (scf_works 0 g3p (m_penv spL spU) w_sched [] p o 1%nat) as (s & E); auto.
  - exact g3p_pos.
  - rewrite AL. left. reflexivity.
  - lia.
  - left. exact IS.
  - congruence.
  - intros c Hc. destruct (FR c Hc) as (f & FI & F). eexists. split; [exact F|]. split; auto. intros _. destruct (SP c) as (N & SC & HN). rewrite SC in FI.
    pose proof FI as FI0. apply frag_init_inv in FI. destruct FI as (k1 & -> & _ & _ & P & L & CC & _ & _ & _ & _ & _ & _ & I & _ & _ & _ & _ & FM & S). cbn [fs_lv fs_cols fs_N fs_Nmo] in *. cbn [fscale new_frag f_ks].
    assert (SP1 : forall i j, place k1 i j -> s_m (k_sol k1 i j) = 0%Z /\ s_pol (k_sol k1 i j) = 2%nat /\ s_N (k_sol k1 i j) = N 0%nat j).
    { intros i j Hp. unfold frag_init in FI0. destruct (ks_init _ _ _ _ _ _ _ _ _ _ _) as [k'|] eqn:E; [|discriminate]. cbn [bind] in FI0. injection FI0 as <-. apply init_spec in E.
      destruct E as (o1 & _ & _ & _ & _ & _ & _ & _ & _ & _ & _ & _ & _ & _ & _ & _ & _ & _ & _ & _ & _ & W). destruct (W i j Hp) as (_ & S1 & S2 & S3 & _ & S4 & _). destruct Hp as (Hi & _). rewrite L in Hi. replace i with 0%nat in * by lia. split; [rewrite S1; reflexivity|split; auto]. }
    split; [split; [|split; [|split; lia]]|split; [exact I|split]].
    + intros it i j s (Hi & Hj) (S1 & S2 & S3 & S4). destruct (SP1 i j (conj Hi Hj)) as (MM & PJ & NJ). rewrite S3, NJ. split; [apply HN|]. eexists 1%nat, _, _. split; [reflexivity|]. rewrite S1, S2, MM, PJ. unfold shell_size. simpl. pose proof (HN j). lra.
    + right. intros n. rewrite P, FM, LDA. cbn [m_penv pe_env]. destruct (m_xc spL spU (o_xid (k_opt k1)) n) as (x & ->). destruct (m_xc spL spU (o_cid (k_opt k1)) n) as (c0 & ->). destruct (m_hartree spL spU n) as (v & V). exists x, c0, v. auto.
    + unfold want. rewrite NV. exact Logic.I.
    + intros it. split; [repeat constructor; simpl; intuition congruence|]. intros i j. unfold place. rewrite L, CC. simpl. split.
      * intros [X|[X|[]]]; injection X as <- <-; lia.
      * intros (Hi & Hj). assert (i = 0%nat) by lia. assert (J : (j = 0 \/ j = 1)%nat) by lia. subst i. destruct J; subst; auto.
  - intros X. congruence.
  - intros X. congruence.
  - destruct (pscf_trace _ _ _ _ _ _ E) as (o' & n & l & X & Y). pose proof (passes_start _ _ _ _ _ _ _ _ _ X) as (O' & _). rewrite Q in O'. injection O' as <-.
    exists p, o, (pred n), l, s. repeat (split; [assumption|]). split; [|auto]. destruct n as [|n]; [|exact X]. exfalso. inversion X as [p0 nf O1 S1 N1|]; subst. unfold psc_test in Y. cbn [q_dif q_iter gtb] in Y. rewrite TO, M in Y. cbn in Y.
    destruct (Rlt_dec _ _) as [_|NL] in Y; [discriminate|]. apply NL. replace (/ 10 ^ 7) with (1 / 10000000) by field. lra.
Qed.
Lemma m_local : forall spL spU p, p_pol p = 2%nat -> local_partition (pe_env (m_penv spL spU)) p.
Proof. intros spL spU p Hp id _. rewrite Hp. destruct (m_lib spL spU id 2 ltac:(auto)) as (F & F1 & F2 & _). exists F. auto. Qed.
Theorem exchange_case : forall Za Zb, exists w p p' o o' n l l' s s', mirror_setting g3p (pe_env w) /\ equivariant g3p (pe_env w) (across g3p) /\ partition_init g3p Za Zb 2 m_spec 1 1 w_iso = Ok p /\ partition_init g3p Zb Za 2 (fun c => m_spec (partner c)) 1 1 w_iso = Ok p' /\
  local_partition (pe_env w) p /\ po_iso (p_opt p) = true /\ po_ab (p_opt p) = false /\ po_int (p_opt p) = "dft"%string /\ passes g3p w w_sched [] p o n l s /\ passes g3p w w_sched [] p' o' n l' s' /\ (0 < n)%nat /\
  ps_cont o = false /\ ps_cont o' = false /\ ps_target o = false /\ ps_target o' = false /\ (forall c, member (p_ens p) c -> step_size (ps_alpha o') (partner c) = step_size (ps_alpha o) c).
Proof.
  intros Za Zb. destruct m_setting as (spL & spU & MS & _).
  destruct (m_part spL spU Za Zb m_spec) as (p & o & n & l & s & A1 & A2 & A3 & A4 & A5 & A6 & A7 & A8 & A9 & A10). { intros c. destruct c; eexists; (split; [reflexivity|]); intros; try apply half_range; lra. }
  destruct (m_part spL spU Zb Za (fun c => m_spec (partner c))) as (p' & o' & n' & l' & s' & B1 & B2 & B3 & B4 & B5 & B6 & B7 & B8 & B9 & B10). { intros c. destruct c; eexists; (split; [reflexivity|]); intros; try apply half_range; lra. }
  destruct (passes_first _ _ _ _ _ _ _ _ _ A7) as (l1 & s1 & P1); [lia|]. destruct (passes_first _ _ _ _ _ _ _ _ _ B7) as (l2 & s2 & P2); [lia|].
  exists (m_penv spL spU), p, p', o, o', 1%nat, l1, l2, s1, s2. split; auto. split; [apply m_equivariant|]. split; auto. split; auto. split; [apply m_local, A5|]. repeat (split; [solve [auto]|]). intros c _. rewrite A10, B10. reflexivity.
Qed.
Theorem identical_case : forall Z, exists w p o n l s, mirror_setting g3p (pe_env w) /\ equivariant g3p (pe_env w) (across g3p) /\ partition_init g3p Z Z 2 w_spec 1 1 w_iso = Ok p /\ w_spec Cb = w_spec Ca /\ w_spec CB = w_spec CA /\
  local_partition (pe_env w) p /\ po_iso (p_opt p) = true /\ po_ab (p_opt p) = false /\ po_int (p_opt p) = "dft"%string /\ partition_scf g3p w w_sched [] p = Ok s /\ passes g3p w w_sched [] p o n l s /\ (0 < n)%nat /\
  ps_cont o = false /\ ps_target o = false /\ step_size (ps_alpha o) Cb = step_size (ps_alpha o) Ca /\ (p_ens p = true -> step_size (ps_alpha o) CB = step_size (ps_alpha o) CA).
Proof.
  intros Z. destruct m_setting as (spL & spU & MS & _). destruct (m_part spL spU Z Z w_spec) as (p & o & n & l & s & A1 & A2 & A3 & A4 & A5 & A6 & A7 & A8 & A9 & A10). { intros c. eexists. (split; [reflexivity|]); intros; cbv beta; lra. }
  exists (m_penv spL spU), p, o, (S n), l, s. split; auto. split; [apply m_equivariant|]. split; auto. split; auto. split; auto. split; [apply m_local, A5|]. rewrite A10. repeat (split; [solve [auto with arith]|]). auto.
Qed.
