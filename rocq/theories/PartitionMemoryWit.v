(** A run of two passes, and the same two passes in two calls, on the grid g3p. *)
From Coq Require Import Reals List Arith Lia Lra ZArith Bool String FunctionalExtensionality.
From Verif Require Import Base BaseLemmas GridModel GridSpec GridProofs GridWitness GridMore FDProofs HartreeModel HartreeSpec HartreeProofs LinAlg HartreeThms SolverModel SolverSpec SolverProofs SolverThms LibxcModel LibxcSpec LibxcThms OptionsModel OptionsProofs KSModel KSSpec KSProofs KSThms KSLoop KSEnergy KSTotal KSWit
  InverterModel InverterTotal InverterWit PartitionModel PartitionSpec PartitionBase PartitionConstr PartitionDens PartitionFrame PartitionEnergy PartitionLoop PartitionStep PartitionKeep PartitionPass PartitionScf PartitionRun PartitionNew PartitionGood PartitionWit
  SelfConsistent NonInteracting Isolated IsolatedWit Transport MirrorRun MirrorPart MirrorWit EmbedPot EmbedEnergy MirrorEmbed EmbedWit EmptyFrag PartitionMemory PartitionResume.
Import ListNotations.
Local Open Scope R_scope.
Local Opaque sinh cosh.

(** One orbital, which depends on the potential, with kinetic energy 1. *)
Definition y_orb (s : solver) : nat -> vec := fun _ x => 1 + (if (x <? Nelem g3p)%nat then s_veff s x ^ 2 else 0).
Definition y_level (s : solver) : R := 1 + pot_of g3p (set_result s ((1%nat, fun _ => 0), Some (1%nat, y_orb s))).
Definition y_lib : libfun := fun _ pol => Ok (fun n _ => mkXc (fun _ => 0) (fun k _ => 2 * sum_cols pol n k) (fun _ _ => 0)).
Definition y_env : env := mkEnv (fun _ s => Some ((1%nat, fun _ => y_level s), Some (1%nat, y_orb s))) y_lib (fun v => v) (fun _ _ => 0).
Definition y_penv : penv := mkPE y_env (one_env 0) (fun _ _ s => (fun _ => 0, s)) (fun _ _ i => i).
Definition y_spec : comp -> fspec := fun _ => mkFS 1 2 (fun _ _ => 1%nat) 1 2 (fun _ _ => 1).
Lemma y_steady : steady g3p y_env.
Proof.
  intros it it' s s' S V. unfold y_env. cbn [e_worker]. assert (O : y_orb s' = y_orb s).
  { unfold y_orb. apply functional_extensionality. intros _. apply functional_extensionality. intros x. destruct (Nat.ltb_spec x (Nelem g3p)) as [L|L]; [rewrite V by exact L; reflexivity|reflexivity]. }
  unfold y_level. rewrite O, (pot_same g3p s s' _ S V). reflexivity.
Qed.
(** The density does not depend on the level. *)
Lemma level_free : forall g s a b c, dens g (set_result s (a, c)) = dens g (set_result s (b, c)).
Proof.
  intros g s a b c. unfold dens. assert (E : calc_density g (set_result s (a, c)) = calc_density g (set_result s (b, c))); [|rewrite E; reflexivity].
  unfold calc_density, nocc, shell_scale, set_result. cbn [s_m s_pol s_N s_frac fst snd].
  assert (D : forall n, dens_loop g (mkSolver (s_m s) (s_pol s) (s_N s) (s_Nmo s) (s_frac s) (s_sym s) (s_veff s) c (Some a)) n = dens_loop g (mkSolver (s_m s) (s_pol s) (s_N s) (s_Nmo s) (s_frac s) (s_sym s) (s_veff s) c (Some b)) n).
  { induction n as [|n IH]; [reflexivity|]. cbn [dens_loop]. rewrite IH. reflexivity. }
  destruct ((if (s_m s =? 0)%Z then _ else _)) as [No nu]. rewrite D. reflexivity.
Qed.
(** The kinetic energy of a solved channel. *)
Lemma y_kinetic : forall s, s_m s = 0%Z -> s_pol s = 2%nat -> s_N s = 1 -> let r := ((1%nat, fun _ => y_level s), Some (1%nat, y_orb s)) in eks_of (set_result s r) - pot_of g3p (set_result s r) = 1.
Proof.
  intros s M P N r. assert (PO : pot_of g3p (set_result s r) = y_level s - 1).
  { unfold y_level. replace (pot_of g3p (set_result s r)) with (pot_of g3p (set_result s ((1%nat, fun _ : nat => 0), Some (1%nat, y_orb s)))); [ring|]. unfold pot_of, r. apply integrate1_ext. intros x _. rewrite (level_free g3p s (1%nat, fun _ => 0) (1%nat, fun _ => y_level s)). reflexivity. }
  assert (E : eks_of (set_result s r) = y_level s).
  { unfold eks_of, calc_eks. assert (F : floorZ 1 = 1%Z) by (unfold floorZ; change 1 with (INR 1); apply Int_part_INR). unfold nocc, set_result, r. cbn [s_m s_pol s_N s_frac]. rewrite M, P, N. change (0 =? 0)%Z with true. change (2 =? 1)%nat with false. cbv iota zeta. rewrite F.
    replace (1 - 1) with 0 by ring. replace (nonzero 0) with false by (unfold nonzero; destruct (Req_EM_T 0 0); [reflexivity|lra]). rewrite andb_false_r.
    unfold shell_scale. cbn [s_m s_pol]. change (Z.to_nat 1) with 1%nat. cbn [eks_loop bind eig_at s_eig fst]. change (pyidx 1 (Z.of_nat 0)) with (@Ok nat 0%nat). cbn [bind]. rewrite ?M, ?P. change (0 =? 0)%Z with true. change (2 =? 1)%nat with false. cbv iota. ring. }
  rewrite E, PO. ring.
Qed.

(** * The partition object *)
Lemma y_xc : forall id n, exists x, get_xc g3p y_lib "lda" id 2 n = Ok x. Proof. intros. eexists. reflexivity. Qed.
Lemma y_hartree : forall n, exists v, v_hartree g3p (fun v => v) (fun _ _ => 0) (A2 2 n) = Ok v. Proof. intros. eexists. reflexivity. Qed.
Lemma y_part : exists p, partition_init g3p 0 0 2 y_spec 1 1 (w_opt "none" false false) = Ok p /\ po_hxc (p_opt p) = "exact"%string /\ po_iso (p_opt p) = false /\ po_ab (p_opt p) = false /\ po_sym (p_opt p) = false /\ po_int (p_opt p) = "dft"%string /\ p_pol p = 2%nat /\ p_ens p = false /\ po_kin (p_opt p) = "none"%string /\ po_fam (p_opt p) = "lda"%string /\
  launchable 0 g3p y_penv w_sched 1 p /\ (forall c f, member false c -> p_f p c = Some f -> k_lv (f_ks f) = 1%nat /\ k_cols (f_ks f) = 2%nat /\ forall i j, place (f_ks f) i j -> s_m (k_sol (f_ks f) i j) = 0%Z /\ s_pol (k_sol (f_ks f) i j) = 2%nat /\ s_N (k_sol (f_ks f) i j) = 1).
Proof.
  assert (C : exists d, configure PartitionOptions (w_opt "none" false false) = Ok d /\ exists k, configure KohnShamOptions (ks_dict d) = Ok k) by (eexists; (split; [reflexivity|]); eexists; reflexivity). destruct C as (d & C & k & C2).
  destruct (init_exists g3p 2 y_spec 0 0 1 1 (w_opt "none" false false) d k) as (p & H); auto; try lia; try tauto; try (injection C as <-; discriminate).
  { intros c. exists 1%nat, 2%nat. repeat (split; [reflexivity|]). intros i j _ _. cbn [y_spec fs_N]. lra. }
  pose proof (init_inv _ _ _ _ _ _ _ _ _ H) as (d' & C' & O & _ & PP & _ & _ & _ & _ & _ & _ & _ & VX & EN & FR). rewrite C in C'. injection C' as <-.
  assert (Q : po_kin (p_opt p) = "none"%string /\ po_ab (p_opt p) = false /\ po_iso (p_opt p) = false /\ po_int (p_opt p) = "dft"%string /\ po_hxc (p_opt p) = "exact"%string /\ po_vp (p_opt p) = "component"%string /\ po_sym (p_opt p) = false /\ po_fam (p_opt p) = "lda"%string).
  { rewrite O. injection C as <-. repeat (split; [reflexivity|]); reflexivity. }
  destruct Q as (Q1 & AB & IS & IN & HX & VC & SY & LDA). assert (EN0 : p_ens p = false) by (destruct EN as [(_ & _ & E & _)|(E & _)]; [exact E|lra]).
  assert (NV : inverting p = false) by (unfold inverting; rewrite Q1; reflexivity).
  assert (SP1 : forall c f, member (p_ens p) c -> p_f p c = Some f -> k_lv (f_ks f) = 1%nat /\ k_cols (f_ks f) = 2%nat /\ forall i j, place (f_ks f) i j -> s_m (k_sol (f_ks f) i j) = 0%Z /\ s_pol (k_sol (f_ks f) i j) = 2%nat /\ s_N (k_sol (f_ks f) i j) = 1).
  { intros c f Hc F. destruct (FR c Hc) as (f0 & FI0 & F0). rewrite F in F0. injection F0 as ->. pose proof FI0 as FI. apply frag_init_inv in FI. destruct FI as (k1 & -> & _ & _ & P & L & CC & _). cbn [fscale new_frag f_ks] in *. split; [exact L|]. split; [exact CC|]. intros i j Hp.
    unfold frag_init in FI0. destruct (ks_init _ _ _ _ _ _ _ _ _ _ _) as [k'|] eqn:E; [|discriminate]. cbn [bind] in FI0. injection FI0 as <-. apply init_spec in E.
    destruct E as (o1 & _ & _ & _ & _ & _ & _ & _ & _ & _ & _ & _ & _ & _ & _ & _ & _ & _ & _ & _ & _ & W). destruct (W i j Hp) as (_ & S1 & S2 & S3 & _ & S4 & _). destruct Hp as (Hi & _). rewrite L in Hi. cbn [y_spec fs_lv] in Hi. replace i with 0%nat in * by lia. split; [rewrite S1; reflexivity|]. split; [exact S2|exact S3]. }
  exists p. do 6 (split; [assumption|]). split; [exact PP|]. do 3 (split; [assumption|]). split; [|intros c f Hc; apply SP1; rewrite EN0; exact Hc].
  split; [lia|]. split; [|split; [intros _; rewrite VX; eexists; reflexivity|split; [|split; [intros X; congruence|intros X; congruence]]]].
  - right. split; [exact VC|]. split; [left; exact Q1|]. right. split; [exact IN|]. split; [left; exact HX|]. split; [|intros n; eexists; reflexivity].
    intros n. rewrite PP, LDA. cbn [y_penv pe_env y_env e_lib e_spL e_spU]. destruct (y_xc (po_xid (p_opt p)) n) as (x & ->). destruct (y_xc (po_cid (p_opt p)) n) as (c & ->). destruct (y_hartree n) as (v & V). exists x, c, v. auto.
  - intros c Hc. destruct (FR c Hc) as (f & FI & F). eexists. split; [exact F|]. split; auto. intros _. destruct (SP1 c _ Hc F) as (_ & _ & SP). apply frag_init_inv in FI. destruct FI as (k1 & -> & _ & _ & P & L & CC & _ & _ & _ & _ & _ & _ & I & _ & _ & _ & _ & FM & S). cbn [fs_lv fs_cols fs_N fs_Nmo y_spec] in *. cbn [fscale new_frag f_ks] in *.
    split; [split; [|split; [|split; lia]]|split; [exact I|split]].
    + intros it i j s Hp (S1 & S2 & S3 & S4). destruct (SP i j Hp) as (MM & PJ & NJ). rewrite S3, NJ. split; [lra|]. eexists 1%nat, _, _. split; [reflexivity|]. rewrite S1, S2, MM, PJ. unfold shell_size. simpl. lra.
    + right. intros n. rewrite P, FM, LDA. cbn [y_penv pe_env y_env e_lib e_spL e_spU]. destruct (y_xc (o_xid (k_opt k1)) n) as (x & ->). destruct (y_xc (o_cid (k_opt k1)) n) as (c0 & ->). destruct (y_hartree n) as (v & V). exists x, c0, v. auto.
    + unfold want. rewrite NV. exact Logic.I.
    + intros it. split; [repeat constructor; simpl; intuition congruence|]. intros i j. unfold place. rewrite L, CC. simpl. split.
      * intros [X|[X|[]]]; injection X as <- <-; lia.
      * intros (Hi & Hj). assert (i = 0%nat) by lia. assert (J : (j = 0 \/ j = 1)%nat) by lia. subst i. destruct J; subst; auto.
Qed.

(** * Energies *)
Definition y_object (p : part) : Prop := forall c f, member false c -> p_f p c = Some f -> k_lv (f_ks f) = 1%nat /\ k_cols (f_ks f) = 2%nat /\ forall i j, place (f_ks f) i j -> s_m (k_sol (f_ks f) i j) = 0%Z /\ s_pol (k_sol (f_ks f) i j) = 2%nat /\ s_N (k_sol (f_ks f) i j) = 1.
Lemma y_Ts : forall sched d p o n l s0 s c f' e, y_object p -> p_ens p = false -> po_ab (p_opt p) = false -> passes g3p y_penv sched d p o n l s0 -> psc_body g3p y_penv o (sched (q_iter s0)) s0 = Ok s -> member false c -> p_f (q_p s) c = Some f' -> k_E (f_ks f') = Some e -> E_Ts e = Fin 2.
Proof.
  intros sched d p o n l s0 s c f' e YO EN AB P B Hc F' KE. destruct (run_static _ _ _ _ _ _ _ _ _ P) as (R1 & R2 & _ & _ & _ & _ & R7 & _ & _ & _ & RF). destruct (RF c ltac:(rewrite EN; exact Hc)) as (f0 & f & F0 & F & FR & _). destruct (YO c f0 Hc F0) as (L & C & SO).
  assert (CP : computed (q_p s0) c) by (split; [congruence|rewrite R1, AB; discriminate]).
  destruct (pass_shot _ _ _ _ _ _ _ _ _ B CP F FR) as (f1 & m & nout & k2 & vh & vx & E & A1 & _ & _ & _ & _ & A6 & A7 & A8 & _). rewrite F' in A1. injection A1 as <-. rewrite KE in A8. injection A8 as <-. cbn [y_penv pe_env] in *.
  destruct A6 as (it & dif & l1 & k1 & B1 & _ & B3). apply density_inv in B3. destruct B3 as (sol & n0 & -> & W & _). destruct A7 as (k3 & k4 & C1 & C2 & _ & C4 & C5). apply energy_inv in C4. destruct C4 as (E1 & n1 & v1 & D1 & _ & _ & _ & D2 & _). rewrite C5 in D1. injection D1 as <-. rewrite D2. f_equal.
  destruct C1 as (_ & _ & _ & _ & C15 & C16 & _). destruct B1 as (_ & _ & _ & _ & B15 & B16 & _ & B18). unfold kinetic. rewrite C15, C16, L, C. cbn [sumR].
  assert (X : forall j, (j < 2)%nat -> eks_of (k_sol k3 0%nat j) - pot_of g3p (k_sol k3 0%nat j) = 1).
  { intros j Hj. assert (Hp : place (f_ks f0) 0 j) by (split; lia). destruct (SO _ _ Hp) as (S1 & S2 & S3). destruct (W 0%nat j) as (r & W1 & W2); [unfold place; rewrite B15, B16; exact Hp|]. injection W1 as <-. rewrite C2. cbn [set_sol k_sol]. rewrite W2. destruct (B18 0%nat j) as (J1 & J2 & J3 & _). apply y_kinetic; congruence. }
  rewrite (X 0%nat), (X 1%nat) by lia. ring.
Qed.
Lemma y_total : forall sched d p o n l s0 s, partition_init g3p 0 0 2 y_spec 1 1 (w_opt "none" false false) = Ok p -> po_hxc (p_opt p) = "exact"%string -> po_iso (p_opt p) = false -> po_ab (p_opt p) = false -> po_sym (p_opt p) = false -> po_int (p_opt p) = "dft"%string -> p_ens p = false -> po_kin (p_opt p) = "none"%string -> po_fam (p_opt p) = "lda"%string -> y_object p ->
  ps_target o = false -> passes g3p y_penv sched d p o n l s0 -> psc_test o s0 = Ok true -> psc_body g3p y_penv o (sched (q_iter s0)) s0 = Ok s -> p_T (q_p s) "E"%string = Some (SC 4).
Proof.
  intros sched d p o n l s0 s IN HX IS AB SY HI EN HK FM YO TG P T B.
  destruct (run_explicit _ _ _ _ _ _ _ _ _ _ _ _ _ _ _ _ _ IN (le_n 2) SY (or_introl HK) HX HI IS AB EN P T B TG) as (nf0 & nf & T0 & n0 & TC & e & vh & x & c & A1 & A2 & A3 & A4 & A5 & A6 & A7 & A8). rewrite A8. do 2 f_equal.
  assert (KN : forall y t, kinetic_int g3p (pe_env y_penv) p y t -> t = 0) by (intros y t [(_ & K)|(K & _)]; [exact K|congruence]). pose proof (KN _ _ A3) as ->.
  assert (C : forall c, c = Ca \/ c = Cb -> TC c = 0 /\ to_R (E_Ts (e c)) = 2).
  { intros c0 Hc. destruct (A4 c0 Hc) as (f & f' & X1 & X2 & X3 & X4 & X5). split; [eapply KN; eauto|]. rewrite (y_Ts _ _ _ _ _ _ _ _ c0 _ _ YO EN AB P B ltac:(destruct Hc as [-> | ->]; exact Logic.I) X4 X5). reflexivity. }
  destruct (C Ca (or_introl eq_refl)) as (-> & ->). destruct (C Cb (or_intror eq_refl)) as (-> & ->).
  assert (XC : forall id y z, get_xc g3p (e_lib (pe_env y_penv)) (po_fam (p_opt p)) id 2 y = Ok z -> fst (fst z) = 0).
  { intros id y z. rewrite FM. cbn [y_penv pe_env y_env e_lib]. intros H. injection H as <-. cbn [fst]. rewrite (integrate1_ext g3p _ (fun _ => 0)); [apply integrate1_zero|]. intros k _. unfold sum_cols. apply sumR_zero. intros. cbn [xc_zk]. ring. }
  rewrite (XC _ _ _ A6), (XC _ _ _ A7). rewrite (integrate1_ext g3p (fun k => _ * (coulomb g3p 0 0 k + coulomb g3p 0 0 k)) (fun _ => 0)) by (intros k _; unfold coulomb, Rdiv; ring).
  rewrite (integrate1_ext g3p (fun k => _ * entry vh k 0) (fun _ => 0)). 2:{ intros k _. injection A5 as <-. cbn [entry y_penv pe_env y_env e_spL e_spU]. cbn. ring. }
  rewrite integrate1_zero. unfold Rdiv. ring.
Qed.

(** * The calls *)
Definition y_whole : dict := [("max_iter"%string, VZ 2)].
Definition y_first : dict := [("max_iter"%string, VZ 1); ("e_tol"%string, VR (1 / 100))].
Definition y_second : dict := [("max_iter"%string, VZ 1); ("continuing"%string, VB true)].
Lemma y_options : forall p, exists o o1 o2, psc_options p y_whole = Ok o /\ psc_options p y_first = Ok o1 /\ psc_options p y_second = Ok o2 /\ (same_method o o1 /\ same_method o1 o2) /\ (ps_cont o = false /\ ps_cont o1 = false /\ ps_cont o2 = true) /\
  (ps_auto o = false /\ ps_auto o1 = false /\ ps_auto o2 = false) /\ ps_alpha o = [82 / 100] /\ (ps_maxit o = 2%Z /\ ps_maxit o1 = 1%Z /\ ps_maxit o2 = 1%Z) /\ (ps_tol o = / 10 ^ 7 /\ ps_tol o1 = 1 / 100 /\ ps_tol o2 = / 10 ^ 7).
Proof. intros p. unfold psc_options, configure_partition_scf. do 3 eexists. do 3 (split; [reflexivity|]). repeat split. Qed.
Lemma psc_opts : forall p q d, p_opt q = p_opt p -> psc_options q d = psc_options p d. Proof. intros p q d E. unfold psc_options. rewrite E. reflexivity. Qed.

Lemma y_small : / 10 ^ 7 < 1. Proof. replace (/ 10 ^ 7) with (1 / 10000000) by field. lra. Qed.
(** The loop is entered. *)
Lemma y_enter : forall w sched d p o l s, passes g3p w sched d p o 0 l s -> ps_tol o < 1 -> (1 <= ps_maxit o)%Z -> psc_test o s = Ok true.
Proof.
  intros w sched d p o l s P T M. apply passes_0 in P. destruct P as (p0 & nf & _ & _ & _ & _ & ->). unfold psc_test. cbn [q_dif q_iter gtb]. destruct (Rlt_dec (ps_tol o) 10) as [_|NL]; [|lra]. f_equal. apply Z.leb_le. lia.
Qed.
(** After the first pass with a total energy other than 0 the difference is at least 1. *)
Lemma y_again : forall w sched d p o l s, passes g3p w sched d p o 1 l s -> (exists E, p_T (q_p s) "E"%string = Some (SC E) /\ E <> 0) -> ps_tol o < 1 -> (2 <= ps_maxit o)%Z -> psc_test o s = Ok true.
Proof.
  intros w sched d p o l s P (E & HE & NE) T M. pose proof (passes_count _ _ _ _ _ _ _ _ _ P) as (IT & _). apply passes_S in P. destruct P as (l0 & s0 & P & _ & B & _). apply passes_0 in P. destruct P as (p0 & nf & _ & _ & _ & _ & ->).
  destruct (body_residual _ _ _ _ _ _ B) as (E' & nf' & dn & A1 & _ & _ & _ & _ & A6). rewrite HE in A1. injection A1 as <-. cbn [q_oldE] in A6. unfold ndiv in A6. destruct (Req_EM_T E 0) as [|_]; [contradiction|]. replace ((E - 0) / E) with 1 in A6 by (field; exact NE). cbn [nabs] in A6. rewrite Rabs_R1 in A6.
  unfold psc_test. assert (G : gtb (q_dif s) (Fin (ps_tol o)) = true).
  { rewrite A6. unfold pymax. destruct (gtb dn (Fin 1)) eqn:G; [|cbn [gtb]; destruct (Rlt_dec (ps_tol o) 1); [reflexivity|contradiction]]. destruct dn as [r| | |]; cbn [gtb] in *; try discriminate; try reflexivity. destruct (Rlt_dec 1 r); [|discriminate]. destruct (Rlt_dec (ps_tol o) r); [reflexivity|lra]. }
  rewrite G, IT. f_equal. apply Z.leb_le. lia.
Qed.
Theorem memory_case : exists p o o1 o2 l l1 l2 s s1 s2, partition_init g3p 0 0 2 y_spec 1 1 (w_opt "none" false false) = Ok p /\ po_sym (p_opt p) = false /\ po_hxc (p_opt p) = "exact"%string /\ po_int (p_opt p) = "dft"%string /\ po_iso (p_opt p) = false /\ po_ab (p_opt p) = false /\ p_ens p = false /\ explicit p /\ launchable 0 g3p y_penv w_sched 1 p /\
  steady g3p (pe_env y_penv) /\ (same_method o o1 /\ same_method o1 o2) /\ (ps_cont o = false /\ ps_cont o1 = false /\ ps_cont o2 = true) /\ ps_auto o2 = false /\ ps_alpha o = [82 / 100] /\ psc_options (q_p s1) y_second = Ok o2 /\
  partition_scf g3p y_penv w_sched y_whole p = Ok s /\ passes g3p y_penv w_sched y_whole p o 2 l s /\ partition_scf g3p y_penv w_sched y_first p = Ok s1 /\ passes g3p y_penv w_sched y_first p o1 1 l1 s1 /\
  partition_scf g3p y_penv w_sched y_second (q_p s1) = Ok s2 /\ passes g3p y_penv w_sched y_second (q_p s1) o2 1 l2 s2 /\ p_T (q_p s) "E"%string = Some (SC 4).
Proof.
  destruct y_part as (p & IN & HX & IS & AB & SY & HI & PP & EN & HK & FM & LA & YO). destruct (y_options p) as (o & o1 & o2 & O & O1 & O2 & (SM & SM1) & (C & C1 & C2) & (AU & AU1 & AU2) & AL & (M & M1 & M2) & (TO & TO1 & TO2)). pose proof y_small as SMALL.
  assert (TG : ps_target o = false /\ ps_target o1 = false /\ ps_target o2 = false) by (destruct SM as (_ & _ & _ & _ & X & Y), SM1 as (_ & _ & _ & _ & _ & Z); auto). destruct TG as (TG & TG1 & TG2).
  assert (LE : forall q, ps_alpha q = [82 / 100] -> List.length (ps_alpha q) = 1%nat \/ List.length (ps_alpha q) = 2%nat) by (intros q ->; left; reflexivity). assert (AL1 : ps_alpha o1 = [82 / 100]) by (destruct SM; congruence). assert (AL2 : ps_alpha o2 = [82 / 100]) by (destruct SM1; congruence).
  pose proof LA as (L1 & L2 & L3 & L4 & L5 & L6).
  destruct (scf_works 0 g3p y_penv w_sched y_whole p o 1%nat) as (s & E); auto; [exact g3p_pos|]. destruct (scf_works 0 g3p y_penv w_sched y_first p o1 1%nat) as (s1 & E1); auto; [exact g3p_pos|].
  destruct (pscf_trace _ _ _ _ _ _ E) as (o' & n & l & X & Y). pose proof (passes_start _ _ _ _ _ _ _ _ _ X) as (O' & _). rewrite O in O'. injection O' as <-.
  destruct (pscf_trace _ _ _ _ _ _ E1) as (o' & n1 & l1 & X1 & Y1). pose proof (passes_start _ _ _ _ _ _ _ _ _ X1) as (O' & _). rewrite O1 in O'. injection O' as <-.
  assert (N1 : n1 = 1%nat). { pose proof (passes_count _ _ _ _ _ _ _ _ _ X1) as (_ & Q & _). destruct n1 as [|n1]; [exfalso; rewrite (y_enter _ _ _ _ _ _ _ X1) in Y1; [discriminate|lra|lia]|]. specialize (Q ltac:(lia)). lia. } subst n1.
  pose proof (run_static _ _ _ _ _ _ _ _ _ X1) as (R1 & _). assert (O2' : psc_options (q_p s1) y_second = Ok o2) by (rewrite (psc_opts p) by exact R1; exact O2).
  destruct (scf_resumes 0 g3p y_penv w_sched 1 y_first y_second p o1 o2 1 l1 s1 g3p_pos LA TG1 C1 (LE _ AL1) X1 O2' TG2 C2 AU2 (LE _ AL2)) as (s2 & E2).
  destruct (pscf_trace _ _ _ _ _ _ E2) as (o' & n2 & l2 & X2 & Y2). pose proof (passes_start _ _ _ _ _ _ _ _ _ X2) as (O' & _). rewrite O2' in O'. injection O' as <-.
  assert (N2 : n2 = 1%nat). { pose proof (passes_count _ _ _ _ _ _ _ _ _ X2) as (_ & Q & _). destruct n2 as [|n2]; [exfalso; rewrite (y_enter _ _ _ _ _ _ _ X2) in Y2; [discriminate|lra|lia]|]. specialize (Q ltac:(lia)). lia. } subst n2.
  assert (TE : forall k m t, passes g3p y_penv w_sched y_whole p o (S k) m t -> p_T (q_p t) "E"%string = Some (SC 4)). { intros k m t Q. apply passes_S in Q. destruct Q as (m0 & t0 & Q & T & B & _). exact (y_total _ _ _ _ _ _ _ _ IN HX IS AB SY HI EN HK FM YO TG Q T B). }
  assert (N : n = 2%nat). { pose proof (passes_count _ _ _ _ _ _ _ _ _ X) as (_ & Q & _). destruct n as [|[|n]]; [exfalso; rewrite (y_enter _ _ _ _ _ _ _ X) in Y; [discriminate|lra|lia]|exfalso; rewrite (y_again _ _ _ _ _ _ _ X) in Y; [discriminate|exists 4; split; [eapply TE; eauto|lra]|lra|lia]|]. specialize (Q ltac:(lia)). lia. } subst n.
  exists p, o, o1, o2, l, l1, l2, s, s1, s2. do 7 (split; [assumption|]). split; [exact (e_explicit p _ (or_introl eq_refl) HK HX HI)|]. split; [exact LA|]. split; [exact y_steady|]. split; [auto|]. split; [auto|]. do 3 (split; [assumption|]). do 6 (split; [assumption|]). eapply TE; eauto.
Qed.
