(** Runs for the theorems of KSMemory.v: two electrons on the 2 x 2 grid, without nuclei, whose solver answers with a constant
    orbital in the potential zero and with another orbital in every other potential. *)
From Coq Require Import Reals List Arith Lia Lra ZArith Bool String FunctionalExtensionality.
From Verif Require Import Base BaseLemmas GridModel GridSpec GridProofs HartreeModel SolverModel SolverSpec SolverProofs LibxcModel OptionsModel KSModel KSSpec KSProofs KSThms KSLoop KSEnergy KSTotal SelfConsistent NonInteracting
  GridWitness SolverWitness SolverCases KSWit InverterThms KSMemory.
Import ListNotations.
Local Open Scope R_scope.
Local Opaque sinh cosh.

Definition fr_orb (v : vec) : vec := fun x => if Req_EM_T (v 0%nat) 0 then 1 else if (x =? 0)%nat then 1 else 2.
Definition fr_env : env := mkEnv (fun _ s => Some ((1%nat, fun _ => -1), Some (1%nat, fun _ => fr_orb (s_veff s))))
  (fun _ _ => Ok (fun n _ => mkXc (fun _ => 1) (fun _ _ => 1) (fun _ _ => 0))) (fun b => b) (fun _ _ => 0).
Lemma fr_orb_pos : forall v x, 0 < fr_orb v x. Proof. intros. unfold fr_orb. destruct (Req_EM_T _ _); [lra|]. destruct (x =? 0)%nat; lra. Qed.
Lemma fr_steady : steady g22 fr_env.
Proof. intros it it' s s' _ H. cbn. unfold fr_orb. rewrite (H 0%nat) by (rewrite g22_n; lia). reflexivity. Qed.
Lemma fr_init : exists k, ks_init g22 0 0 2 1 2 (fun _ _ => 1%nat) 1 2 ex_N ex_opt = Ok k.
Proof. eapply init_total; [reflexivity|]. intros. unfold ex_N. lra. Qed.
Definition fr_object (k : ks) : Prop := k_Za k * k_Zb k = 0 /\ k_pol k = 2%nat /\ k_cols k = 2%nat /\ k_lv k = 1%nat /\ o_sym (k_opt k) = false /\ o_int (k_opt k) = "dft"%string /\ o_fam (k_opt k) = "lda"%string /\ outer k = (fun _ _ => 0) /\
  (forall x s, k_vnuc k x s = 0) /\ forall i j, place k i j -> s_m (k_sol k i j) = 0%Z /\ s_pol (k_sol k i j) = 2%nat /\ s_N (k_sol k i j) = 1.
Lemma fr_static : forall k, ks_init g22 0 0 2 1 2 (fun _ _ => 1%nat) 1 2 ex_N ex_opt = Ok k -> fr_object k.
Proof.
  intros k H. pose proof H as H'. apply init_spec in H. destruct H as (o & C & _ & _ & ZA & ZB & P & L & CC & OI & OS & _ & _ & _ & OF & V & _ & _ & N & _ & _ & S).
  injection C as <-. split; [rewrite ZA, ZB; ring|]. do 6 (split; [assumption|]). split; [unfold outer; rewrite V; reflexivity|]. split.
  - unfold ks_init in H'. destruct (configure _ _) as [o|] eqn:C; [|discriminate]. injection C as <-. cbn [bind] in H'. change (negb ((1 =? 1)%nat && (2 =? 2)%nat)) with false in H'. cbv iota zeta in H'.
    destruct (Pssolver _ _ _ _ _); [|discriminate]. cbn [bind] in H'. injection H' as <-. cbn [k_vnuc]. intros x s.
    assert (Q : forall x, coulomb g22 0 0 x = 0) by (intros; unfold coulomb, Rdiv; ring). change (ks_vnuc g22 0 0 2 false x s = 0). unfold ks_vnuc. cbv zeta iota. rewrite Q. destruct ((2 =? 1)%nat && (s =? 0)%nat)%bool; [reflexivity|]. destruct ((2 =? 2)%nat && (s <? 2)%nat)%bool; reflexivity.
  - intros i j H. destruct (S i j H) as (_ & S1 & S2 & S3 & _ & S4 & _). split; [|auto]. rewrite S1. destruct H as (Hi & _). rewrite L in Hi. replace i with 0%nat by lia. reflexivity.
Qed.
Definition fr_shape (k : ks) : Prop := k_pol k = 2%nat /\ k_cols k = 2%nat /\ k_lv k = 1%nat /\ o_sym (k_opt k) = false /\ o_fam (k_opt k) = "lda"%string /\
  forall i j, place k i j -> s_m (k_sol k i j) = 0%Z /\ s_pol (k_sol k i j) = 2%nat /\ s_N (k_sol k i j) = 1.
Lemma fr_shape_of : forall k q, fr_object k -> frame k q -> fr_shape q.
Proof.
  intros k q (_ & P & C & L & OS & OI & OF & _ & _ & S) (F1 & _ & _ & F4 & F5 & F6 & _ & F8). unfold fr_shape. rewrite F1, F4, F5, F6. repeat (split; [assumption|]). intros i j Hp.
  destruct (S i j) as (A & B & D); [unfold place in *; rewrite F5, F6 in Hp; exact Hp|]. destruct (F8 i j) as (J1 & J2 & J3 & _). repeat split; congruence.
Qed.
Lemma fr_able : forall k, fr_shape k -> capable fr_env k /\ worker_ok g22 fr_env /\ (forall i j, place k i j -> placed (k_sol k i j)) /\ hxc_available g22 fr_env k.
Proof.
  intros k (P & C & L & OS & OF & S). split; [|split; [|split]].
  - intros it i j s Hp (S1 & S2 & S3 & S4). destruct (S i j Hp) as (M & PP & N). rewrite S3, N. split; [lra|].
    eexists 1%nat, _, _. split; [reflexivity|]. rewrite S1, S2, M, PP. unfold shell_size. simpl. lra.
  - intros it s r E. injection E as <-. cbn [snd]. intros. apply g22_int_pos. intros. apply pow_lt, fr_orb_pos.
  - intros i j Hp. destruct (S i j Hp) as (M & PP & N). split; [rewrite N; lra|]. right. exists 1%nat. rewrite M, PP, N. unfold shell_size. simpl. lra.
  - right. intros n. rewrite P, OF. do 3 eexists. split; [reflexivity|]. split; [reflexivity|]. reflexivity.
Qed.
Lemma fr_capable : forall k, fr_object k -> capable fr_env k /\ worker_ok g22 fr_env /\ (forall i j, place k i j -> placed (k_sol k i j)) /\ hxc_available g22 fr_env k.
Proof. intros k H. apply fr_able, (fr_shape_of k k H), frame_refl. Qed.
(** One electron in one orbital. *)
Lemma fr_solved : forall s p, s_m s = 0%Z -> s_pol s = 2%nat -> s_N s = 1 -> eks_of (set_result s ((1%nat, fun _ => -1), Some (1%nat, p))) = -1 /\
  exists K, forall x, dens g22 (set_result s ((1%nat, fun _ => -1), Some (1%nat, p))) x = K * p 0%nat x ^ 2.
Proof.
  intros s p M PP NN. split.
  - unfold eks_of, calc_eks, nocc, shell_scale, set_result. cbn [s_m s_pol s_N s_frac s_eig]. rewrite M, PP, NN. cbn [Z.eqb Nat.eqb]. replace (floorZ 1) with 1%Z by (symmetry; apply (floorZ_IZR 1)). replace (1 - 1) with 0 by ring. unfold nonzero. destruct (Req_EM_T 0 0); [|lra]. rewrite andb_false_r. change (Z.to_nat 1) with 1%nat. cbn [eks_loop bind]. unfold eig_at. cbn [s_eig snd fst]. change (pyidx 1 (Z.of_nat 0)) with (Ok 0%nat). cbn [bind]. ring.
  - set (s' := set_result s _). destruct (calc_density_ok g22 s' 1 p) as (n & E & D); [unfold s', set_result; cbn [s_N]; lra|reflexivity| |].
    + intros i F. unfold filling, aufbau, s', set_result in F. cbn [s_frac s_N s_m s_pol] in F. rewrite M, PP, NN in F. unfold shell_size in F. cbn [Z.eqb Nat.eqb] in F. replace (1 / (1 * 1)) with 1 in F by field.
      destruct i as [|i]; [lia|]. exfalso. rewrite S_INR in F. pose proof (pos_INR i). destruct (s_frac s).
      * rewrite (Rmax_left 0) in F by lra. unfold Rmin in F. destruct (Rle_dec 1 0); lra.
      * destruct (Rle_dec _ 1); lra.
    + unfold dens. rewrite E. unfold textbook_density in D. cbn [sumR] in D. eexists. intros x. rewrite D. unfold Rdiv. rewrite Rplus_0_l. rewrite (Rmult_comm (p 0%nat x ^ 2)). rewrite <- Rmult_assoc. reflexivity.
Qed.

Section Fr.
  Variables (o : scfopt) (sched : Z -> list (nat * nat)) (k : ks).
  Hypotheses (KO : fr_object k) (HF : so_flip o = false) (HC : so_cont o = true -> forall n j, k_n k = Some n -> (j < 2)%nat -> integrate1 g22 (fun x => n x j) = 1).
  Lemma fr_electrons : forall j, (j < 2)%nat -> electrons k j = 1.
  Proof. intros j Hj. destruct KO as (_ & P & C & L & _ & _ & _ & _ & _ & S). unfold electrons. rewrite L. cbn [sumR]. rewrite (proj2 (proj2 (S 0%nat j ltac:(split; lia)))). ring. Qed.
  Lemma fr_count : forall st, scf_trace g22 fr_env o sched k st -> exists n, k_n (c_ks st) = Some n /\ forall j, (j < 2)%nat -> integrate1 g22 (fun x => n x j) = 1.
  Proof.
    intros st T. destruct (fr_capable k KO) as (_ & C2 & C3 & _). pose proof KO as (_ & P & C & L & OS & _). destruct (trace_count g22 fr_env o sched k C2 ltac:(congruence) C3 HF ltac:(intros Q m j M Hj; rewrite C in Hj; rewrite (HC Q m j M Hj), fr_electrons by exact Hj; reflexivity) st T) as (n & N & CT).
    exists n. split; [exact N|]. intros j Hj. rewrite CT by (rewrite C; exact Hj). apply fr_electrons, Hj.
  Qed.
  Lemma fr_hxc : forall q k1 vh, frame k q -> calc_hxc_potential g22 fr_env q = Ok k1 -> k_vhxc k1 = Some vh -> forall x s, (s < 2)%nat -> vh x s = 2.
  Proof.
    intros q k1 vh F B1 B3 x s Hs. pose proof KO as (ZZ & P & C & L & OS & OI & OF & OV & VN & S).
    apply hxc_inv in B1. destruct B1 as (V & v & -> & [(Z & _)|(_ & m & xx & cc & hh & _ & X1 & X2 & X3 & X4)]); [destruct F as (F & _); congruence|]. cbn [set_vhxc set_EV k_vhxc] in B3.
    assert (OS' : o_sym (k_opt q) = false) by (destruct F as (-> & _); exact OS). rewrite OS' in B3. injection B3 as <-. rewrite X4.
    assert (OF' : o_fam (k_opt q) = "lda"%string) by (destruct F as (-> & _); exact OF). assert (P' : k_pol q = 2%nat) by (destruct F as (_ & _ & _ & -> & _); exact P).
    rewrite OF', P' in X1, X2. injection X1 as <-. injection X2 as <-. rewrite P' in X3. unfold v_hartree in X3. change ((bcN g22 =? 0)%nat || (Nr g22 <? bcN g22)%nat)%bool with false in X3. cbv iota zeta in X3. change ((2 =? 0)%nat) with false in X3. cbv iota in X3. injection X3 as <-.
    cbn [snd xc_vrho entry fr_env e_spU]. destruct s as [|[|s]]; [cbn; ring|cbn; ring|lia].
  Qed.
  (** The density of spin 0 that the solvers deliver. *)
  Lemma fr_density : forall q q' it dif l n, frame k q -> ks_density g22 fr_env it dif l q = Ok (q', n) -> exists K, K <> 0 /\ forall x, n x 0%nat = K * fr_orb (s_veff (k_sol q 0%nat 0%nat)) x ^ 2.
  Proof.
    intros q q' it dif l n F D. pose proof KO as (ZZ & P & C & L & OS & OI & OF & OV & VN & S). destruct (fr_capable k KO) as (_ & C2 & C3 & _).
    assert (CO : integrate1 g22 (fun x => n x 0%nat) = 1). { rewrite (out_count g22 fr_env k C2 ltac:(congruence) C3 q _ _ _ _ _ 0%nat F D) by (rewrite C; lia). apply fr_electrons. lia. }
    apply density_inv in D. destruct D as (sol & n0 & -> & W & _ & SD & NO). pose proof F as (F1 & _ & _ & F4 & F5 & F6 & _ & F8). rewrite F1, OS in NO. subst n0. apply sum_dens_spec in SD. destruct SD as (_ & SD).
    assert (Hp : place k 0 0) by (split; lia). destruct (W 0%nat 0%nat) as (r & Q1 & Q2); [unfold place; rewrite F5, F6; exact Hp|]. injection Q1 as <-. destruct (S 0%nat 0%nat Hp) as (M & PP & NN). destruct (F8 0%nat 0%nat) as (J1 & J2 & J3 & _).
    destruct (fr_solved (k_sol q 0%nat 0%nat) (fun _ => fr_orb (s_veff (k_sol q 0%nat 0%nat))) ltac:(congruence) ltac:(congruence) ltac:(congruence)) as (_ & K & HK).
    assert (E : forall x, n x 0%nat = K * fr_orb (s_veff (k_sol q 0%nat 0%nat)) x ^ 2). { intros x. rewrite SD, F5, F6, L, C. cbn [Nat.ltb Nat.leb sumR]. rewrite Q2, HK. ring. }
    exists K. split; [|exact E]. intros Z. rewrite (integrate1_ext g22 _ (fun _ => 0)), integrate1_zero in CO by (intros; rewrite E, Z; ring). lra.
  Qed.
  Lemma fr_guess : so_cont o = false -> forall k0, scf_start g22 fr_env o (sched 0%Z) k = Ok k0 -> exists n0, k_n k0 = Some n0 /\ n0 0%nat 0%nat <> 0 /\ n0 1%nat 0%nat = n0 0%nat 0%nat.
  Proof.
    intros HC0 k0 S0. destruct (start_guess g22 fr_env o sched k HC0 k0 S0) as (k1 & k2 & n0 & (G1 & G2 & G3) & _ & _ & N & _). exists n0. split; [exact N|].
    destruct (fr_density _ _ _ _ _ _ G1 G3) as (K & KN & HK). pose proof KO as (ZZ & P & C & L & OS & OI & OF & OV & VN & S). assert (Z : s_veff (k_sol k1 0%nat 0%nat) 0%nat = 0).
    { rewrite G2 by (split; lia). rewrite VN. rewrite OV. ring. }
    rewrite !HK. unfold fr_orb. rewrite Z. destruct (Req_EM_T 0 0); [|lra]. split; [|reflexivity]. intros Q. apply KN. lra.
  Qed.
  Lemma fr_delivered : forall st k1 it dif l vh nout, scf_trace g22 fr_env o sched k st -> calc_hxc_potential g22 fr_env (c_ks st) = Ok k1 -> k_vhxc k1 = Some vh -> delivered g22 fr_env it dif l (c_ks st) (outer k) vh nout ->
    nout 0%nat 0%nat <> 0 /\ nout 1%nat 0%nat = 4 * nout 0%nat 0%nat.
  Proof.
    intros st k1 it dif l vh nout T H1 H2 (k2 & k3 & F & V & D). pose proof (trace_frame _ _ _ _ _ _ T) as (F0 & _). destruct (fr_density _ _ _ _ _ _ (frame_trans _ _ _ F0 F) D) as (K & KN & HK).
    pose proof KO as (ZZ & P & C & L & OS & OI & OF & OV & VN & S). assert (Z : s_veff (k_sol k2 0%nat 0%nat) 0%nat = 2).
    { destruct F0 as (I1 & I2 & I3 & I4 & I5 & I6 & I7 & I8). rewrite V by (split; lia). rewrite I7, VN, (fr_hxc (c_ks st) k1 vh) by (auto; repeat (split; [assumption|]); exact I8). rewrite OV. ring. }
    rewrite !HK. unfold fr_orb. rewrite Z. destruct (Req_EM_T 2 0); [lra|]. cbn [Nat.eqb]. split; [intros Q; apply KN; lra|ring].
  Qed.
  (** A pass: the potential is 2 everywhere, the energy -2, the delivered orbital is the second one. *)
  Lemma fr_pass : forall st st', scf_trace g22 fr_env o sched k st -> scf_body g22 fr_env o (sched (c_iter st)) st = Ok st' -> scf_trace g22 fr_env o sched k st' -> c_oldE st' = Fin (-2).
  Proof.
    intros st st' T B T'. destruct (fr_count st' T') as (n' & N' & CT). pose proof KO as (ZZ & P & C & L & OS & OI & OF & OV & VN & S).
    pose proof (trace_frame _ _ _ _ _ _ T) as (F & _). pose proof (trace_vext _ _ _ _ _ _ T) as VX. rewrite OV in VX.
    destruct (fr_capable k KO) as (_ & C2 & C3 & _).
    apply KSLoop.body_inv in B. destruct B as (_ & k1 & ve & vh & sol & k3 & nout & n & k4 & k5 & E & r & B1 & B2 & B3 & B4 & B5 & B6 & B7 & B8 & B9 & B10 & ->). cbn [c_oldE c_ks] in *. rewrite HF in *. f_equal.
    destruct (hxc_frame _ _ _ _ B1) as (F1 & _ & V1 & _). assert (ve = fun _ _ => 0) by congruence. subst ve. pose proof (frame_trans _ _ _ F F1) as G1.
    pose proof (fr_hxc _ _ _ F B1 B3) as VH.
    pose proof (distribute_scf_static _ _ _ B4) as DS. apply distribute_scf_ok in B4. destruct B4 as (B4 & _).
    set (q := set_sol (set_veffs k1 (Some (add3 (k_vnuc k1) (fun _ _ => 0) vh))) sol) in *.
    assert (FQ : frame k q). { eapply frame_trans; [exact G1|]. repeat (split; [reflexivity|]). exact DS. }
    pose proof B5 as B5'. apply density_inv in B5'. destruct B5' as (s3 & m3 & -> & W & _ & SD & NO).
    assert (OQ : o_sym (k_opt q) = false) by (destruct FQ as (-> & _); exact OS). rewrite OQ in NO. subst m3.
    assert (CO : forall j, (j < 2)%nat -> integrate1 g22 (fun x => nout x j) = 1).
    { intros j Hj. rewrite (out_count g22 fr_env k C2 ltac:(congruence) C3 q _ _ _ _ _ j FQ B5) by (rewrite C; exact Hj). apply fr_electrons, Hj. }
    set (K := set_n (set_sol q s3) (Some (mixed o n nout))) in *.
    assert (KP : k_pol K = 2%nat /\ k_lv K = 1%nat /\ k_cols K = 2%nat /\ k_vnuc K = k_vnuc k /\ k_opt K = k_opt k /\ k_Za K = k_Za k /\ k_Zb K = k_Zb k).
    { destruct FQ as (J1 & J2 & J3 & J4 & J5 & J6 & J7 & _). unfold K. cbn [set_n set_sol k_pol k_lv k_cols k_vnuc k_opt k_Za k_Zb]. repeat split; congruence. }
    destruct KP as (K1 & K2 & K3 & K4 & K5 & K6 & K7).
    pose proof (double_counting g22 K nout (fun _ _ => 0) (fun _ s => if (s <? 2)%nat then 2 else 0)) as DC.
    assert (I0 : forall m v, (forall x s, v x s = 0) -> interaction g22 2 m v = 0).
    { intros m v Hv. unfold interaction. apply sumR_zero. intros s _. rewrite (integrate1_ext g22 _ (fun _ => 0)); [apply integrate1_zero|]. intros x _. rewrite Hv. ring. }
    assert (KE : kinetic g22 K = -6).
    { rewrite K1, K4 in DC. rewrite (I0 nout (k_vnuc k) VN), (I0 nout (fun _ _ => 0)) in DC by reflexivity. rewrite K2, K3 in DC. cbn [sumR] in DC.
      assert (I2 : interaction g22 2 nout (fun _ s => if (s <? 2)%nat then 2 else 0) = 4).
      { unfold interaction. cbn [sumR Nat.ltb Nat.leb]. rewrite !(integrate1_ext g22 (fun x => nout x _ * 2) (fun x => 2 * nout x _)) by (intros; ring). rewrite !integrate1_scal, !CO by lia. ring. }
      assert (EK : forall j, (j < 2)%nat -> eks_of (k_sol K 0%nat j) = -1).
      { intros j Hj. unfold K. cbn [set_n set_sol k_sol]. assert (Hp : place k 0 j) by (split; lia). destruct (W 0%nat j) as (r0 & Q1 & ->); [destruct FQ as (_ & _ & _ & _ & J5 & J6 & _); unfold place in *; rewrite J5, J6; exact Hp|].
        injection Q1 as <-. destruct (S 0%nat j Hp) as (M & PP & NN). destruct FQ as (_ & _ & _ & _ & _ & _ & _ & J). destruct (J 0%nat j) as (J1 & J2 & J3 & _). apply fr_solved; congruence. }
      rewrite I2, !EK in DC by lia. rewrite Rplus_0_r in DC. rewrite DC; [ring|reflexivity| |exact SD].
      intros i j (Hi & Hj) x Hx. rewrite K2 in Hi. rewrite K3 in Hj. unfold K. cbn [set_n set_sol k_sol]. assert (Hp : place k i j) by (split; lia).
      destruct (W i j) as (r0 & Q1 & ->); [destruct FQ as (_ & _ & _ & _ & J5 & J6 & _); unfold place in *; rewrite J5, J6; exact Hp|]. cbn [set_result s_veff]. unfold q. cbn [set_sol k_sol].
      destruct (B4 i j) as (_ & ->); [destruct G1 as (_ & _ & _ & _ & J5 & J6 & _); unfold place in *; rewrite J5, J6; exact Hp|]. cbn [set_veff s_veff]. unfold add3. rewrite VH by lia. destruct G1 as (_ & _ & _ & _ & _ & _ & -> & _).
      replace (j <? 2)%nat with true by (symmetry; apply Nat.ltb_lt; lia). reflexivity. }
    pose proof B7 as B7'. apply energy_inv in B7. destruct B7 as (E' & m & ve2 & X1 & X2 & _ & _ & _ & _ & _ & _ & X3 & _ & X4 & X5).
    apply chempot_keep in B8. destruct B8 as (u & ->). cbn [set_u k_E] in B9. rewrite X1 in B9. injection B9 as <-.
    unfold K in X2. cbn [set_n k_n] in X2. injection X2 as <-.
    destruct X5 as [(X5 & _)|(_ & vx & vh2 & Ex & ex & vex & Ec & ec & vc & Eh & _ & _ & Y3 & Y4 & Y5 & _ & Y7 & Y8 & _)]; [rewrite K5 in X5; congruence|].
    rewrite Y8. f_equal. rewrite KE, X3, X4, K1, K4, K6, K7, ZZ, I0 by exact VN. rewrite K1, K5, OF in Y4, Y5. rewrite K1 in Y3, Y7.
    assert (MN : forall j, (j < 2)%nat -> integrate1 g22 (fun x => mixed o n nout x j) = 1).
    { unfold K in N'. cbn [set_u k_n] in N'. pose proof (energy_keep _ _ _ _ B7') as (EE & VV & KK). rewrite KK in N'. cbn [set_EV set_n k_n] in N'. injection N' as <-. exact CT. }
    assert (ZX : integrate1 g22 (sum_cols 2 (fun x s => 1 * mixed o n nout x s)) = 2).
    { rewrite (integrate1_ext g22 _ (fun x => mixed o n nout x 0%nat + mixed o n nout x 1%nat)) by (intros; unfold sum_cols; cbn [sumR]; ring). rewrite integrate1_plus, !MN by lia. ring. }
    injection Y4 as Y4 _ _. injection Y5 as Y5 _ _. cbn [xc_zk] in Y4, Y5. rewrite ZX in Y4, Y5. subst Ex Ec.
    assert (HE : Eh = 0).
    { unfold v_hartree in Y3. change ((bcN g22 =? 0)%nat || (Nr g22 <? bcN g22)%nat)%bool with false in Y3. cbv iota zeta in Y3. change ((2 =? 0)%nat) with false in Y3. cbv iota in Y3. injection Y3 as <-. rewrite Y7.
      rewrite (integrate1_ext g22 _ (fun _ => 0)); [rewrite integrate1_zero; ring|]. intros x _. cbn [entry fr_env e_spU Nat.eqb]. ring. }
    rewrite HE. unfold Rdiv. ring.
  Qed.
  Lemma fr_amount : so_cont o = false -> forall n, (0 <= so_alpha o <= 1) -> (exists st, scf_trace g22 fr_env o sched k st /\ k_n (c_ks st) = Some n) -> forall s, (s < 2)%nat -> 0 < amount g22 n s.
  Proof.
    intros HC0 n HAL (st & T & N) s Hs. destruct (fr_capable k KO) as (_ & C2 & C3 & _). destruct (trace_nonneg g22 fr_env o sched k C2 C3 HAL ltac:(congruence) _ T) as (n' & N' & NN). assert (n' = n) by congruence. subst n'.
    destruct (fr_count st T) as (n' & N2 & CT). assert (n' = n) by congruence. subst n'. unfold amount. rewrite (integrate1_ext g22 _ (fun x => n x s)) by (intros x Hx; apply Rabs_pos_eq, NN, Hx). rewrite CT by exact Hs. lra.
  Qed.
End Fr.
Lemma fr_runs : forall k l d o, fr_shape k -> schedule k l -> scf_options d = Ok o -> so_auto o = false -> (so_cont o = true -> k_n k <> None) -> exists st, ks_scf g22 fr_env (fun _ => l) d k = Ok st.
Proof.
  intros k l d o KO SC O HA HC. destruct (fr_able k KO) as (C1 & C2 & C3 & C4). pose proof KO as (P & C & L & OS & OF & S).
  edestruct (scf_total g22 fr_env k) with (sched := fun _ : Z => l) (d := d) as (st & E); try eassumption; try (intros _; exact SC); try (rewrite ?g22_n; lia). eauto.
Qed.
Lemma first_pass : forall g w o sched k st, scf_trace g w o sched k st -> scf_test o st = Ok false -> so_tol o < 10 -> (2 <= so_maxiter o)%Z -> (2 <= c_iter st)%Z.
Proof.
  intros g w o sched k st T X HT HM. destruct T as [kk SS|a b Ta Te B].
  - exfalso. unfold scf_test in X. cbn [c_diff c_iter gtb] in X. destruct (Rlt_dec (so_tol o) 10); [|lra]. injection X as X. apply Z.ltb_ge in X. lia.
  - pose proof (body_frame _ _ _ _ _ _ B) as (_ & J & _). pose proof (trace_bound _ _ _ _ _ _ Ta). lia.
Qed.
(** Mixing factor 0. *)
Definition fr_zero : dict := [("alpha"%string, VR 0)].
Theorem fr_zero_run : exists k st o k0 n, ks_init g22 0 0 2 1 2 (fun _ _ => 1%nat) 1 2 ex_N ex_opt = Ok k /\ ks_scf g22 fr_env (fun _ => keys k) fr_zero k = Ok st /\ scf_options fr_zero = Ok o /\ steady g22 fr_env /\
  so_flip o = false /\ k_pol k = 2%nat /\ scf_start g22 fr_env o (keys k) k = Ok k0 /\ k_n k0 = Some n /\ so_alpha o = 0 /\ (forall s, (s < 2)%nat -> 0 < amount g22 n s) /\
  0 <= so_tol o < 1 /\ so_maxiter o = 100%Z /\ c_oldE st = Fin (-2) /\
  forall st0 k1 it dif l vh nout, scf_trace g22 fr_env o (fun _ => keys k) k st0 -> calc_hxc_potential g22 fr_env (c_ks st0) = Ok k1 -> k_vhxc k1 = Some vh -> delivered g22 fr_env it dif l (c_ks st0) (outer k) vh nout ->
    exists x, (x < Nelem g22)%nat /\ nout x 0%nat <> n x 0%nat.
Proof.
  destruct fr_init as (k & KI). pose proof (fr_static k KI) as KO. assert (O : exists o, scf_options fr_zero = Ok o) by (eexists; reflexivity). destruct O as (o & O). pose proof O as O'. injection O' as OE.
  assert (OA : so_alpha o = 0) by (rewrite <- OE; reflexivity). assert (OF : so_flip o = false) by (rewrite <- OE; reflexivity). assert (OC : so_cont o = false) by (rewrite <- OE; reflexivity). assert (OU : so_auto o = false) by (rewrite <- OE; reflexivity).
  assert (OM : so_maxiter o = 100%Z) by (rewrite <- OE; reflexivity). assert (OT : so_tol o = 1 / 100000) by (rewrite <- OE; cbn [so_tol]; change (10 * / 10 ^ 6 = 1 / 100000); field).
  destruct (fr_runs k (keys k) fr_zero o (fr_shape_of k k KO (frame_refl k)) (keys_schedule k) O OU ltac:(congruence)) as (st & E). destruct (scf_inv _ _ _ _ _ _ E) as (o' & O' & T & X). rewrite O in O'. injection O' as <-.
  assert (S0 : exists k0, scf_start g22 fr_env o (keys k) k = Ok k0) by (clear - T; induction T; eauto). destruct S0 as (k0 & S0). destruct (fr_guess o (fun _ => keys k) k KO OC k0 S0) as (n & N & N1 & N2).
  exists k, st, o, k0, n. repeat (split; [assumption|]). split; [exact fr_steady|]. split; [assumption|]. split; [apply KO|]. repeat (split; [assumption|]).
  split. { apply (fr_amount o (fun _ => keys k) k KO OF ltac:(congruence) OC); [lra|]. exists (mkSt k0 (Fin 10) (Fin 0) (fun _ _ => 0) 1%Z). split; [apply trace_start; exact S0|exact N]. }
  split; [lra|]. split; [exact OM|]. split.
  - pose proof (first_pass _ _ _ _ _ _ T X ltac:(lra) ltac:(lia)) as I2. destruct T as [kk SS|a b Ta Te B]; [cbn in I2; lia|]. apply (fr_pass o (fun _ => keys k) k KO OF ltac:(congruence) a b Ta B). eapply trace_step; eauto.
  - intros st0 k1 it dif l vh nout T0 H1 H2 D. destruct (fr_delivered o (fun _ => keys k) k KO st0 k1 it dif l vh nout T0 H1 H2 D) as (D1 & D2). rewrite g22_n.
    destruct (Req_EM_T (nout 0%nat 0%nat) (n 0%nat 0%nat)) as [Q|Q]; [|exists 0%nat; split; [lia|exact Q]]. exists 1%nat. split; [lia|]. rewrite D2, N2, Q. intros Q'. lra.
Qed.
(** Interrupted after one pass and continued, against an uninterrupted run of two passes. *)
Theorem fr_continued : exists k d d1 d2 o o1 o2 st s t k0 n0 n, ks_init g22 0 0 2 1 2 (fun _ _ => 1%nat) 1 2 ex_N ex_opt = Ok k /\ ks_scf g22 fr_env (fun _ => keys k) d k = Ok st /\ ks_scf g22 fr_env (fun _ => keys k) d1 k = Ok s /\
  ks_scf g22 fr_env (fun _ => keys (c_ks s)) d2 (c_ks s) = Ok t /\ scf_options d = Ok o /\ scf_options d1 = Ok o1 /\ scf_options d2 = Ok o2 /\ steady g22 fr_env /\ same_rule o o1 /\ same_rule o o2 /\ so_cont o1 = so_cont o /\ so_cont o2 = true /\
  c_iter st = 3%Z /\ c_iter s = 2%Z /\ c_iter t = 2%Z /\ scf_start g22 fr_env o (keys k) k = Ok k0 /\ k_n k0 = Some n0 /\ n0 1%nat 0%nat = n0 0%nat 0%nat /\ k_n (c_ks s) = Some n /\ n 1%nat 0%nat <> n 0%nat 0%nat.
Proof.
  destruct fr_init as (k & KI). pose proof (fr_static k KI) as KO. set (d := [("maxiter"%string, VZ 3)]). set (d1 := [("maxiter"%string, VZ 2)]). set (d2 := [("maxiter"%string, VZ 2); ("continuing"%string, VB true); ("iterative"%string, VB false)]).
  assert (O : exists o, scf_options d = Ok o) by (eexists; reflexivity). destruct O as (o & O). pose proof O as OE. injection OE as OE.
  assert (O1 : exists o, scf_options d1 = Ok o) by (eexists; reflexivity). destruct O1 as (o1 & O1). pose proof O1 as OE1. injection OE1 as OE1.
  assert (O2 : exists o, scf_options d2 = Ok o) by (eexists; reflexivity). destruct O2 as (o2 & O2). pose proof O2 as OE2. injection OE2 as OE2.
  assert (T0 : 10 * / 10 ^ 6 = 1 / 100000) by field.
  assert (Q : so_alpha o = 1 / 2 /\ so_flip o = false /\ so_cont o = false /\ so_auto o = false /\ so_maxiter o = 3%Z /\ so_tol o = 10 * / 10 ^ 6) by (rewrite <- OE; repeat split; reflexivity). destruct Q as (A1 & A2 & A3 & A4 & A5 & A6). rewrite T0 in A6.
  assert (Q : so_alpha o1 = 1 / 2 /\ so_flip o1 = false /\ so_cont o1 = false /\ so_auto o1 = false /\ so_maxiter o1 = 2%Z /\ so_tol o1 = 10 * / 10 ^ 6) by (rewrite <- OE1; repeat split; reflexivity). destruct Q as (B1 & B2 & B3 & B4 & B5 & B6). rewrite T0 in B6.
  assert (Q : so_alpha o2 = 1 / 2 /\ so_flip o2 = false /\ so_cont o2 = true /\ so_auto o2 = false /\ so_maxiter o2 = 2%Z /\ so_tol o2 = 10 * / 10 ^ 6) by (rewrite <- OE2; repeat split; reflexivity). destruct Q as (C1 & C2 & C3 & C4 & C5 & C6). rewrite T0 in C6.
  clear OE OE1 OE2.
  destruct (fr_runs k (keys k) d o (fr_shape_of k k KO (frame_refl k)) (keys_schedule k) O A4 ltac:(congruence)) as (st & E).
  destruct (fr_runs k (keys k) d1 o1 (fr_shape_of k k KO (frame_refl k)) (keys_schedule k) O1 B4 ltac:(congruence)) as (s & E1).
  destruct (scf_inv _ _ _ _ _ _ E) as (o' & O' & T & X). rewrite O in O'. injection O' as <-. destruct (scf_inv _ _ _ _ _ _ E1) as (o' & O' & T1 & X1). rewrite O1 in O'. injection O' as <-.
  pose proof (trace_frame _ _ _ _ _ _ T1) as (F1 & _ & n & N).
  destruct (fr_runs (c_ks s) (keys (c_ks s)) d2 o2 (fr_shape_of k _ KO F1) (keys_schedule _) O2 C4 ltac:(congruence)) as (t & E2).
  destruct (scf_inv _ _ _ _ _ _ E2) as (o' & O' & T2 & X2). rewrite O2 in O'. injection O' as <-.
  assert (I1 : c_iter s = 2%Z). { pose proof (first_pass _ _ _ _ _ _ T1 X1 ltac:(lra) ltac:(lia)). pose proof (trace_bound _ _ _ _ _ _ T1). lia. }
  assert (I2 : c_iter t = 2%Z). { pose proof (first_pass _ _ _ _ _ _ T2 X2 ltac:(lra) ltac:(lia)). pose proof (trace_bound _ _ _ _ _ _ T2). lia. }
  assert (I : c_iter st = 3%Z).
  { pose proof (first_pass _ _ _ _ _ _ T X ltac:(lra) ltac:(lia)) as L. pose proof (trace_bound _ _ _ _ _ _ T). destruct (Z.eq_dec (c_iter st) 3) as [|N3]; [assumption|exfalso]. assert (I : c_iter st = 2%Z) by lia.
    destruct (fr_count o _ k KO A2 ltac:(congruence) st T) as (m & M & _). pose proof (fr_amount o _ k KO A2 ltac:(congruence) A3 m ltac:(lra) (ex_intro _ st (conj T M))) as AM. pose proof T as T'. destruct T as [kk SS|a b Ta Te B]; [cbn in I; lia|].
    pose proof (fr_pass o _ k KO A2 ltac:(congruence) a b Ta B T') as EN. destruct (ks_pass _ _ _ _ _ _ A2 B) as (q1 & m0 & m' & nout & ve & vh & _ & M2 & _ & _ & _ & _ & _ & _ & RR). assert (m' = m) by congruence. subst m'.
    pose proof (body_frame _ _ _ _ _ _ B) as (_ & J & _). destruct Ta as [kk SS|a0 a Ta0 Te0 B0]; [|pose proof (trace_bound _ _ _ _ _ _ Ta0); pose proof (body_frame _ _ _ _ _ _ B0) as (_ & J0 & _); lia].
    cbn [c_ks c_oldE c_oldn] in RR. destruct (start_inv _ _ _ _ _ _ SS) as ((_ & _ & _ & FP & _) & _). destruct KO as (_ & P & _). rewrite FP, P, EN, (diff_one g22 (-2) m) in RR; [|rewrite g22_n; lia|lra|exact AM].
    injection RR as RR. unfold scf_test in X. rewrite <- RR, I, A5 in X. cbn [gtb] in X. destruct (Rlt_dec (so_tol o) 1); [discriminate|lra]. }
  assert (S0 : exists k0, scf_start g22 fr_env o (keys k) k = Ok k0) by (clear - T; induction T; eauto). destruct S0 as (k0 & S0). destruct (fr_guess o (fun _ => keys k) k KO A3 k0 S0) as (n0 & N0 & _ & N1).
  exists k, d, d1, d2, o, o1, o2, st, s, t, k0, n0, n. repeat (split; [assumption|]). split; [exact fr_steady|]. split; [split; congruence|]. split; [split; congruence|]. repeat (split; [congruence|]).
  (* the density of the first pass *)
  destruct T1 as [kk SS|a b Ta Te B]; [cbn in I1; lia|]. pose proof (body_frame _ _ _ _ _ _ B) as (_ & J & _).
  destruct (ks_pass _ _ _ _ _ _ B2 B) as (q1 & m0 & m' & nout & ve & vh & M1 & M2 & _ & M4 & M5 & M6 & M7 & M8 & _). assert (m' = n) by congruence. subst m'.
  assert (ve = outer k) by (rewrite (trace_vext _ _ _ _ _ _ Ta) in M5; congruence). subst ve.
  destruct (fr_delivered o1 _ k KO a q1 _ _ _ vh nout Ta M4 M6 M7) as (D1 & D2).
  destruct Ta as [kk SS|a0 a Ta0 Te0 B0]; [|pose proof (trace_bound _ _ _ _ _ _ Ta0); pose proof (body_frame _ _ _ _ _ _ B0) as (_ & J0 & _); lia].
  destruct (fr_guess o1 (fun _ => keys k) k KO B3 kk SS) as (m1 & K1 & _ & K2). cbn [c_ks] in M1. assert (m1 = m0) by congruence. subst m1. rewrite !M8, B1, K2, D2. intros Z. lra.
Qed.
(** With mixing factor 1 one pass reaches the density that reproduces itself; the call that continues from it stays there. *)
Theorem fr_settled : exists k d d1 s q o n st, ks_init g22 0 0 2 1 2 (fun _ _ => 1%nat) 1 2 ex_N ex_opt = Ok k /\ ks_scf g22 fr_env (fun _ => keys k) d1 k = Ok s /\ q = c_ks s /\
  ks_scf g22 fr_env (fun _ => keys q) d q = Ok st /\ scf_options d = Ok o /\ steady g22 fr_env /\ so_flip o = false /\ k_pol q = 2%nat /\ (exists k0, scf_start g22 fr_env o (keys q) q = Ok k0 /\ k_n k0 = Some n) /\
  so_alpha o = 1 / 2 /\ self_consistent g22 fr_env q n /\ (forall s, (s < 2)%nat -> 0 < amount g22 n s) /\ 0 <= so_tol o < 1 /\ so_maxiter o = 100%Z /\ c_oldE st = Fin (-2) /\ n 1%nat 0%nat <> n 0%nat 0%nat.
Proof.
  destruct fr_init as (k & KI). pose proof (fr_static k KI) as KO. set (d1 := [("maxiter"%string, VZ 2); ("alpha"%string, VR 1)]). set (d := [("continuing"%string, VB true)]).
  assert (O : exists o, scf_options d = Ok o) by (eexists; reflexivity). destruct O as (o & O). pose proof O as OE. injection OE as OE.
  assert (O1 : exists o, scf_options d1 = Ok o) by (eexists; reflexivity). destruct O1 as (o1 & O1). pose proof O1 as OE1. injection OE1 as OE1.
  assert (T0 : 10 * / 10 ^ 6 = 1 / 100000) by field.
  assert (Q : so_alpha o = 1 / 2 /\ so_flip o = false /\ so_cont o = true /\ so_auto o = false /\ so_maxiter o = 100%Z /\ so_tol o = 10 * / 10 ^ 6) by (rewrite <- OE; repeat split; reflexivity). destruct Q as (A1 & A2 & A3 & A4 & A5 & A6). rewrite T0 in A6.
  assert (Q : so_alpha o1 = 1 /\ so_flip o1 = false /\ so_cont o1 = false /\ so_auto o1 = false /\ so_maxiter o1 = 2%Z /\ so_tol o1 = 10 * / 10 ^ 6) by (rewrite <- OE1; repeat split; reflexivity). destruct Q as (B1 & B2 & B3 & B4 & B5 & B6). rewrite T0 in B6.
  clear OE OE1. destruct (fr_runs k (keys k) d1 o1 (fr_shape_of k k KO (frame_refl k)) (keys_schedule k) O1 B4 ltac:(congruence)) as (s & E1).
  destruct (scf_inv _ _ _ _ _ _ E1) as (o' & O' & T1 & X1). rewrite O1 in O'. injection O' as <-. pose proof (trace_frame _ _ _ _ _ _ T1) as (F1 & _ & n & N).
  assert (I1 : c_iter s = 2%Z). { pose proof (first_pass _ _ _ _ _ _ T1 X1 ltac:(lra) ltac:(lia)). pose proof (trace_bound _ _ _ _ _ _ T1). lia. }
  destruct (fr_runs (c_ks s) (keys (c_ks s)) d o (fr_shape_of k _ KO F1) (keys_schedule _) O A4 ltac:(congruence)) as (st & E).
  pose proof (fr_amount o1 _ k KO B2 ltac:(congruence) B3 n ltac:(lra) (ex_intro _ s (conj T1 N))) as AM. pose proof (trace_vext _ _ _ _ _ _ T1) as VX. assert (OV : outer k = fun _ _ => 0) by apply KO.
  assert (KS : fr_object (c_ks s)).
  { destruct KO as (K1 & K2 & K3 & K4 & K5 & K6 & K7 & K8 & K9 & K10). destruct F1 as (L1 & L2 & L3 & L4 & L5 & L6 & L7 & L8). unfold fr_object. rewrite L1, L2, L3, L4, L5, L6, L7. do 7 (split; [assumption|]). split; [unfold outer; rewrite VX; exact OV|]. split; [exact K9|].
    intros i j Hp. unfold place in Hp. rewrite L5, L6 in Hp. destruct (K10 i j Hp) as (Q1 & Q2 & Q3). destruct (L8 i j) as (R1 & R2 & R3 & _). repeat split; congruence. }
  assert (EN : c_oldE st = Fin (-2)).
  { destruct (scf_inv _ _ _ _ _ _ E) as (o' & O' & T & X). rewrite O in O'. injection O' as <-. pose proof (first_pass _ _ _ _ _ _ T X ltac:(lra) ltac:(lia)) as I2. pose proof T as T'. destruct T as [kk SS|a b Ta Te B]; [cbn in I2; lia|].
    destruct (fr_count o1 _ k KO B2 ltac:(congruence) s T1) as (n' & N' & CT). apply (fr_pass o _ (c_ks s) KS A2 ltac:(intros _ m j M Hj; assert (m = n') by congruence; subst m; apply CT, Hj) a b Ta B T'). }
  destruct T1 as [kk SS|a b Ta Te B]; [cbn in I1; lia|]. pose proof (body_frame _ _ _ _ _ _ B) as (FB & J & _). rename b into s.
  destruct (ks_pass _ _ _ _ _ _ B2 B) as (q1 & m0 & m' & nout & ve & vh & M1 & M2 & _ & M4 & M5 & M6 & M7 & M8 & _). assert (m' = n) by congruence. subst m'.
  assert (ve = outer k) by (rewrite (trace_vext _ _ _ _ _ _ Ta) in M5; congruence). subst ve.
  destruct (fr_delivered o1 _ k KO a q1 _ _ _ vh nout Ta M4 M6 M7) as (D1 & D2).
  assert (NE : n = nout) by (apply functional_extensionality; intros x; apply functional_extensionality; intros z; rewrite M8, B1; ring). subst nout.
  exists k, d, d1, s, (c_ks s), o, n, st. repeat (split; [assumption|]). split; [reflexivity|]. split; [exact E|]. split; [exact O|]. split; [exact fr_steady|]. split; [exact A2|]. split; [destruct F1 as (_ & _ & _ & -> & _); apply KO|].
  split; [|split; [exact A1|split; [|split; [exact AM|split; [lra|split; [exact A5|split; [exact EN|rewrite D2; intros Z; lra]]]]]]].
  - unfold scf_start. rewrite A3, N. cbn [need bind]. eexists. split; [reflexivity|exact N].
  - set (q := set_vext (set_n (c_ks s) (Some n)) (Some (outer (c_ks s)))). assert (FQ : frame k q) by (destruct F1 as (G1 & G2 & G3 & G4 & G5 & G6 & G7 & G8); repeat (split; [assumption|]); exact G8).
    assert (HQ : exists k1 vh', calc_hxc_potential g22 fr_env q = Ok k1 /\ k_vhxc k1 = Some vh').
    { destruct (fr_able q (fr_shape_of k q KO FQ)) as (_ & _ & _ & [NI|HX]); [exfalso; destruct FQ as (Q1 & _); rewrite Q1 in NI; destruct KO as (_ & _ & _ & _ & _ & OI & _); rewrite OI in NI; discriminate|].
      destruct (HX n) as (x & c & hh & Y1 & Y2 & Y3). unfold calc_hxc_potential. assert (NI : String.eqb (o_int (k_opt q)) "ni" = false) by (destruct FQ as (-> & _); destruct KO as (_ & _ & _ & _ & _ & -> & _); reflexivity).
      rewrite NI. change (k_n q) with (Some n). cbn [need bind]. rewrite Y1. cbn [bind]. rewrite Y2. cbn [bind]. rewrite Y3. cbn [bind]. do 2 eexists. split; reflexivity. }
    destruct HQ as (k1 & vh' & H1 & H2). do 3 eexists. exists k1, vh'. split; [exact H1|]. split; [exact H2|].
    destruct M7 as (k2 & k3 & G & V & D). exists k2, k3. split; [|split; [|exact D]].
    + destruct FB as (I1' & I2' & I3' & I4' & I5' & I6' & I7' & I8'). destruct G as (J1 & J2 & J3 & J4 & J5 & J6 & J7 & J8). repeat (split; [congruence|]). intros i j. specialize (I8' i j). specialize (J8 i j). unfold same_static in *. intuition congruence.
    + intros i j (Hi & Hj) x. pose proof KO as (_ & P & C & L & _). pose proof FB as (_ & _ & _ & _ & L5 & L6 & L7 & _). destruct F1 as (_ & _ & _ & _ & L5' & L6' & _ & _). assert (Hj' : (j < 2)%nat) by lia.
      rewrite V by (split; lia). rewrite L7. rewrite (fr_hxc k KO q k1 vh' FQ H1 H2) by exact Hj'. rewrite (fr_hxc k KO (c_ks a) q1 vh) by (auto; apply (trace_frame _ _ _ _ _ _ Ta)). f_equal. f_equal. rewrite OV in *. unfold outer. rewrite VX. reflexivity.
Qed.
