(** A case in which Kohnsham.scf does not converge, whatever the mixing factor: two electrons on the 2 x 2 grid that repel each other and whose orbital
    sits at the lower one of two points. *)
From Coq Require Import Reals List Arith Lia Lra ZArith Bool String FunctionalExtensionality.
From Verif Require Import Base BaseLemmas GridModel GridSpec GridProofs HartreeModel SolverModel SolverSpec SolverProofs LibxcModel OptionsModel KSModel KSSpec KSProofs KSThms KSLoop KSEnergy KSTotal SelfConsistent NonInteracting
  GridWitness SolverWitness SolverCases KSWit InverterThms KSMemory KSMemoryWit NCSigns NCSignsThms Gauge LevelBounds Contraction.
Import ListNotations.
Local Open Scope R_scope.
Local Opaque sinh cosh.

(** An orbital with its weight at the point c; the energy lies above the potential; the potential is the density. *)
Definition pp_orb (c x : nat) : R := if (x =? c)%nat then 3 else 1.
Definition pp_side (v : vec) : nat := if Rle_dec (v 0%nat) (v 1%nat) then 0%nat else 1%nat.
Definition pp_top (v : vec) : R := sumR 4 (fun x => Rabs (v x)).
Definition pp_env : env := mkEnv (fun _ s => Some ((1%nat, fun _ => pp_top (s_veff s) + 1), Some (1%nat, fun _ => pp_orb (pp_side (s_veff s)))))
  (fun _ pol => Ok (fun n _ => mkXc (fun _ => 0) (fun x _ => sum_cols pol n x) (fun _ _ => 0))) (fun v => v) (fun _ _ => 0).
Lemma pp_orb_pos : forall c x, 0 < pp_orb c x. Proof. intros. unfold pp_orb. destruct (x =? c)%nat; lra. Qed.
Definition pp_norm (c : nat) : R := norm2 g22 (pp_orb c).
Lemma pp_norm_pos : forall c, 0 < pp_norm c.
Proof. intros. unfold pp_norm, norm2. apply g22_int_pos. intros. apply pow_lt, pp_orb_pos. Qed.
Lemma pp_weights : forall k, (k < Nelem g22)%nat -> 0 < gwi g22 k.
Proof. intros k Hk. rewrite g22_gwi by exact Hk. lra. Qed.
Lemma pp_able : forall k, fr_shape k -> capable pp_env k /\ worker_ok g22 pp_env /\ (forall i j, place k i j -> KSSpec.placed (k_sol k i j)) /\ hxc_available g22 pp_env k.
Proof.
  intros k (P & C & L & OS & OF & S). split; [|split; [|split]].
  - intros it i j s Hp (S1 & S2 & S3 & S4). destruct (S i j Hp) as (M & PP & N). rewrite S3, N. split; [lra|].
    eexists 1%nat, _, _. split; [reflexivity|]. rewrite S1, S2, M, PP. unfold shell_size. simpl. lra.
  - intros it s r E. injection E as <-. cbn [snd]. intros. apply pp_norm_pos.
  - intros i j Hp. destruct (S i j Hp) as (M & PP & N). split; [rewrite N; lra|]. right. exists 1%nat. rewrite M, PP, N. unfold shell_size. simpl. lra.
  - right. intros n. rewrite P, OF. do 3 eexists. split; [reflexivity|]. split; [reflexivity|]. reflexivity.
Qed.
(** One electron in one orbital. *)
Lemma pp_nocc : forall s, s_m s = 0%Z -> s_pol s = 2%nat -> s_N s = 1 -> nocc s = (1%Z, 0).
Proof. intros s M P N. unfold nocc. rewrite M, P, N. cbn [Z.eqb Nat.eqb]. assert (F : floorZ 1 = 1%Z) by (apply (floorZ_IZR 1)). rewrite F. f_equal. lra. Qed.
Lemma pp_nonzero : nonzero 0 = false. Proof. unfold nonzero. destruct (Req_EM_T 0 0); [reflexivity|lra]. Qed.
Lemma pp_dens : forall s e p, s_m s = 0%Z -> s_pol s = 2%nat -> s_N s = 1 -> calc_density g22 (set_result s ((1%nat, e), Some (1%nat, fun _ => p))) = Ok (fun x => 0 + p x ^ 2 / norm2 g22 p).
Proof.
  intros s e p M P N. unfold calc_density. rewrite pp_nocc by assumption. change (Z.to_nat 1) with 1%nat. cbn [dens_loop]. unfold phi_col. cbn [set_result s_phi bind snd]. change (pyidx 1 (Z.of_nat 0)) with (Ok 0%nat). cbn [bind].
  rewrite pp_nonzero, andb_false_r. cbn [bind]. f_equal. apply functional_extensionality. intros x. unfold shell_scale. cbn [set_result s_m s_pol]. rewrite M, P. reflexivity.
Qed.
Lemma pp_carried : forall s r, s_m s = 0%Z -> s_pol s = 2%nat -> s_N s = 1 -> carried (set_result s r) = 1.
Proof. intros s r M P N. unfold carried. rewrite pp_nocc by assumption. rewrite pp_nonzero, andb_false_r. unfold shell_scale. cbn [set_result s_m s_pol]. rewrite M, P. cbn [Z.eqb Nat.eqb]. change (Z.to_nat 1) with 1%nat. simpl. lra. Qed.

Section Pp.
  Variables (o : scfopt) (sched : Z -> list (nat * nat)) (k : ks).
  Hypotheses (KO : fr_object k) (HF : so_flip o = false) (HC : so_cont o = false) (HA : 0 < so_alpha o <= 1).
  Lemma pp_electrons : forall j, (j < 2)%nat -> electrons k j = 1.
  Proof. intros j Hj. destruct KO as (_ & P & C & L & _ & _ & _ & _ & _ & S). unfold electrons. rewrite L. cbn [sumR]. rewrite (proj2 (proj2 (S 0%nat j ltac:(split; lia)))). ring. Qed.
  Lemma pp_amount : forall st n, scf_trace g22 pp_env o sched k st -> k_n (c_ks st) = Some n -> forall s, (s < 2)%nat -> amount g22 n s = 1.
  Proof.
    intros st n T N s Hs. destruct (pp_able k (fr_shape_of k k KO (frame_refl k))) as (_ & C2 & C3 & _). pose proof KO as (_ & P & C & L & OS & _).
    destruct (trace_count g22 pp_env o sched k C2 ltac:(congruence) C3 HF ltac:(congruence) st T) as (m & M & CT). assert (m = n) by congruence. subst m.
    destruct (trace_nonneg g22 pp_env o sched k C2 C3 ltac:(lra) ltac:(congruence) st T) as (m & M' & NN). assert (m = n) by congruence. subst m.
    unfold amount. rewrite (integrate1_ext g22 _ (fun x => n x s)) by (intros x Hx; apply Rabs_pos_eq, NN, Hx). rewrite CT by (rewrite C; exact Hs). apply pp_electrons, Hs.
  Qed.
  Lemma pp_hxc : forall q k1 vh n, frame k q -> k_n q = Some n -> calc_hxc_potential g22 pp_env q = Ok k1 -> k_vhxc k1 = Some vh -> forall x s, (s < 2)%nat -> vh x s = 2 * (n x 0%nat + n x 1%nat).
  Proof.
    intros q k1 vh n F N B1 B3 x s Hs. pose proof KO as (ZZ & P & C & L & OS & OI & OF & OV & VN & S).
    apply hxc_inv in B1. destruct B1 as (V & v & -> & [(Z & _)|(_ & m & xx & cc & hh & M & X1 & X2 & X3 & X4)]); [destruct F as (F & _); congruence|]. cbn [set_vhxc set_EV k_vhxc] in B3. assert (m = n) by congruence. subst m.
    assert (OS' : o_sym (k_opt q) = false) by (destruct F as (-> & _); exact OS). rewrite OS' in B3. injection B3 as <-. rewrite X4.
    assert (OF' : o_fam (k_opt q) = "lda"%string) by (destruct F as (-> & _); exact OF). assert (P' : k_pol q = 2%nat) by (destruct F as (_ & _ & _ & -> & _); exact P).
    rewrite OF', P' in X1, X2. injection X1 as <-. injection X2 as <-. rewrite P' in X3. unfold v_hartree in X3. change ((bcN g22 =? 0)%nat || (Nr g22 <? bcN g22)%nat)%bool with false in X3. cbv iota zeta in X3. change ((2 =? 0)%nat) with false in X3. cbv iota in X3. injection X3 as <-.
    cbn [snd xc_vrho entry pp_env e_spU]. unfold sum_cols. cbn [sumR]. destruct s as [|[|s]]; [cbn; ring|cbn; ring|lia].
  Qed.
  (** The density the solvers deliver sits at the point where the old density is smaller. *)
  Lemma pp_answer : forall n nout, answer g22 pp_env k n nout ->
    exists c, (c = 0%nat /\ n 0%nat 0%nat + n 0%nat 1%nat <= n 1%nat 0%nat + n 1%nat 1%nat \/ c = 1%nat /\ n 1%nat 0%nat + n 1%nat 1%nat < n 0%nat 0%nat + n 0%nat 1%nat) /\ forall x j, (j < 2)%nat -> nout x j = pp_orb c x ^ 2 / pp_norm c.
  Proof.
    intros n nout (q & k1 & vh & it & dif & l & F0 & N & _ & H1 & H2 & (k2 & k3 & FF & V & D)).
    pose proof KO as (ZZ & P & C & L & OS & OI & OF & OV & VN & S).
    assert (VV : forall j x, (j < 2)%nat -> s_veff (k_sol k2 0%nat j) x = 2 * (n x 0%nat + n x 1%nat)).
    { intros j x Hj. rewrite V by (split; lia). rewrite VN, (pp_hxc q k1 vh n F0 N H1 H2 x j Hj), OV. ring. }
    apply density_inv in D. destruct D as (sol & n0 & -> & W & _ & SD & NO). pose proof FF as (F1 & _ & _ & F4 & F5 & F6 & _ & F8). rewrite F1, OS in NO. subst n0. apply sum_dens_spec in SD. destruct SD as (_ & SD).
    set (c := if Rle_dec (n 0%nat 0%nat + n 0%nat 1%nat) (n 1%nat 0%nat + n 1%nat 1%nat) then 0%nat else 1%nat).
    exists c. split; [unfold c; destruct (Rle_dec _ _); [left|right]; (split; [reflexivity|lra])|]. intros x j Hj.
    assert (Hp : place k 0 j) by (split; lia). destruct (W 0%nat j) as (r & Q1 & Q2); [unfold place; rewrite F5, F6; exact Hp|]. injection Q1 as <-. destruct (S 0%nat j Hp) as (M & PP & NN). destruct (F8 0%nat j) as (J1 & J2 & J3 & _).
    assert (SC : pp_side (s_veff (k_sol k2 0%nat j)) = c). { unfold pp_side, c. rewrite !VV by exact Hj. destruct (Rle_dec _ _), (Rle_dec _ _); try reflexivity; lra. }
    rewrite SD, F5, F6, L, C. replace (j <? 2)%nat with true by (symmetry; apply Nat.ltb_lt; exact Hj). cbn [sumR]. rewrite Q2, SC. unfold dens. rewrite pp_dens by congruence. unfold pp_norm. ring.
  Qed.
  (** The energy is positive. *)
  Lemma pp_energy : forall st st', scf_trace g22 pp_env o sched k st -> scf_body g22 pp_env o (sched (c_iter st)) st = Ok st' -> exists E, c_oldE st' = Fin E /\ 0 < E.
  Proof.
    intros st st' T B. pose proof KO as (ZZ & P & C & L & OS & OI & OF & OV & VN & S). pose proof (trace_frame _ _ _ _ _ _ T) as (F & _).
    apply KSLoop.body_inv in B. destruct B as (_ & k1 & ve & vh & sol & k3 & nout & n & k4 & k5 & E & r & B1 & B2 & B3 & B4 & B5 & B6 & B7 & B8 & B9 & B10 & ->). cbn [c_oldE c_ks] in *. rewrite HF in *.
    destruct (hxc_frame _ _ _ _ B1) as (F1 & _). pose proof (frame_trans _ _ _ F F1) as G1. pose proof (distribute_scf_static _ _ _ B4) as DS.
    set (q := set_sol (set_veffs k1 (Some (add3 (k_vnuc k1) ve vh))) sol) in *.
    assert (FQ : frame k q). { eapply frame_trans; [exact G1|]. repeat (split; [reflexivity|]). exact DS. }
    apply density_inv in B5. destruct B5 as (s3 & m3 & -> & W & _).
    set (K := set_n (set_sol q s3) (Some (mixed o n nout))) in *.
    assert (KP : k_pol K = 2%nat /\ k_lv K = 1%nat /\ k_cols K = 2%nat /\ k_vnuc K = k_vnuc k /\ k_opt K = k_opt k /\ k_Za K = k_Za k /\ k_Zb K = k_Zb k).
    { destruct FQ as (J1 & J2 & J3 & J4 & J5 & J6 & J7 & _). unfold K. cbn [set_n set_sol k_pol k_lv k_cols k_vnuc k_opt k_Za k_Zb]. repeat split; congruence. }
    destruct KP as (K1 & K2 & K3 & K4 & K5 & K6 & K7).
    pose proof (energy_solved _ _ _ _ B7) as OK. pose proof (energy_inv _ _ _ _ B7) as (E' & nn & ve' & X1 & _ & _ & _ & _ & _ & _ & _ & X4 & _ & X5 & X6).
    apply energy_keep in B7. destruct B7 as (Ea & Va & ->). apply chempot_keep in B8. destruct B8 as (u & ->). cbn [set_u set_EV k_E] in B9, X1. assert (E' = E) by congruence. subst E'.
    destruct X6 as [(Z & _)|(_ & vx & hh & Ex & ex & vex & Ec & ec & vc & Eh & _ & _ & Y1 & Y2 & Y3 & _ & Y4 & Y5 & _)]; [rewrite K5, OI in Z; discriminate|].
    rewrite K1 in Y1. unfold v_hartree in Y1. change ((bcN g22 =? 0)%nat || (Nr g22 <? bcN g22)%nat)%bool with false in Y1. cbv iota zeta in Y1. change ((2 =? 0)%nat) with false in Y1. cbv iota in Y1. injection Y1 as <-.
    assert (XC : forall id a b c, get_xc g22 (e_lib pp_env) (o_fam (k_opt K)) id (k_pol K) nn = Ok (a, b, c) -> a = 0).
    { intros id a b c H. rewrite K5, OF, K1 in H. unfold get_xc, get_xc_dictionary in H. cbn [e_lib pp_env bind String.eqb] in H. cbn in H. injection H as <- _ _. rewrite (integrate1_ext g22 _ (fun _ => 0)); [apply integrate1_zero|]. intros. unfold sum_cols. cbn [sumR]. ring. }
    apply XC in Y2, Y3. subst Ex Ec.
    assert (EH : Eh = 0). { rewrite Y4. rewrite (integrate1_ext g22 _ (fun _ => 0)); [rewrite integrate1_zero; ring|]. intros. cbn. ring. }
    assert (EN : E_Enuc E = 0). { rewrite X4, K4. unfold interaction. apply sumR_zero. intros s _. rewrite (integrate1_ext g22 _ (fun _ => 0)); [apply integrate1_zero|]. intros. rewrite VN. ring. }
    assert (VV : E_Vnn E = 0). { rewrite X5, K6, K7, ZZ. unfold Rdiv. ring. }
    exists (kinetic g22 K). split; [rewrite Y5, EH, EN, VV; f_equal; ring|].
    assert (Q : forall j, (j < 2)%nat -> 1 <= eks_of (k_sol K 0%nat j) - pot_of g22 (k_sol K 0%nat j)).
    { intros j Hj. assert (Hp : place k 0 j) by (split; lia). assert (HpK : place K 0 j) by (split; lia). destruct (OK 0%nat j HpK) as (e & d & O1 & O2).
      destruct (W 0%nat j) as (r0 & Q1 & Q2); [destruct FQ as (_ & _ & _ & _ & J5 & J6 & _); unfold place in *; rewrite J5, J6; exact Hp|]. injection Q1 as <-. change (k_sol K 0%nat j) with (s3 0%nat j) in *. rewrite Q2 in *.
      destruct (S 0%nat j Hp) as (M & PP & NN). destruct FQ as (_ & _ & _ & _ & _ & _ & _ & J). destruct (J 0%nat j) as (J1 & J2 & J3 & _). set (s0 := k_sol q 0%nat j) in *. set (rr := (_, _)) in *.
      assert (CA : carried (set_result s0 rr) = 1) by (apply pp_carried; congruence).
      assert (NO : forall m p, snd rr = Some (m, p) -> forall i, (i < m)%nat -> norm2 g22 (p i) <> 0). { intros m p H i _. injection H as <- <-. apply Rgt_not_eq, pp_norm_pos. }
      pose proof (density_electrons g22 s0 rr NO d O2) as DE. rewrite CA in DE.
      assert (EB : forall m x, eig_at (set_result s0 rr) m = Ok x -> pp_top (s_veff s0) + 1 <= x). { intros m x H. unfold eig_at, rr in H. cbn [set_result s_eig fst snd] in H. destruct (pyidx 1 m); [|discriminate]. cbn [bind] in H. injection H as <-. apply Rle_refl. }
      assert (PN : forall i p, phi_col (set_result s0 rr) i = Ok p -> 0 < norm2 g22 p). { intros i p H. unfold phi_col, rr in H. cbn [set_result s_phi snd] in H. destruct (pyidx 1 i); [|discriminate]. cbn [bind] in H. injection H as <-. apply pp_norm_pos. }
      pose proof (eks_above (set_result s0 rr) _ EB e O1) as U1. rewrite CA in U1.
      assert (VB : forall x, (x < Nelem g22)%nat -> s_veff (set_result s0 rr) x <= pp_top (s_veff s0)).
      { intros x Hx. cbn [set_result s_veff]. rewrite g22_n in Hx. unfold pp_top. eapply Rle_trans; [apply Rle_abs|]. apply (term_le 4 (fun x => Rabs (s_veff s0 x)) x Hx). intros; apply Rabs_pos. }
      pose proof (pot_upper g22 (set_result s0 rr) PN (pp_top (s_veff s0)) g22_ok pp_weights VB d O2) as U2. rewrite DE in U2. unfold eks_of. rewrite O1. lra. }
    unfold kinetic. rewrite K2, K3. cbn [sumR]. pose proof (Q 0%nat ltac:(lia)). pose proof (Q 1%nat ltac:(lia)). lra.
  Qed.
  (** The residual stays above a bound. *)
  Definition pp_least : R := Rmin (iprefac g22 * (gwi g22 0%nat * gw g22 0%nat)) (iprefac g22 * (gwi g22 1%nat * gw g22 1%nat)).
  Definition pp_jump : R := Rmin (4 / pp_norm 0) (4 / pp_norm 1).
  Definition pp_bound : R := Rmin 1 (so_alpha o * (pp_least * pp_jump)).
  Lemma pp_least_pos : 0 < pp_least.
  Proof. unfold pp_least. apply Rmin_glb_lt; (apply Rmult_lt_0_compat; [apply iprefac_pos, g22_ok|apply Rmult_lt_0_compat; [apply pp_weights; rewrite g22_n; lia|apply gw_pos; [apply g22_ok|rewrite g22_n; lia]]]). Qed.
  Lemma pp_jump_pos : 0 < pp_jump.
  Proof. unfold pp_jump. apply Rmin_glb_lt; (apply Rmult_lt_0_compat; [lra|apply Rinv_0_lt_compat, pp_norm_pos]). Qed.
  Lemma pp_bound_pos : 0 < pp_bound.
  Proof. unfold pp_bound. apply Rmin_glb_lt; [lra|]. apply Rmult_lt_0_compat; [lra|]. apply Rmult_lt_0_compat; [apply pp_least_pos|apply pp_jump_pos]. Qed.
  Lemma pp_point : forall f x e, (x < 2)%nat -> 0 <= e -> e <= Rabs (f x) -> pp_least * e <= integrate1 g22 (fun x => Rabs (f x)).
  Proof.
    intros f x e Hx He H. unfold integrate1. pose proof (iprefac_pos g22 g22_ok) as IP.
    assert (WP : forall y, (y < Nelem g22)%nat -> 0 < gwi g22 y * gw g22 y) by (intros y Hy; apply Rmult_lt_0_compat; [apply pp_weights, Hy|apply gw_pos; [apply g22_ok|exact Hy]]).
    assert (T : gwi g22 x * gw g22 x * Rabs (f x) <= sumR (Nelem g22) (fun y => gwi g22 y * gw g22 y * Rabs (f y))).
    { apply (term_le (Nelem g22) (fun y => gwi g22 y * gw g22 y * Rabs (f y)) x); [rewrite g22_n; lia|]. intros y Hy. apply Rmult_le_pos; [apply Rlt_le, WP, Hy|apply Rabs_pos]. }
    assert (PL : pp_least <= iprefac g22 * (gwi g22 x * gw g22 x)) by (unfold pp_least; destruct x as [|[|x]]; [apply Rmin_l|apply Rmin_r|lia]).
    apply Rle_trans with (iprefac g22 * (gwi g22 x * gw g22 x * Rabs (f x))); [|apply Rmult_le_compat_l; [lra|exact T]].
    rewrite <- Rmult_assoc. apply Rmult_le_compat; [apply Rlt_le, pp_least_pos|exact He|exact PL|exact H].
  Qed.
  Lemma pp_far : forall n nout c, (c = 0%nat /\ n 0%nat 0%nat + n 0%nat 1%nat <= n 1%nat 0%nat + n 1%nat 1%nat \/ c = 1%nat /\ n 1%nat 0%nat + n 1%nat 1%nat < n 0%nat 0%nat + n 0%nat 1%nat) ->
    (forall x j, (j < 2)%nat -> nout x j = pp_orb c x ^ 2 / pp_norm c) -> exists x s, (x < 2)%nat /\ (s < 2)%nat /\ pp_jump <= Rabs (nout x s - n x s).
  Proof.
    intros n nout c SD NO. pose proof (pp_norm_pos c) as NP. set (y := / pp_norm c). assert (Y : 0 < y) by (apply Rinv_0_lt_compat, NP).
    assert (J : pp_jump <= 4 * y) by (unfold pp_jump, y; destruct SD as [(-> & _)|(-> & _)]; [apply Rmin_l|apply Rmin_r]).
    destruct (Rle_dec pp_jump (Rabs (nout 0%nat 0%nat - n 0%nat 0%nat))) as [|A]; [exists 0%nat, 0%nat; auto|]. destruct (Rle_dec pp_jump (Rabs (nout 0%nat 1%nat - n 0%nat 1%nat))) as [|B]; [exists 0%nat, 1%nat; auto|].
    destruct (Rle_dec pp_jump (Rabs (nout 1%nat 0%nat - n 1%nat 0%nat))) as [|C]; [exists 1%nat, 0%nat; auto|]. destruct (Rle_dec pp_jump (Rabs (nout 1%nat 1%nat - n 1%nat 1%nat))) as [|D]; [exists 1%nat, 1%nat; auto|].
    exfalso. apply Rnot_le_lt, Rabs_def2 in A, B, C, D. rewrite !NO in A, B, C, D by lia. unfold Rdiv in *. fold y in A, B, C, D. unfold pp_orb in *. destruct SD as [(-> & Q)|(-> & Q)]; cbn [Nat.eqb] in *; lra.
  Qed.
  Theorem pp_never : forall st, scf_trace g22 pp_env o sched k st -> exists r, c_diff st = Fin r /\ pp_bound <= r.
  Proof.
    intros st T. pose proof T as T'. destruct T as [k0 S0|a b Ta Te B]; [exists 10; split; [reflexivity|]; unfold pp_bound; pose proof (Rmin_l 1 (so_alpha o * (pp_least * pp_jump))); lra|].
    destruct (pp_energy a b Ta B) as (E & EE & EP). destruct (ks_pass _ _ _ _ _ _ HF B) as (k1 & n & n' & nout & ve & vh & A1 & A2 & _ & A4 & A5 & A6 & A7 & A8 & A9).
    assert (VE : ve = outer k) by (pose proof (trace_vext _ _ _ _ _ _ Ta); congruence). subst ve.
    assert (OE : exists E0, c_oldE a = Fin E0). { destruct Ta as [k0 S0|c a Tc Tec Bc]; [exists 0; reflexivity|]. destruct (pp_energy c a Tc Bc) as (E0 & X & _). eauto. } destruct OE as (E0 & OE).
    assert (P0 : k_pol (c_ks a) = 2%nat). { destruct (trace_frame _ _ _ _ _ _ Ta) as ((_ & _ & _ & FP & _) & _). rewrite FP. apply KO. } rewrite P0, EE, OE in A9.
    pose proof (pp_amount b n' T' A2) as AM. destruct (residual_two g22 E E0 n' (c_oldn a)) as (r & R1 & R2); [rewrite g22_n; lia|lra|intros s Hs; change (abs_int g22 n' s) with (amount g22 n' s); rewrite AM by exact Hs; lra|].
    rewrite R1 in A9. injection A9 as A9. exists r. split; [congruence|]. destruct (proj1 (R2 r) (Rle_refl r)) as (_ & R3).
    assert (R4 : forall s, (s < 2)%nat -> distance g22 n' (c_oldn a) s <= r). { intros s Hs. specialize (R3 s Hs). change (abs_int g22 n' s) with (amount g22 n' s) in R3. rewrite AM, Rmult_1_r in R3 by exact Hs. exact R3. }
    pose proof Ta as Ta'. destruct Ta as [k0 S0|c a Tc Tec Bc].
    - specialize (R4 0%nat ltac:(lia)). cbn [c_oldn] in R4. assert (Z : distance g22 n' (fun _ _ => 0) 0 = amount g22 n' 0) by (unfold distance, amount; apply integrate1_ext; intros; f_equal; ring).
      rewrite Z, AM in R4 by lia. unfold pp_bound. pose proof (Rmin_l 1 (so_alpha o * (pp_least * pp_jump))). lra.
    - assert (ON : c_oldn a = n). { destruct (ks_pass _ _ _ _ _ _ HF Bc) as (_ & _ & m & _ & _ & _ & _ & C2 & C3 & _). congruence. } rewrite ON in R4.
      destruct (pp_answer n nout) as (cc & SD & NO).
      { pose proof (trace_frame _ _ _ _ _ _ Ta') as (F & _). exists (c_ks a), k1, vh. do 3 eexists. split; [exact F|]. split; [exact A1|]. split; [exact A5|]. split; [exact A4|]. split; [exact A6|]. exact (delivered_back _ _ _ _ _ _ _ _ _ _ F A7). }
      destruct (pp_far n nout cc SD NO) as (x & s & Hx & Hs & J).
      specialize (R4 s Hs). rewrite (distance_mix g22 (so_alpha o) n nout n' s (fun x => A8 x s)), Rabs_pos_eq in R4 by lra.
      pose proof (pp_point (fun x => nout x s - n x s) x pp_jump Hx (Rlt_le _ _ pp_jump_pos) J) as L. unfold distance in R4. unfold pp_bound. eapply Rle_trans; [apply Rmin_r|]. eapply Rle_trans; [|exact R4]. apply Rmult_le_compat_l; [lra|exact L].
  Qed.
End Pp.
Lemma pp_steady : steady g22 pp_env.
Proof.
  intros it it' s s' _ H. unfold pp_env. cbn [e_worker]. assert (T : pp_top (s_veff s') = pp_top (s_veff s)) by (unfold pp_top; apply sumR_ext; intros x Hx; rewrite H by (rewrite g22_n; exact Hx); reflexivity).
  assert (D : pp_side (s_veff s') = pp_side (s_veff s)) by (unfold pp_side; rewrite (H 0%nat), (H 1%nat) by (rewrite g22_n; lia); reflexivity). rewrite T, D. reflexivity.
Qed.
(** Every call returns, with a residual above the bound, after as many passes as it may make. *)
Theorem pp_case : exists k, ks_init g22 0 0 2 1 2 (fun _ _ => 1%nat) 1 2 ex_N ex_opt = Ok k /\ (forall n m, answer g22 pp_env k n m -> exists x s, (x < Nelem g22)%nat /\ (s < 2)%nat /\ pp_jump <= Rabs (m x s - n x s)) /\
  forall d o, scf_options d = Ok o -> so_flip o = false -> so_cont o = false -> so_auto o = false -> 0 < so_alpha o <= 1 -> so_tol o < pp_bound o ->
  exists st r, ks_scf g22 pp_env (fun _ => keys k) d k = Ok st /\ c_iter st = Z.max 1 (so_maxiter o) /\ c_diff st = Fin r /\ pp_bound o <= r.
Proof.
  destruct fr_init as (k & KI). pose proof (fr_static k KI) as KO. exists k. split; [exact KI|]. split.
  - intros n m A. destruct (pp_answer k KO n m A) as (c & SD & NO). destruct (pp_far n m c SD NO) as (x & s & Hx & Hs & J). exists x, s. split; [rewrite g22_n; lia|]. auto.
  - intros d o O HF HC HAU HA HT. pose proof (fr_shape_of k k KO (frame_refl k)) as SH. destruct (pp_able k SH) as (C1 & C2 & C3 & C4). pose proof SH as (P & C & L & OS & OF & S).
    edestruct (scf_total g22 pp_env k) with (sched := fun _ : Z => keys k) (d := d) as (st & E); try eassumption; try (intros _; exact (keys_schedule k)); try congruence; try (rewrite ?g22_n; lia).
    destruct (scf_inv _ _ _ _ _ _ E) as (o' & O' & T & X). rewrite O in O'. injection O' as <-. destruct (pp_never o (fun _ => keys k) k KO HF HC HA st T) as (r & R1 & R2). exists st, r. split; [exact E|]. split; [|auto].
    unfold scf_test in X. rewrite R1 in X. cbn [gtb] in X. destruct (Rlt_dec (so_tol o) r); [|lra]. injection X as X. apply Z.ltb_ge in X. pose proof (trace_bound _ _ _ _ _ _ T). lia.
Qed.
