(** Two runs for the theorems of Gauge.v: H2 on the 2 x 2 grid, and the same with the potential of one spin raised by 1 and that of the other lowered by 3. *)
From Coq Require Import Reals List Arith Lia Lra ZArith Bool String FunctionalExtensionality.
From Verif Require Import Base BaseLemmas GridModel GridSpec GridProofs HartreeModel SolverModel SolverSpec SolverProofs LibxcModel OptionsModel KSModel KSSpec KSProofs KSThms KSLoop KSEnergy KSTotal SelfConsistent NonInteracting
  GridWitness SolverWitness SolverCases KSWit InverterThms KSMemory KSMemoryWit Gauge.
Import ListNotations.
Local Open Scope R_scope.
Local Opaque sinh cosh.

(** One orbital, which depends on differences of the potential, and a level that follows it; the functional depends on the density. *)
Definition ga_orb (s : solver) : nat -> vec := fun _ x => 1 + (if (x <? Nelem g22)%nat then (s_veff s x - s_veff s 0%nat) ^ 2 else 0).
Definition ga_env : env := mkEnv (fun _ s => Some ((1%nat, fun _ => s_veff s 0%nat + 1), Some (1%nat, ga_orb s)))
  (fun _ pol => Ok (fun n _ => mkXc (fun _ => 0) (fun x _ => 2 * sum_cols pol n x) (fun _ _ => 0))) (fun v => v) (fun _ _ => 0).
Definition ga_c : nat -> R := fun j => if (j =? 0)%nat then 1 else - 3.
Lemma ga_orb_pos : forall s i x, 0 < ga_orb s i x.
Proof. intros. unfold ga_orb. destruct (x <? Nelem g22)%nat; [|lra]. pose proof (pow2_ge_0 (s_veff s x - s_veff s 0%nat)). lra. Qed.
Lemma ga_raised : forall c, raised_workers g22 ga_env c.
Proof.
  intros c j it it' s s' r r' _ V E E'. injection E as <-. injection E' as <-. split; [reflexivity|]. split.
  - intros i _. cbn [fst snd]. rewrite V by (rewrite g22_n; lia). ring.
  - cbn [snd]. split; [reflexivity|]. intros i _. exists 1. split; [lra|]. intros x. unfold ga_orb. destruct (Nat.ltb_spec x (Nelem g22)) as [L|L]; [|ring]. rewrite !V by (rewrite ?g22_n in *; lia). ring.
Qed.
Lemma ga_norm : forall s i, 0 < norm2 g22 (ga_orb s i).
Proof. intros. unfold norm2. apply g22_int_pos. intros. apply pow_lt, ga_orb_pos. Qed.
Lemma ga_normed : normed_workers g22 ga_env.
Proof. intros it s r m p E P i _. injection E as <-. injection P as <- <-. apply Rgt_not_eq, ga_norm. Qed.
Lemma ga_able : forall k, fr_shape k -> capable ga_env k /\ worker_ok g22 ga_env /\ (forall i j, place k i j -> KSSpec.placed (k_sol k i j)) /\ hxc_available g22 ga_env k.
Proof.
  intros k (P & C & L & OS & OF & S). split; [|split; [|split]].
  - intros it i j s Hp (S1 & S2 & S3 & S4). destruct (S i j Hp) as (M & PP & N). rewrite S3, N. split; [lra|].
    eexists 1%nat, _, _. split; [reflexivity|]. rewrite S1, S2, M, PP. unfold shell_size. simpl. lra.
  - intros it s r E. injection E as <-. cbn [snd]. intros. apply g22_int_pos. intros. apply pow_lt, ga_orb_pos.
  - intros i j Hp. destruct (S i j Hp) as (M & PP & N). split; [rewrite N; lra|]. right. exists 1%nat. rewrite M, PP, N. unfold shell_size. simpl. lra.
  - right. intros n. rewrite P, OF. do 3 eexists. split; [reflexivity|]. split; [reflexivity|]. reflexivity.
Qed.
Lemma ga_runs : forall k l d o, fr_shape k -> schedule k l -> scf_options d = Ok o -> so_auto o = false -> so_cont o = false -> exists st, ks_scf g22 ga_env (fun _ => l) d k = Ok st.
Proof.
  intros k l d o KO SC O HA HC. destruct (ga_able k KO) as (C1 & C2 & C3 & C4). pose proof KO as (P & C & L & OS & OF & S).
  edestruct (scf_total g22 ga_env k) with (sched := fun _ : Z => l) (d := d) as (st & E); try eassumption; try (intros _; exact SC); try congruence; try (rewrite ?g22_n; lia). eauto.
Qed.
(** The highest level lies above the external potential of the first point. *)
Lemma ga_u : forall k o sched a st b, fr_shape k -> o_int (k_opt k) = "dft"%string -> (forall x s, k_vnuc k x s = 0) -> so_flip o = false -> so_cont o = false -> 0 <= so_alpha o <= 1 ->
  (forall j, (j < 2)%nat -> b <= outer k 0%nat j) -> scf_trace g22 ga_env o sched k a -> scf_body g22 ga_env o (sched (c_iter a)) a = Ok st -> exists u, k_u (c_ks st) = Some u /\ b <= u.
Proof.
  intros k o sched a st b SH OI VN HF HC AL HB T B. destruct (ga_able k SH) as (_ & W2 & W3 & _). pose proof SH as (P & C & L & OS & OF & S). pose proof (trace_frame _ _ _ _ _ _ T) as (F & _). pose proof (trace_vext _ _ _ _ _ _ T) as VX.
  destruct (trace_nonneg g22 ga_env o sched k W2 W3 AL ltac:(congruence) a T) as (n & N & NN).
  apply KSLoop.body_inv in B. destruct B as (_ & k1 & ve & vh & sol & k3 & nout & n1 & k4 & k5 & E & r & A1 & A2 & A3 & A4 & A5 & A6 & A7 & A8 & A9 & A10 & ->). cbn [c_ks].
  destruct (hxc_frame _ _ _ _ A1) as (Fa & Na & Va & Sa). pose proof (frame_trans _ _ _ F Fa) as F1. destruct F1 as (G1 & _ & _ & G4 & G5 & G6 & G7 & G8).
  assert (ve = outer k) by congruence. subst ve.
  assert (VH : forall j, (j < 2)%nat -> 0 <= vh 0%nat j).
  { intros j Hj. apply hxc_inv in A1. destruct A1 as (V & v & -> & Q). cbn [set_vhxc set_EV k_vhxc] in A3. destruct F as (F1 & _ & _ & F4 & _). rewrite F1, OS in A3. injection A3 as <-.
    destruct Q as [(Z & _)|(_ & m & xx & cc & hh & M & X1 & X2 & X3 & X4)]; [congruence|]. rewrite X4. assert (m = n) by congruence. subst m. rewrite F1, F4, OF, P in X1, X2. injection X1 as <-. injection X2 as <-. rewrite F4, P in X3.
    unfold v_hartree in X3. change ((bcN g22 =? 0)%nat || (Nr g22 <? bcN g22)%nat)%bool with false in X3. cbv iota zeta in X3. change ((2 =? 0)%nat) with false in X3. cbv iota in X3. injection X3 as <-.
    assert (SN : 0 <= sum_cols 2 n 0%nat) by (unfold sum_cols; cbn [sumR]; pose proof (NN 0%nat 0%nat ltac:(rewrite g22_n; lia)); pose proof (NN 0%nat 1%nat ltac:(rewrite g22_n; lia)); lra).
    cbn [snd xc_vrho entry ga_env e_spU]. destruct j as [|[|j]]; [|  |lia]; cbn [Nat.eqb]; cbn; unfold sum_cols in *; cbn [sumR] in *; lra. }
  apply distribute_scf_ok in A4. destruct A4 as (A4 & _). apply density_inv in A5. destruct A5 as (s3 & m3 & -> & W & _).
  apply energy_keep in A7. destruct A7 as (Ea & Vaa & ->). apply chempot_spec in A8. destruct A8 as (u & -> & (i & j & PL & U) & M). exists u. split; [reflexivity|].
  unfold place in PL. cbn [set_EV set_n set_sol set_veffs k_lv k_cols] in PL. cbn [set_EV set_n set_sol k_sol] in U.
  destruct (W i j PL) as (rr & R1 & R2). injection R1 as <-. cbn [set_sol k_sol] in R2. rewrite R2 in U.
  assert (Pk : place k i j) by (unfold place; rewrite <- G5, <- G6; exact PL). destruct (S i j Pk) as (S1 & S2 & S3). destruct (G8 i j) as (J1 & J2 & J3 & _).
  destruct (A4 i j PL) as (Hj & SE). rewrite SE in U. cbn [set_veff s_veff] in U. unfold get_homo, nocc, set_result, set_veff in U. cbn [s_m s_pol s_N] in U. rewrite J1, J2, J3, S1, S2, S3 in U. cbn [Z.eqb Nat.eqb] in U.
  assert (FL : floorZ 1 = 1%Z) by (apply (floorZ_IZR 1)). rewrite FL in U. replace (1 - 1) with 0 in U by ring. unfold nonzero in U. destruct (Req_EM_T 0 0) as [_|]; [|lra]. cbn [Z.eqb Z.sub Z.add Z.opp Pos.eqb] in U. unfold eig_at in U. cbn [s_eig fst snd] in U. injection U as <-.
  unfold add3. rewrite G7, VN. rewrite G4, P in Hj. specialize (VH j Hj). specialize (HB j Hj). lra.
Qed.
Theorem gauge_case : forall c, (forall j, - 10 <= c j) -> exists k0 k k' s t u u', ks_init g22 0 0 2 1 2 (fun _ _ => 1%nat) 1 2 ex_N ex_opt = Ok k0 /\ k = set_vext k0 (Some (fun x _ => INR x)) /\ k' = set_vext k0 (Some (fun x j => INR x + c j)) /\
  raised_workers g22 ga_env c /\ normed_workers g22 ga_env /\ frame k k' /\ k_n k' = k_n k /\ (forall x j, (j < k_pol k)%nat -> outer k' x j = outer k x j + c j) /\
  ks_scf g22 ga_env (fun _ => keys k) [] k = Ok s /\ ks_scf g22 ga_env (fun _ => keys k') [] k' = Ok t /\ (2 <= c_iter s)%Z /\
  k_u (c_ks s) = Some u /\ k_u (c_ks t) = Some u' /\ - 1 / feps < u /\ - 1 / feps < u'.
Proof.
  intros c HC. destruct fr_init as (k0 & KI). pose proof (fr_static k0 KI) as KO. set (k := set_vext k0 (Some (fun x _ => INR x))). set (k' := set_vext k0 (Some (fun x j => INR x + c j))).
  assert (F : frame k0 k) by (repeat (split; [reflexivity|]); intros; apply same_static_refl). assert (F' : frame k0 k') by (repeat (split; [reflexivity|]); intros; apply same_static_refl).
  pose proof (fr_shape_of k0 k KO F) as SH. pose proof (fr_shape_of k0 k' KO F') as SH'. pose proof KO as (_ & _ & _ & _ & _ & OI & _ & _ & VN & _).
  assert (O : exists o, scf_options [] = Ok o) by (eexists; reflexivity). destruct O as (o & O). pose proof O as OE. injection OE as OE.
  assert (T0 : 10 * / 10 ^ 6 = 1 / 100000) by field.
  assert (Q : so_flip o = false /\ so_cont o = false /\ so_auto o = false /\ so_maxiter o = 100%Z /\ so_tol o = 10 * / 10 ^ 6 /\ 0 <= so_alpha o <= 1) by (rewrite <- OE; repeat split; try reflexivity; cbn; lra). destruct Q as (Q1 & Q2 & Q3 & Q4 & Q5 & Q6). rewrite T0 in Q5.
  destruct (ga_runs k (keys k) [] o SH (keys_schedule k) O Q3 Q2) as (s & E). destruct (ga_runs k' (keys k') [] o SH' (keys_schedule k') O Q3 Q2) as (t & E').
  assert (U : forall q st, fr_shape q -> o_int (k_opt q) = "dft"%string -> (forall x s, k_vnuc q x s = 0) -> (forall j, (j < 2)%nat -> - 10 <= outer q 0%nat j) -> ks_scf g22 ga_env (fun _ => keys q) [] q = Ok st -> (2 <= c_iter st)%Z /\ exists u, k_u (c_ks st) = Some u /\ - 1 / feps < u).
  { intros q st SQ OQ VQ BQ EQ. destruct (scf_inv _ _ _ _ _ _ EQ) as (o' & O' & T & X). rewrite O in O'. injection O' as <-. pose proof (first_pass _ _ _ _ _ _ T X ltac:(lra) ltac:(lia)) as I2. split; [exact I2|].
    destruct T as [kk SS|a b Ta Te B]; [cbn in I2; lia|]. destruct (ga_u q o _ a b (-10) SQ OQ VQ Q1 Q2 Q6 BQ Ta B) as (u & U1 & U2). exists u. split; [exact U1|].
    unfold feps. apply Rlt_le_trans with (2 := U2). unfold Rdiv. rewrite Rinv_inv. lra. }
  destruct (U k s SH OI VN ltac:(intros; cbn; lra) E) as (I2 & u & U1 & U2). destruct (U k' t SH' OI VN ltac:(intros j _; specialize (HC j); cbn; lra) E') as (_ & u' & U1' & U2').
  exists k0, k, k', s, t, u, u'. split; [exact KI|]. split; [reflexivity|]. split; [reflexivity|]. split; [apply ga_raised|]. split; [apply ga_normed|]. split; [repeat (split; [reflexivity|]); intros; apply same_static_refl|].
  split; [reflexivity|]. split; [reflexivity|]. split; [exact E|]. split; [exact E'|]. auto.
Qed.
