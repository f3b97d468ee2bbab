(** Property C133: signs and bounds of the classical energy terms. *)
From Coq Require Import Reals List Arith Lia Lra ZArith Bool String.
From Verif Require Import Base BaseLemmas GridModel GridSpec GridProofs FDProofs HartreeModel HartreeSpec LinAlg HartreeThms SolverModel SolverSpec LibxcModel OptionsModel KSModel KSSpec KSProofs KSThms KSLoop KSEnergy KSTotal SelfConsistent NonInteracting GridWitness KSWit KSMemory KSMemoryWit
  NCSignsThms Ground Multipole MultipoleThms LevelWit EnergySigns.
Import ListNotations.
Local Open Scope R_scope.
Local Opaque sinh cosh.

(** Points with positive weights, workers that return orbitals, damped mixing from the usual start. *)
Definition plain_run (g : grid) (w : env) (sched : Z -> list (nat * nat)) (d : dict) (k : ks) (st : scst) (ev : kse) : Prop :=
  grid_ok g /\ lstsq_ok g /\ In (gNP g) [2; 3; 4; 5; 6; 7; 8; 10]%nat /\ worker_ok g w /\ o_sym (k_opt k) = false /\ (forall i j, place k i j -> KSSpec.placed (k_sol k i j)) /\ k_pol k = k_cols k /\
  (exists o, scf_options d = Ok o /\ so_cont o = false /\ so_flip o = false /\ 0 <= so_alpha o <= 1) /\ ks_scf g w sched d k = Ok st /\ (2 <= c_iter st)%Z /\ k_E (c_ks st) = Some ev.
Lemma plain_trace : forall g w sched d k st ev, plain_run g w sched d k st ev -> exists o, so_cont o = false /\ so_flip o = false /\ 0 <= so_alpha o <= 1 /\ scf_trace g w o sched k st.
Proof. intros g w sched d k st ev (_ & _ & _ & _ & _ & _ & _ & (o & O & O1 & O2 & O3) & R & _). destruct (scf_inv _ _ _ _ _ _ R) as (o' & O' & T & _). rewrite O in O'. injection O' as <-. exists o. auto. Qed.
(** E.Enuc lies between the values for all electrons at the smallest and at the largest distance near, far of a grid point from a nucleus; it is negative if there are electrons and charges. E.Vnn is not negative. *)
Theorem C133_nuclear : forall g w sched d k st ev Za Zb pol lv Nmo N opt near far, plain_run g w sched d k st ev -> ks_init g Za Zb pol lv pol Nmo lv pol N opt = Ok k -> (pol = 1 \/ pol = 2)%nat -> 0 <= Za -> 0 <= Zb ->
  0 < near -> (forall x, (x < Nelem g)%nat -> near <= dist2 (gZ g x) (gY g x) (- ga g) 0 <= far /\ near <= dist2 (gZ g x) (gY g x) (ga g) 0 <= far) ->
  let M := sumR lv (fun i => sumR pol (fun j => N i j)) in
  - (M * (Za + Zb) / near) <= E_Enuc ev <= - (M * (Za + Zb) / far) /\ 0 <= E_Vnn ev /\ (0 < M -> 0 < Za + Zb -> E_Enuc ev < 0).
Proof.
  intros g w sched d k st ev Za Zb pol lv Nmo N opt near far PR KI HP HA HB NE HD M. pose proof PR as (Hg & Hl & HN & WO & SY & PL & PC & _ & R & I2 & KE). destruct (plain_trace _ _ _ _ _ _ _ PR) as (o & O1 & O2 & O3 & T).
  pose proof (gwi_positive g Hg Hl HN) as W. pose proof KI as KV. apply init_spec in KI. destruct KI as (oo & CF & _ & _ & ZA & ZB & P & L & CC & _ & _ & OF & _ & _ & _ & VX & _ & _ & _ & _ & _ & S).
  assert (VN : forall x j, (j < pol)%nat -> k_vnuc k x j = coulomb g Za Zb x).
  { unfold ks_init in KV. rewrite CF in KV. cbn [bind] in KV. rewrite !Nat.eqb_refl in KV. cbn [andb negb] in KV. cbv zeta in KV. destruct (Pssolver lv pol Nmo N _) as [sol|]; [|discriminate]. cbn [bind] in KV. injection KV as <-.
    cbn [k_vnuc k_opt o_sym] in *. intros x j Hj. unfold ks_vnuc. rewrite SY. destruct HP as [->| ->]; cbn [Nat.eqb andb].
    - replace j with 0%nat by lia. reflexivity.
    - destruct j as [|[|]]; [reflexivity|reflexivity|lia]. }
  assert (N0 : (0 < Nelem g)%nat) by apply Nelem_pos.
  assert (FA : 0 < far) by (pose proof (HD 0%nat N0); lra).
  assert (B : forall x j, (x < Nelem g)%nat -> (j < k_pol k)%nat -> - ((Za + Zb) / near) <= k_vnuc k x j <= - ((Za + Zb) / far)).
  { intros x j Hx Hj. rewrite P in Hj. rewrite (VN x j Hj), (coulomb_val g Za Zb x Hg Hx). destruct (HD x Hx) as ((A1 & A2) & A3 & A4). set (ra := dist2 _ _ (- ga g) 0) in *. set (rb := dist2 _ _ (ga g) 0) in *.
    assert (I1 : / ra <= / near) by (apply Rinv_le_contravar; lra). assert (I3 : / rb <= / near) by (apply Rinv_le_contravar; lra). assert (I4 : / far <= / ra) by (apply Rinv_le_contravar; lra). assert (I5 : / far <= / rb) by (apply Rinv_le_contravar; lra).
    unfold Rdiv. nra. }
  pose proof (nuclear_between g w o sched k st ev Hg W WO SY PL O1 O2 O3 PC T I2 KE _ _ B) as (Q1 & Q2).
  assert (ME : sumR (k_pol k) (electrons k) = M).
  { unfold M, electrons. rewrite P, L, sumR_swap. apply sumR_ext. intros i Hi. apply sumR_ext. intros j Hj. destruct (S i j) as (_ & _ & _ & S3 & _); [split; lia|]. exact S3. }
  rewrite ME in Q1, Q2. split; [|split].
  - unfold Rdiv in *. lra.
  - destruct (run_parts g w o sched k st ev WO SY PL O1 O2 O3 PC T I2 KE) as (n & _ & _ & _ & _ & _ & -> & _). rewrite ZA, ZB. assert (GA : 0 < ga g) by apply Hg. apply Rmult_le_pos; [nra|]. apply Rlt_le, Rinv_0_lt_compat. lra.
  - intros M0 Z0. apply Rle_lt_trans with (1 := Q2). assert (0 < (Za + Zb) / far) by (apply Rmult_lt_0_compat; [exact Z0|apply Rinv_0_lt_compat, FA]). nra.
Qed.
Print Assumptions C133_nuclear.
(** E.Vext lies between the smallest and the largest value of the external potential of each spin times its electrons. *)
Theorem C133_external : forall g w sched d k st ev v lo hi, plain_run g w sched d k st ev -> k_vext k = Some v -> (forall x j, (x < Nelem g)%nat -> (j < k_pol k)%nat -> lo j <= v x j <= hi j) ->
  sumR (k_pol k) (fun j => lo j * electrons k j) <= E_Vext ev <= sumR (k_pol k) (fun j => hi j * electrons k j).
Proof.
  intros g w sched d k st ev v lo hi PR VX H. pose proof PR as (Hg & Hl & HN & WO & SY & PL & PC & _ & R & I2 & KE). destruct (plain_trace _ _ _ _ _ _ _ PR) as (o & O1 & O2 & O3 & T).
  apply (external_between g w o sched k st ev Hg (gwi_positive g Hg Hl HN) WO SY PL O1 O2 O3 PC T I2 KE). unfold outer. rewrite VX. exact H.
Qed.
Print Assumptions C133_external.
(** E.Eh is not negative when the Poisson equation is solved exactly on three-point grids and the density ends within half the distance of the ghost points. *)
Theorem C133_hartree : forall g w sched d k st ev L U n rho, plain_run g w sched d k st ev -> o_int (k_opt k) <> "ni"%string -> fd_ok g 1 -> gL g / INR (Nr g) <= 1 ->
  solver_for (Nelem g) L (e_spL w) -> solver_for (Nelem g) U (e_spU w) -> (forall i j, (i < Nelem g)%nat -> (j < Nelem g)%nat -> matmul (Nelem g) L U i j = elap g i j) ->
  k_n (c_ks st) = Some n -> inside g (fun x => sumR (k_pol k) (fun s => n x s)) rho -> 0 <= rho -> 2 * rho <= r_ghosts g -> exists Eh, E_Eh ev = Some Eh /\ 0 <= Eh.
Proof.
  intros g w sched d k st ev L U n rho PR NI HF H1 HL HU HLU KN IN R0 R1. pose proof PR as (Hg & Hl & HN & WO & SY & PL & PC & _ & R & I2 & KE). destruct (plain_trace _ _ _ _ _ _ _ PR) as (o & O1 & O2 & O3 & T). pose proof (gwi_positive g Hg Hl HN) as W.
  destruct (run_parts g w o sched k st ev WO SY PL O1 O2 O3 PC T I2 KE) as (n' & N1 & NN & NE & _ & _ & _ & Q). assert (n' = n) by congruence. subst n'. destruct (Q NI) as (vh & Q1 & Q2). eexists. split; [exact Q2|].
  assert (TN : forall x, (x < Nelem g)%nat -> 0 <= sumR (k_pol k) (fun s => n x s)) by (intros x Hx; rewrite <- (sumR_zero (k_pol k) (fun _ => 0)) by reflexivity; apply sumR_le; intros; apply NN, Hx).
  apply Rmult_le_pos; [lra|]. apply int_nonneg; [exact Hg|exact W|]. intros x Hx. apply Rmult_le_pos; [apply TN, Hx|].
  apply (nonneg_explicit g _ _ L U n (k_pol k) vh rho Hg HF H1 HL HU HLU Q1); auto. intros y Hy. split; [apply TN, Hy|]. apply Rmult_le_pos; [apply Rlt_le, W, Hy|apply TN, Hy].
Qed.
Print Assumptions C133_hartree.

Lemma wide_positive : forall k, (k < Nelem g_wide)%nat -> 0 < gwi g_wide k.
Proof. intros k Hk. rewrite wide_weights by exact Hk. lra. Qed.
Lemma wide_unit : 0 < integrate1 g_wide (fun _ => 1 ^ 2).
Proof.
  apply Rnot_le_lt. intros H. pose proof (int_vanish g_wide wide_ok wide_positive (fun _ => 1 ^ 2) ltac:(intros; lra) H 0%nat ltac:(cbn; lia)) as Z. cbv beta in Z. lra.
Qed.
(** smallest and largest distance for C133_nuclear *)
Lemma wide_distances : exists near far, 0 < near /\ forall x, (x < Nelem g_wide)%nat -> near <= dist2 (gZ g_wide x) (gY g_wide x) (- ga g_wide) 0 <= far /\ near <= dist2 (gZ g_wide x) (gY g_wide x) (ga g_wide) 0 <= far.
Proof.
  set (da := fun x => dist2 (gZ g_wide x) (gY g_wide x) (- ga g_wide) 0). set (db := fun x => dist2 (gZ g_wide x) (gY g_wide x) (ga g_wide) 0).
  destruct (finite_bounds da (Nelem g_wide)) as (a1 & a2 & HA). destruct (finite_bounds db (Nelem g_wide)) as (b1 & b2 & HB). destruct (finite_bounds (fun x => / da x) (Nelem g_wide)) as (c1 & c2 & HC). destruct (finite_bounds (fun x => / db x) (Nelem g_wide)) as (d1 & d2 & HD).
  set (m := Rmax 1 (Rmax c2 d2)). assert (M : 1 <= m /\ c2 <= m /\ d2 <= m) by (unfold m; pose proof (Rmax_l 1 (Rmax c2 d2)); pose proof (Rmax_r 1 (Rmax c2 d2)); pose proof (Rmax_l c2 d2); pose proof (Rmax_r c2 d2); lra).
  assert (Q : forall y, 0 < y -> / y <= m -> / m <= y) by (intros y Y1 Y2; rewrite <- (Rinv_inv y); apply Rinv_le_contravar; [apply Rinv_0_lt_compat, Y1|exact Y2]).
  exists (/ m), (Rmax a2 b2). split; [apply Rinv_0_lt_compat; lra|]. intros x Hx. fold (da x) (db x). pose proof (HA x Hx). pose proof (HB x Hx). pose proof (HC x Hx). pose proof (HD x Hx). pose proof (Rmax_l a2 b2). pose proof (Rmax_r a2 b2).
  pose proof (Q (da x) (dist_A_pos g_wide x wide_ok Hx) ltac:(lra)). pose proof (Q (db x) (dist_B_pos g_wide x wide_ok Hx) ltac:(lra)). lra.
Qed.
(** two interacting electrons around two protons on a 2 x 2 grid, with the exact solution of the Poisson equation and an external potential between -1 and 2 *)
Lemma C133_witness : exists w k0 k d st ev n U, ks_init g_wide 1 1 2 1 2 (fun _ _ => 1%nat) 1 2 ex_N ex_opt = Ok k0 /\ k = set_vext k0 (Some (fun x j => if Nat.even x then -1 else 2)) /\ plain_run g_wide w (fun _ => keys k0) d k st ev /\
  (exists st0 ev0, plain_run g_wide w (fun _ => keys k0) d k0 st0 ev0) /\ o_int (k_opt k) <> "ni"%string /\ fd_ok g_wide 1 /\ gL g_wide / INR (Nr g_wide) <= 1 /\ solver_for (Nelem g_wide) eye (e_spL w) /\ solver_for (Nelem g_wide) U (e_spU w) /\
  (forall i j, (i < Nelem g_wide)%nat -> (j < Nelem g_wide)%nat -> matmul (Nelem g_wide) eye U i j = elap g_wide i j) /\ k_n (c_ks st) = Some n /\ inside g_wide (fun x => sumR (k_pol k) (fun s => n x s)) (r_points g_wide) /\ 0 <= r_points g_wide /\ 2 * r_points g_wide <= r_ghosts g_wide /\
  electrons k 0 = 1 /\ electrons k 1 = 1.
Proof.
  assert (H1 : gL g_wide / INR (Nr g_wide) <= 1) by (rewrite wide_step; lra). destruct (three_point_ok g_wide wide_ok wide_fd H1) as (_ & sp & Hs).
  set (w := mkEnv (e_worker ex_env) (e_lib ex_env) (fun b => b) sp).
  assert (KI : exists k0, ks_init g_wide 1 1 2 1 2 (fun _ _ => 1%nat) 1 2 ex_N ex_opt = Ok k0) by (eapply init_total; [reflexivity|]; intros; unfold ex_N; lra). destruct KI as (k0 & KI).
  assert (KS : k_pol k0 = 2%nat /\ k_cols k0 = 2%nat /\ k_lv k0 = 1%nat /\ o_sym (k_opt k0) = false /\ o_int (k_opt k0) = "dft"%string /\ o_fam (k_opt k0) = "lda"%string /\
    forall i j, place k0 i j -> s_m (k_sol k0 i j) = 0%Z /\ s_pol (k_sol k0 i j) = 2%nat /\ s_N (k_sol k0 i j) = 1 /\ s_frac (k_sol k0 i j) = true).
  { pose proof KI as H. apply init_spec in H. destruct H as (o & C & _ & _ & _ & _ & P & L & CC & OI & OS & _ & _ & _ & OF & _ & _ & _ & _ & _ & _ & S).
    injection C as <-. repeat split; auto; destruct (S i j H) as (_ & S1 & S2 & S3 & _ & S4 & _); auto. rewrite S1. destruct H as (Hi & _). rewrite L in Hi. replace i with 0%nat by lia. reflexivity. }
  set (k := set_vext k0 (Some (fun x j => if Nat.even x then -1 else 2))).
  assert (WO : worker_ok g_wide w) by (intros it s r E; injection E as <-; cbn [snd]; intros; exact wide_unit).
  assert (RUN : forall kk, (exists v, kk = set_vext k0 v) -> exists st ev, plain_run g_wide w (fun _ => keys k0) [] kk st ev).
  { intros kk (v & ->). destruct KS as (P & C & L & OS & OI & OF & S).
    assert (C1 : capable w (set_vext k0 v)).
    { intros it i j s Hp (S1 & S2 & S3 & S4). destruct (S i j Hp) as (M & PP & N & F). rewrite S3. cbn [set_vext k_sol]. rewrite N. split; [lra|].
      exists 1%nat, (fun _ => -1), (fun _ _ => 1). split; [reflexivity|]. rewrite S1, S2. cbn [set_vext k_sol]. rewrite M, PP. unfold shell_size. simpl. lra. }
    assert (C3 : forall i j, place (set_vext k0 v) i j -> KSSpec.placed (k_sol (set_vext k0 v) i j)) by (intros i j Hp; destruct (S i j Hp) as (M & PP & N & F); split; [cbn [set_vext k_sol]; rewrite N; lra|auto]).
    assert (C4 : hxc_available g_wide w (set_vext k0 v)).
    { right. intros n. cbn [set_vext k_opt k_pol]. rewrite P, OF. destruct (hartree_succeeds g_wide (e_spL w) (e_spU w) 1 n wide_fd ltac:(cbn; lia)) as [_ (vh & Ev)]. do 3 eexists. split; [reflexivity|]. split; [reflexivity|]. exact Ev. }
    assert (O : exists o, scf_options [] = Ok o) by (eexists; reflexivity). destruct O as (o & O). pose proof O as OE. injection OE as OE. assert (T0 : 10 * / 10 ^ 6 = 1 / 100000) by field.
    assert (Q : so_cont o = false /\ so_auto o = false /\ so_maxiter o = 100%Z /\ so_tol o = 10 * / 10 ^ 6 /\ so_flip o = false /\ so_alpha o = 1 / 2) by (rewrite <- OE; repeat split; reflexivity). destruct Q as (Q1 & Q2 & Q3 & Q4 & Q5 & Q6). rewrite T0 in Q4.
    assert (N4 : (0 < Nelem g_wide)%nat) by (cbn; lia).
    assert (LC : (1 <= k_cols (set_vext k0 v) <= k_pol (set_vext k0 v))%nat) by (cbn [set_vext k_cols k_pol]; lia). assert (LL : (1 <= k_lv (set_vext k0 v))%nat) by (cbn [set_vext k_lv]; lia).
    destruct (scf_total g_wide w (set_vext k0 v) N4 C1 C4 LC LL (fun _ => keys k0) [] o O Q2 (fun _ => keys_schedule k0) ltac:(congruence)) as (st & E).
    destruct (scf_inv _ _ _ _ _ _ E) as (o' & O' & T & X). rewrite O in O'. injection O' as <-. pose proof (first_pass _ _ _ _ _ _ T X ltac:(lra) ltac:(lia)) as I2.
    assert (KE : exists ev, k_E (c_ks st) = Some ev).
    { destruct T as [kk SS|x y Tx Tt B]; [cbn in I2; lia|]. apply KSLoop.body_inv in B. destruct B as (_ & y1 & ve & vh & sol & k3 & nout & n1 & k4 & k5 & E1 & r & _ & _ & _ & _ & _ & _ & _ & _ & Y & _ & ->). exists E1. exact Y. }
    destruct KE as (ev & KE). exists st, ev. split; [exact wide_ok|]. split; [apply grid_of_lstsq|]. split; [cbn; tauto|]. split; [exact WO|]. split; [exact OS|]. split; [exact C3|]. split; [cbn [set_vext k_cols k_pol]; congruence|].
    split; [exists o; repeat split; auto; lra|]. auto. }
  destruct (RUN k (ex_intro _ _ eq_refl)) as (st & ev & R). destruct (RUN k0) as (st0 & ev0 & R'); [exists None|].
  { clear - KI. apply init_spec in KI. destruct KI as (o & _ & _ & _ & _ & _ & _ & _ & _ & _ & _ & _ & _ & _ & _ & V & _). destruct k0. cbn in *. subst. reflexivity. }
  destruct (plain_trace _ _ _ _ _ _ _ R) as (o & O1 & O2 & O3 & T). pose proof R as (_ & _ & _ & _ & SY & PL & PC & _ & _ & I2 & KE).
  destruct (run_parts g_wide w o (fun _ => keys k0) k st ev WO SY PL O1 O2 O3 PC T I2 KE) as (n & N1 & _). destruct KS as (P & C & L & OS & OI & OF & S).
  exists w, k0, k, [], st, ev, n, (elap g_wide). split; [exact KI|]. split; [reflexivity|]. split; [exact R|]. split; [exists st0, ev0; exact R'|]. split; [unfold k; cbn [set_vext k_opt]; rewrite OI; discriminate|]. split; [exact wide_fd|]. split; [exact H1|]. split; [apply eye_solver|]. split; [exact Hs|].
  split; [intros; apply eye_matmul; auto|]. split; [exact N1|]. split; [apply points_within, wide_ok|]. split; [apply points_nonneg, wide_ok|]. split; [exact wide_half|].
  unfold electrons, k. cbn [set_vext k_lv k_sol]. rewrite L. cbn [sumR]. rewrite !(fun i j H => proj1 (proj2 (proj2 (S i j H)))) by (split; lia). split; ring.
Qed.
