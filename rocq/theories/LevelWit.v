(** A run for the theorems of LevelBounds.v: two electrons without interaction on a 16 x 16 grid, in potentials whose lowest orbital is the constant. *)
From Coq Require Import Reals List Arith Lia Lra ZArith Bool String FunctionalExtensionality.
From Verif Require Import Base BaseLemmas GridModel GridSpec GridProofs HartreeModel HartreeThms SolverModel SolverSpec SolverProofs LibxcModel OptionsModel KSModel KSSpec KSProofs KSThms KSLoop KSEnergy KSTotal SelfConsistent NonInteracting
  GridWitness SolverWitness SolverCases KSWit InverterThms KSMemory KSMemoryWit NCSignsThms GroundThms Gauge LevelBounds.
Import ListNotations.
Local Open Scope R_scope.
Local Opaque sinh cosh.

Lemma lv_weights : forall k, (k < Nelem g3p)%nat -> 0 < gwi g3p k.
Proof. intros k Hk. destruct g3p_mirror_hyps as (A & B & _). apply (gwi_positive g3p A B); [|exact Hk]. unfold signed_well. cbn. tauto. Qed.
Lemma lv_points : (0 < Nelem g3p)%nat.
Proof. unfold Nelem. cbn. lia. Qed.
(** (H 1)_x / w_x: in the potential a - lv_row the constant solves the equation with energy a. *)
Definition lv_row (x : nat) : R := sumR (Nelem g3p) (fun y => hamiltonian g3p 0 x y) / gw g3p x.
Lemma lv_constant : eigenpair g3p (hamiltonian g3p 0) (fun x => - lv_row x) 0 (fun _ => 1).
Proof.
  intros x Hx. unfold lv_row. pose proof (gw_pos g3p x g3p_ok Hx). rewrite (sumR_ext _ (fun j => hamiltonian g3p 0 x j * 1) (fun j => hamiltonian g3p 0 x j)) by (intros; ring). field. lra.
Qed.

Section Case.
(** One orbital u of energy e0 in the potential q. *)
Variables (q u : vec) (e0 : R).
Hypotheses (EP : eigenpair g3p (hamiltonian g3p 0) q e0 u) (UN : exists x, (x < Nelem g3p)%nat /\ u x <> 0).
Definition lv_pot (c : R) : vec := fun x => q x + c.
Lemma lv_pair : forall c v, (forall x, (x < Nelem g3p)%nat -> v x = lv_pot c x) -> eigenpair g3p (hamiltonian g3p 0) v (e0 + c) u.
Proof. intros c v HV x Hx. rewrite (HV x Hx). unfold lv_pot. pose proof (EP x Hx) as H. cbv beta in H. rewrite Rmult_plus_distr_l, Rmult_plus_distr_r, <- Rplus_assoc, H. ring. Qed.
Lemma lv_norm : 0 < norm2 g3p u.
Proof.
  unfold norm2. apply Rnot_le_lt. intros H. destruct UN as (x & X1 & X2). pose proof (int_vanish g3p g3p_ok lv_weights (fun x => u x ^ 2) ltac:(intros; apply pow2_ge_0) H x X1) as Z. cbv beta in Z. pose proof (pow_nonzero _ 2 X2). contradiction.
Qed.
(** The worker answers with u and the energy that belongs to it in a potential that differs from q by a constant, read off at the first point. *)
Definition lv_env : env := mkEnv (fun _ s => Some ((1%nat, fun _ => s_veff s 0%nat - q 0%nat + e0), Some (1%nat, fun _ => u))) (e_lib ex_env) (e_spL ex_env) (e_spU ex_env).
Lemma lv_normed : normed_workers g3p lv_env.
Proof. intros it s r m p E P i _. injection E as <-. injection P as <- <-. apply Rgt_not_eq, lv_norm. Qed.
Lemma lv_init : exists k, ks_init g3p 1 0 2 1 2 (fun _ _ => 1%nat) 1 2 ex_N ni_opt = Ok k.
Proof. eapply init_total; [reflexivity|]. intros. unfold ex_N. lra. Qed.
Definition lv_shape (k : ks) : Prop := k_pol k = 2%nat /\ k_cols k = 2%nat /\ k_lv k = 1%nat /\ o_sym (k_opt k) = false /\ o_int (k_opt k) = "ni"%string /\
  forall i j, place k i j -> s_m (k_sol k i j) = 0%Z /\ s_pol (k_sol k i j) = 2%nat /\ s_N (k_sol k i j) = 1.
Lemma lv_static : forall k, ks_init g3p 1 0 2 1 2 (fun _ _ => 1%nat) 1 2 ex_N ni_opt = Ok k -> lv_shape k.
Proof.
  intros k H. apply init_spec in H. destruct H as (o & C & _ & _ & ZA & ZB & P & L & CC & OI & OS & _ & _ & _ & OF & V & _ & _ & _ & _ & _ & S).
  injection C as <-. do 5 (split; [assumption|]). intros i j H. destruct (S i j H) as (_ & S1 & S2 & S3 & _ & S4 & _).
  split; [|auto]. rewrite S1. destruct H as (Hi & _). rewrite L in Hi. replace i with 0%nat by lia. reflexivity.
Qed.
Lemma lv_runs : forall k l d o, lv_shape k -> schedule k l -> scf_options d = Ok o -> so_auto o = false -> so_cont o = false -> exists st, ks_scf g3p lv_env (fun _ => l) d k = Ok st.
Proof.
  intros k l d o KO SC O HA HC. pose proof KO as (P & C & L & OS & OF & S).
  assert (C1 : capable lv_env k).
  { intros it i j s Hp (S1 & S2 & S3 & S4). destruct (S i j Hp) as (M & PP & N). rewrite S3, N. split; [lra|]. eexists 1%nat, _, _. split; [reflexivity|]. rewrite S1, S2, M, PP. unfold shell_size. simpl. lra. }
  assert (C2 : worker_ok g3p lv_env) by (intros it s r E; injection E as <-; cbn [snd]; intros; exact lv_norm).
  assert (C3 : forall i j, place k i j -> KSSpec.placed (k_sol k i j)).
  { intros i j Hp. destruct (S i j Hp) as (M & PP & N). split; [rewrite N; lra|]. right. exists 1%nat. rewrite M, PP, N. unfold shell_size. simpl. lra. }
  assert (C4 : hxc_available g3p lv_env k) by (left; exact OF). pose proof lv_points as Q.
  edestruct (scf_total g3p lv_env k) with (sched := fun _ : Z => l) (d := d) as (st & E); try eassumption; try (intros _; exact SC); try congruence; try lia. eauto.
Qed.
(** Effective potentials after a pass. *)
Lemma lv_veff : forall k o sched a st, lv_shape k -> scf_trace g3p lv_env o sched k a -> scf_body g3p lv_env o (sched (c_iter a)) a = Ok st -> forall i j, place (c_ks st) i j ->
  (forall x, s_veff (k_sol (c_ks st) i j) x = k_vnuc k x j + outer k x j) /\ s_m (k_sol (c_ks st) i j) = 0%Z /\ exists v, s_eig (k_sol (c_ks st) i j) = Some (1%nat, fun _ => v 0%nat - q 0%nat + e0) /\ v = s_veff (k_sol (c_ks st) i j).
Proof.
  intros k o sched a st (P & C & L & OS & OF & S) T B i j Hp. pose proof (trace_frame _ _ _ _ _ _ T) as (F & _). pose proof (trace_vext _ _ _ _ _ _ T) as VX.
  apply KSLoop.body_inv in B. destruct B as (_ & k1 & ve & vh & sol & k3 & nout & n1 & k4 & k5 & E & r & A1 & A2 & A3 & A4 & A5 & A6 & A7 & A8 & A9 & A10 & ->). cbn [c_ks] in *.
  destruct (hxc_frame _ _ _ _ A1) as (Fa & Na & Va & Sa). pose proof (frame_trans _ _ _ F Fa) as (G1 & _ & _ & G4 & G5 & G6 & G7 & G8).
  assert (ve = outer k) by congruence. subst ve.
  assert (VH : forall x j, vh x j = 0).
  { intros x y. apply hxc_inv in A1. destruct A1 as (V & v & -> & Q). cbn [set_vhxc set_EV k_vhxc] in A3. destruct F as (F1 & _). rewrite F1, OS in A3. injection A3 as <-.
    destruct Q as [(_ & _ & Z & _)|(Z & _)]; [apply Z|]. rewrite F1 in Z. contradiction. }
  apply distribute_scf_ok in A4. destruct A4 as (A4 & _). apply density_inv in A5. destruct A5 as (s3 & m3 & -> & W & _).
  apply energy_keep in A7. destruct A7 as (Ea & Vaa & ->). apply chempot_spec in A8. destruct A8 as (uu & -> & _).
  unfold place in Hp. cbn [set_u set_EV set_n set_sol set_veffs k_lv k_cols k_sol] in Hp |- *.
  destruct (W i j Hp) as (rr & R1 & R2). injection R1 as <-. cbn [set_sol k_sol] in R2. rewrite R2.
  assert (Pk : place k i j) by (unfold place; rewrite <- G5, <- G6; exact Hp). destruct (S i j Pk) as (S1 & _ & _). destruct (G8 i j) as (J1 & _).
  destruct (A4 i j Hp) as (Hj & SE). rewrite SE. split; [|split].
  - intros x. cbn [set_result set_veff s_veff]. unfold add3. rewrite G7, VH. ring.
  - cbn [set_result set_veff s_m]. congruence.
  - eexists. split; reflexivity.
Qed.
Lemma finite_bounds : forall (f : nat -> R) n, exists b B, forall x, (x < n)%nat -> b <= f x <= B.
Proof.
  intros f n. induction n as [|n (b & B & IH)]; [exists 0, 0; intros; lia|]. exists (Rmin b (f n)), (Rmax B (f n)). intros x Hx. pose proof (Rmin_l b (f n)). pose proof (Rmin_r b (f n)). pose proof (Rmax_l B (f n)). pose proof (Rmax_r B (f n)).
  destruct (Nat.eq_dec x n) as [->|]; [lra|]. pose proof (IH x ltac:(lia)). lra.
Qed.
(** The potentials q + 2 and q + 3 for the two spins. *)
Theorem level_case : forall b B, (forall x, (x < Nelem g3p)%nat -> b <= q x <= B) -> exists k0 k st, ks_init g3p 1 0 2 1 2 (fun _ _ => 1%nat) 1 2 ex_N ni_opt = Ok k0 /\ k = set_vext k0 (Some (fun x j => lv_pot (2 + INR j) x - k_vnuc k0 x j)) /\
  three_point g3p /\ (forall x, (x < Nelem g3p)%nat -> 0 < gwi g3p x) /\ normed_workers g3p lv_env /\ ks_scf g3p lv_env (fun _ => keys k) [] k = Ok st /\ (2 <= c_iter st)%Z /\ levels_exact g3p (c_ks st) /\
  (forall j, (j < k_cols (c_ks st))%nat -> pot_above g3p (c_ks st) j (b + 2 + INR j) /\ pot_below g3p (c_ks st) j (B + 2 + INR j)) /\ (forall j, (j < 2)%nat -> exists m, eig_at (k_sol (c_ks st) 0 j) m = Ok (e0 + (2 + INR j))).
Proof.
  intros b B BB. destruct lv_init as (k0 & KI). pose proof (lv_static k0 KI) as KO. set (k := set_vext k0 (Some (fun x j => lv_pot (2 + INR j) x - k_vnuc k0 x j))).
  assert (SH : lv_shape k) by exact KO.
  assert (O : exists o, scf_options [] = Ok o) by (eexists; reflexivity). destruct O as (o & O). pose proof O as OE. injection OE as OE.
  assert (T0 : 10 * / 10 ^ 6 = 1 / 100000) by field.
  assert (Q : so_cont o = false /\ so_auto o = false /\ so_maxiter o = 100%Z /\ so_tol o = 10 * / 10 ^ 6) by (rewrite <- OE; repeat split; reflexivity). destruct Q as (Q2 & Q3 & Q4 & Q5). rewrite T0 in Q5.
  destruct (lv_runs k (keys k) [] o SH (keys_schedule k) O Q3 Q2) as (st & E).
  destruct (scf_inv _ _ _ _ _ _ E) as (o' & O' & T & X). rewrite O in O'. injection O' as <-. pose proof (first_pass _ _ _ _ _ _ T X ltac:(lra) ltac:(lia)) as I2.
  assert (V : forall i j, place (c_ks st) i j -> (forall x, s_veff (k_sol (c_ks st) i j) x = lv_pot (2 + INR j) x) /\ s_m (k_sol (c_ks st) i j) = 0%Z /\ s_eig (k_sol (c_ks st) i j) = Some (1%nat, fun _ => e0 + (2 + INR j))).
  { intros i j Hp. destruct T as [kk SS|a t Ta Te TB]; [cbn in I2; lia|]. destruct (lv_veff k o _ a t SH Ta TB i j Hp) as (V1 & V2 & v & V3 & V4).
    assert (VX : forall x, s_veff (k_sol (c_ks t) i j) x = lv_pot (2 + INR j) x) by (intros x; rewrite V1; unfold k, outer; cbn [set_vext k_vext k_vnuc]; ring).
    split; [exact VX|]. split; [exact V2|]. rewrite V3, V4, VX. unfold lv_pot. do 2 f_equal. apply functional_extensionality. intros _. ring. }
  exists k0, k, st. split; [exact KI|]. split; [reflexivity|]. split; [exact g3p_spacing|]. split; [exact lv_weights|]. split; [exact lv_normed|]. split; [exact E|]. split; [exact I2|]. split; [|split].
  - intros i j m e Hp H. destruct (V i j Hp) as (V1 & V2 & V3). unfold eig_at in H. rewrite V3 in H. cbn [fst snd] in H. destruct (pyidx 1 m) as [z|]; [|discriminate]. cbn [bind] in H. injection H as <-.
    exists u. split; [exact UN|]. rewrite V2. apply lv_pair. intros; apply V1.
  - intros j Hj. split; intros i x Hi Hx; destruct (V i j (conj Hi Hj)) as (V1 & _); rewrite V1; pose proof (BB x Hx); unfold lv_pot in *; lra.
  - intros j Hj. exists 0%Z. pose proof (trace_frame _ _ _ _ _ _ T) as ((_ & _ & _ & _ & F5 & F6 & _) & _). destruct SH as (_ & C & L & _).
    destruct (V 0%nat j) as (_ & _ & V3); [split; [rewrite F5, L; lia|rewrite F6, C; exact Hj]|]. unfold eig_at. rewrite V3. reflexivity.
Qed.
End Case.
