(** The chemical potential as the energy of the last electron. *)
From Coq Require Import Reals List Arith Lia Lra ZArith Bool String.
From Verif Require Import Base BaseLemmas GridModel GridSpec GridProofs SolverModel SolverSpec SolverProofs LibxcModel OptionsModel KSModel KSSpec KSProofs KSThms KSLoop KSEnergy KSTotal SelfConsistent NonInteracting InverterThms KSMemory Gauge Binding SolverThms ElectronNumber.
Import ListNotations.
Local Open Scope R_scope.

(** * One solver *)
(** The orbital that holds the last electron of N. *)
Definition holds_last (c : R) (m : nat) (N : R) : Prop := c * INR m < N <= c * INR (S m).
Lemma last_unique : forall c m m' N, 0 < c -> holds_last c m N -> holds_last c m' N -> m' = m.
Proof.
  intros c m m' N C (A & B) (A' & B'). assert (INR m < INR (S m')) by (apply Rmult_lt_reg_l with (1 := C); lra). assert (INR m' < INR (S m)) by (apply Rmult_lt_reg_l with (1 := C); lra). apply INR_lt in H, H0. lia.
Qed.
Lemma homo_last : forall s n e h, s_eig s = Some (n, e) -> 0 < s_N s -> get_homo s = Ok h -> exists m, holds_last (shell_size (s_m s) (s_pol s)) m (s_N s) /\ h = carry n e m.
Proof.
  intros s n e h SE N0 H. unfold get_homo in H. rewrite nocc_form in H. unfold shx in H. pose proof (size_positive (s_m s) (s_pol s)) as Z. set (c := shell_size (s_m s) (s_pol s)) in *.
  destruct (ElectronNumber.filling c (s_N s) Z ltac:(lra)) as (q & Q1 & Q2). rewrite Q2 in H. rewrite <- INR_IZR_INZ in H. assert (X : s_N s = s_N s / c * c) by (field; lra).
  unfold nonzero in H. destruct (Req_EM_T (s_N s / c - INR q) 0) as [K|K].
  - assert (SN : s_N s = c * INR q) by (replace (INR q) with (s_N s / c) by lra; lra). destruct q as [|q]; [cbn [INR] in SN; lra|]. destruct (Z.eqb_spec (Z.of_nat (S q)) 0); [lia|].
    replace (Z.of_nat (S q) - 1)%Z with (Z.of_nat q) in H by lia. exists q. split; [split; [rewrite SN, S_INR; nra|lra]|]. exact (eig_carry s n e q h SE H).
  - destruct (Z.eqb_spec (Z.of_nat q + 1) 0); [lia|]. replace (Z.of_nat q + 1 - 1)%Z with (Z.of_nat q) in H by lia. exists q. split; [|exact (eig_carry s n e q h SE H)].
    split; [|lra]. destruct (Rle_lt_or_eq_dec _ _ (proj1 Q1)) as [L|L]; [exact L|]. exfalso. apply K. rewrite <- L. field. lra.
Qed.
(** Taking electrons out of a solver with levels in ascending order. *)
Theorem eks_removal : forall s s' E E' h, s_frac s = true -> s_frac s' = true -> s_m s' = s_m s -> s_pol s' = s_pol s -> s_eig s' = s_eig s -> s_eig s <> None -> 0 <= s_N s' <= s_N s -> 0 < s_N s -> calc_eks s = Ok E -> calc_eks s' = Ok E' -> get_homo s = Ok h ->
  (ascending s -> E - E' <= (s_N s - s_N s') * h) /\ (forall m, between (shell_size (s_m s) (s_pol s)) m (s_N s) -> between (shell_size (s_m s) (s_pol s)) m (s_N s') -> E - E' = (s_N s - s_N s') * h).
Proof.
  intros s s' E E' h F F' M P G SN N0 N1 H H' HH. destruct (s_eig s) as [(n, e)|] eqn:SE; [|congruence]. destruct (homo_last s n e h SE N1 HH) as (m & HM & ->).
  pose proof (size_positive (s_m s) (s_pol s)) as Z. set (c := shell_size (s_m s) (s_pol s)) in *.
  assert (L : forall q, between c q (s_N s) -> E = line c (carry n e) q (s_N s)) by (intros q B; exact (eks_line s n e E q F SE ltac:(lra) H B)).
  assert (L' : forall q, between c q (s_N s') -> E' = line c (carry n e) q (s_N s')) by (intros q B; rewrite (eks_line s' n e E' q F' G ltac:(lra) H'); rewrite M, P; [reflexivity|exact B]).
  assert (B0 : between c m (s_N s)) by (unfold between; destruct HM; lra).
  assert (D : line c (carry n e) m (s_N s) - line c (carry n e) m (s_N s') = (s_N s - s_N s') * carry n e m) by (unfold line; ring).
  split.
  - intros A. pose proof (carry_up n e (A n e SE)) as CU. destruct (ElectronNumber.filling c (s_N s') Z (proj1 N0)) as (m' & B' & _). assert (Q' : between c m' (s_N s')) by (unfold between; lra).
    rewrite (L m B0), (L' m' Q'). pose proof (line_max c _ m' _ Z CU Q' m). lra.
  - intros q B B'. destruct (Req_dec (s_N s') (s_N s)) as [Q|Q].
    + rewrite (L q B), (L' q B'), Q. ring.
    + assert (q = m) by (apply (last_unique c m q (s_N s) Z HM); unfold between in *; unfold holds_last; lra). subst q. rewrite (L m B), (L' m B'). exact D.
Qed.
Lemma carry_le : forall n e, (forall i, (S i < n)%nat -> e i <= e (S i)) -> forall i j, (i <= j)%nat -> carry n e i <= carry n e j.
Proof. intros n e H i j L. induction L as [|j L IH]; [lra|]. pose proof (carry_up n e H j). lra. Qed.
(** The highest level does not rise when electrons are taken out. *)
Theorem homo_order : forall s s' h h', s_m s' = s_m s -> s_pol s' = s_pol s -> s_eig s' = s_eig s -> s_eig s <> None -> ascending s -> 0 < s_N s' <= s_N s -> get_homo s = Ok h -> get_homo s' = Ok h' -> h' <= h.
Proof.
  intros s s' h h' M P G SN A N0 H H'. destruct (s_eig s) as [(n, e)|] eqn:SE; [|congruence]. destruct (homo_last s n e h SE ltac:(lra) H) as (m & (HM1 & HM2) & ->). destruct (homo_last s' n e h' G ltac:(lra) H') as (m' & (HM1' & HM2') & ->). rewrite M, P in HM1'.
  apply carry_le; [exact (A n e SE)|]. pose proof (size_positive (s_m s) (s_pol s)) as Z. assert (L : INR m' < INR (S m)) by (apply Rmult_lt_reg_l with (1 := Z); lra). apply INR_lt in L. lia.
Qed.
Lemma eks_none : forall s E, s_frac s = true -> s_eig s <> None -> s_N s = 0 -> calc_eks s = Ok E -> E = 0.
Proof.
  intros s E F SN N0 H. destruct (s_eig s) as [(n, e)|] eqn:SE; [|congruence]. pose proof (size_positive (s_m s) (s_pol s)) as Z. rewrite (eks_line s n e E 0 F SE ltac:(lra) H); [|split; rewrite N0; cbn [INR]; lra]. unfold line. rewrite N0. cbn [INR sumR]. ring.
Qed.

(** * Runs *)
Lemma run_chempot : forall g w o sched k st u, scf_trace g w o sched k st -> (2 <= c_iter st)%Z -> k_u (c_ks st) = Some u ->
  (exists i j, place k i j /\ get_homo (k_sol (c_ks st) i j) = Ok u) /\ forall i j, place k i j -> exists h, get_homo (k_sol (c_ks st) i j) = Ok h /\ h <= u.
Proof.
  intros g w o sched k st u T I2 KU. pose proof (trace_frame _ _ _ _ _ _ T) as ((_ & _ & _ & _ & F5 & F6 & _) & _).
  destruct T as [kk SS|x y Tx Tt B]; [cbn in I2; lia|]. apply KSLoop.body_inv in B. destruct B as (_ & y1 & ve & vh & sol & k3 & nout & n1 & k4 & k5 & E1 & r & _ & _ & _ & _ & _ & _ & X & Y & _ & _ & ->). cbn [c_ks] in *.
  apply chempot_spec in Y. destruct Y as (uu & -> & Y1 & Y2). cbn [set_u k_u k_sol k_lv k_cols] in *. injection KU as <-. unfold place in *. rewrite F5, F6 in Y1, Y2. auto.
Qed.
