(** Energies as functions of fractional electron numbers. *)
From Coq Require Import Reals List Arith Lia Lra ZArith Bool String.
From Verif Require Import Base BaseLemmas GridModel GridSpec GridProofs SolverModel SolverSpec SolverProofs LibxcModel OptionsModel KSModel KSSpec KSProofs KSThms KSLoop KSEnergy KSTotal SelfConsistent NonInteracting InverterThms KSMemory Gauge Binding.
Import ListNotations.
Local Open Scope R_scope.

(** * Specification *)
(** Energy of N electrons when orbitals of capacity c are filled in order and the last, number m, takes the rest. *)
Definition line (c : R) (e : nat -> R) (m : nat) (N : R) : R := c * sumR m e + (N - c * INR m) * e m.
(** N electrons lie between m and m + 1 filled orbitals. *)
Definition between (c : R) (m : nat) (N : R) : Prop := c * INR m <= N <= c * INR (S m).
(** The worker looks at angular momentum, options and potential of a solver, not at its number of electrons. *)
Definition by_potential (g : grid) (w : env) : Prop := forall it it' s s', s_m s' = s_m s -> s_pol s' = s_pol s -> s_Nmo s' = s_Nmo s -> s_frac s' = s_frac s -> s_sym s' = s_sym s -> (forall x, (x < Nelem g)%nat -> s_veff s' x = s_veff s x) ->
  e_worker w it' s' = e_worker w it s.
(** Stored levels in ascending order. *)
Definition ascending (s : solver) : Prop := forall n e, s_eig s = Some (n, e) -> forall i, (S i < n)%nat -> e i <= e (S i).

(** * Filling *)
Lemma line_step : forall c e m N, line c e (S m) N - line c e m N = (N - c * INR (S m)) * (e (S m) - e m).
Proof. intros. unfold line. rewrite S_INR. cbn [sumR]. ring. Qed.
Lemma line_edge : forall c e m N, N = c * INR (S m) -> line c e (S m) N = line c e m N.
Proof. intros c e m N H. pose proof (line_step c e m N) as Q. assert (Q0 : N - c * INR (S m) = 0) by lra. rewrite Q0, Rmult_0_l in Q. lra. Qed.
Lemma line_up : forall c e N, 0 < c -> (forall i, e i <= e (S i)) -> forall q m, (q <= m)%nat -> c * INR m <= N -> line c e q N <= line c e m N.
Proof.
  intros c e N C A q m L. induction L as [|p L IH]; intros H; [lra|]. pose proof (line_step c e p N) as Q. pose proof (A p). assert (0 <= (N - c * INR (S p)) * (e (S p) - e p)) by (apply Rmult_le_pos; lra).
  assert (c * INR p <= N) by (rewrite S_INR in H; nra). specialize (IH H2). lra.
Qed.
Lemma line_max : forall c e m N, 0 < c -> (forall i, e i <= e (S i)) -> between c m N -> forall q, line c e q N <= line c e m N.
Proof.
  intros c e m N C A (B1 & B2) q. destruct (Nat.le_ge_cases q m) as [L|L]; [apply line_up; assumption|].
  induction L as [|p L IH]; [lra|]. pose proof (line_step c e p N) as Q. pose proof (A p). assert (INR (S m) <= INR (S p)) by (apply le_INR; lia). assert (0 <= (c * INR (S p) - N) * (e (S p) - e p)) by (apply Rmult_le_pos; [nra|lra]). lra.
Qed.
Lemma line_mix : forall c e m N N' t, line c e m (t * N + (1 - t) * N') = t * line c e m N + (1 - t) * line c e m N'.
Proof. intros. unfold line. ring. Qed.
Lemma filling : forall c N, 0 < c -> 0 <= N -> exists m, c * INR m <= N < c * INR (S m) /\ Int_part (N / c) = Z.of_nat m.
Proof.
  intros c N C H. set (x := N / c). assert (X : x * c = N) by (unfold x; field; lra). assert (X0 : 0 <= x) by (unfold x; apply Rmult_le_pos; [exact H|apply Rlt_le, Rinv_0_lt_compat, C]).
  destruct (base_Int_part x) as [A B]. assert (I0 : (0 <= Int_part x)%Z) by (assert (IZR (-1) < IZR (Int_part x)) by lra; apply lt_IZR in H0; lia).
  exists (Z.to_nat (Int_part x)). rewrite S_INR, INR_IZR_INZ, Z2Nat.id by exact I0. split; [nra|reflexivity].
Qed.

(** * One solver *)
Definition carry (n : nat) (e : nat -> R) : nat -> R := fun i => if (i <? n)%nat then e i else e (n - 1)%nat.
Lemma carry_up : forall n e, (forall i, (S i < n)%nat -> e i <= e (S i)) -> forall i, carry n e i <= carry n e (S i).
Proof.
  intros n e H i. unfold carry. destruct (Nat.ltb_spec i n), (Nat.ltb_spec (S i) n); try lia; try lra.
  - apply H. assumption.
  - replace (n - 1)%nat with i by lia. lra.
Qed.
Lemma eig_carry : forall s n e i x, s_eig s = Some (n, e) -> eig_at s (Z.of_nat i) = Ok x -> x = carry n e i.
Proof.
  intros s n e i x E H. unfold eig_at in H. rewrite E in H. unfold carry. destruct (Nat.ltb_spec i n) as [L|L]; [rewrite (pyidx_ok n i L) in H|rewrite (pyidx_err n i L) in H; discriminate]. cbn [bind] in H. congruence.
Qed.
Lemma loop_carry : forall s n e, s_eig s = Some (n, e) -> forall k a, eks_loop s k = Ok a -> a = sumR k (carry n e).
Proof.
  intros s n e E. induction k as [|k IH]; intros a H; [cbn in H; injection H as <-; reflexivity|]. cbn [eks_loop] in H. destruct (eks_loop s k) as [b|]; [|discriminate]. cbn [bind] in H.
  destruct (eig_at s (Z.of_nat k)) as [x|] eqn:X; [|discriminate]. cbn [bind] in H. injection H as <-. cbn [sumR]. rewrite (IH b eq_refl), (eig_carry s n e k x E X). reflexivity.
Qed.
Lemma eks_line : forall s n e E m, s_frac s = true -> s_eig s = Some (n, e) -> 0 <= s_N s -> calc_eks s = Ok E -> between (shell_size (s_m s) (s_pol s)) m (s_N s) -> E = line (shell_size (s_m s) (s_pol s)) (carry n e) m (s_N s).
Proof.
  intros s n e E m F SE N0 H B. unfold calc_eks in H. rewrite nocc_form in H. unfold shx in H. pose proof (size_positive (s_m s) (s_pol s)) as Z. set (c := shell_size (s_m s) (s_pol s)) in *.
  destruct (filling c (s_N s) Z N0) as (q & Q1 & Q2). rewrite Q2, F in H. rewrite Nat2Z.id in H. cbn [andb] in H. destruct (eks_loop s q) as [a|] eqn:L; [|discriminate]. cbn [bind] in H. rewrite <- INR_IZR_INZ in H.
  assert (EQ : E = line c (carry n e) q (s_N s)).
  { unfold nonzero in H. destruct (Req_EM_T (s_N s / c - INR q) 0) as [K|K].
    - cbn [bind] in H. injection H as <-. rewrite scale_size. fold c. rewrite (loop_carry s n e SE q a L). unfold line. assert (s_N s = c * INR q) as ->; [|ring]. replace (s_N s) with (s_N s / c * c) by (field; lra). replace (s_N s / c) with (INR q) by lra. ring.
    - destruct (eig_at s (Z.of_nat q)) as [x|] eqn:X; [|discriminate]. cbn [bind] in H. injection H as <-. rewrite scale_size. fold c. rewrite (loop_carry s n e SE q a L), (eig_carry s n e q x SE X). unfold line. field. lra. }
  rewrite EQ. destruct (Nat.eq_dec q m) as [->|NE]; [reflexivity|]. destruct B as (B1 & B2). assert (q = S m).
  { assert (INR m < INR (S q)) by (apply Rmult_lt_reg_l with (1 := Z); lra). assert (INR q <= INR (S m)) by (apply Rmult_le_reg_l with (1 := Z); lra). apply INR_lt in H0. apply INR_le in H1. lia. }
  subst q. apply line_edge. lra.
Qed.
Theorem eks_convex : forall s s' s'' E E' E'' t, 0 <= t <= 1 -> s_frac s = true -> s_frac s' = true -> s_frac s'' = true -> s_m s' = s_m s -> s_m s'' = s_m s -> s_pol s' = s_pol s -> s_pol s'' = s_pol s -> s_eig s' = s_eig s -> s_eig s'' = s_eig s -> s_eig s <> None ->
  0 <= s_N s -> 0 <= s_N s' -> s_N s'' = t * s_N s + (1 - t) * s_N s' -> calc_eks s = Ok E -> calc_eks s' = Ok E' -> calc_eks s'' = Ok E'' ->
  (ascending s -> E'' <= t * E + (1 - t) * E') /\ (forall m, between (shell_size (s_m s) (s_pol s)) m (s_N s) -> between (shell_size (s_m s) (s_pol s)) m (s_N s') -> E'' = t * E + (1 - t) * E').
Proof.
  intros s s' s'' E E' E'' t T F F' F'' M M' P P' G G' SN N0 N1 N2 H H' H''. destruct (s_eig s) as [(n, e)|] eqn:SE; [|congruence].
  pose proof (size_positive (s_m s) (s_pol s)) as Z. set (c := shell_size (s_m s) (s_pol s)) in *. assert (N3 : 0 <= s_N s'') by (rewrite N2; apply Rplus_le_le_0_compat; apply Rmult_le_pos; lra).
  assert (L : forall m, between c m (s_N s) -> E = line c (carry n e) m (s_N s)) by (intros m B; exact (eks_line s n e E m F SE N0 H B)).
  assert (L' : forall m, between c m (s_N s') -> E' = line c (carry n e) m (s_N s')) by (intros m B; rewrite (eks_line s' n e E' m F' G N1 H'); rewrite M, P; [reflexivity|exact B]).
  assert (L'' : forall m, between c m (s_N s'') -> E'' = line c (carry n e) m (s_N s'')) by (intros m B; rewrite (eks_line s'' n e E'' m F'' G' N3 H''); rewrite M', P'; [reflexivity|exact B]).
  split.
  - intros A. pose proof (carry_up n e (A n e SE)) as CU. destruct (filling c _ Z N0) as (m & B & _). destruct (filling c _ Z N1) as (m' & B' & _). destruct (filling c _ Z N3) as (m'' & B'' & _).
    assert (Q : between c m (s_N s)) by (unfold between; lra). assert (Q' : between c m' (s_N s')) by (unfold between; lra). assert (Q'' : between c m'' (s_N s'')) by (unfold between; lra).
    rewrite (L m Q), (L' m' Q'), (L'' m'' Q''), N2, line_mix. pose proof (line_max c _ m _ Z CU Q m''). pose proof (line_max c _ m' _ Z CU Q' m''). apply Rplus_le_compat; apply Rmult_le_compat_l; lra.
  - intros m B B'. rewrite (L m B), (L' m B'), (L'' m), N2, line_mix; [reflexivity|]. rewrite N2. unfold between in *. nra.
Qed.

Lemma phi_carry : forall s n p i x, s_phi s = Some (n, p) -> phi_col s (Z.of_nat i) = Ok x -> x = p i.
Proof.
  intros s n p i x E H. unfold phi_col in H. rewrite E in H. destruct (Nat.lt_ge_cases i n) as [L|L]; [rewrite (pyidx_ok n i L) in H|rewrite (pyidx_err n i L) in H; discriminate]. cbn [bind] in H. congruence.
Qed.
Lemma dens_carry : forall g s n p, s_phi s = Some (n, p) -> forall k a, dens_loop g s k = Ok a -> forall x, a x = sumR k (fun i => p i x ^ 2 / norm2 g (p i)).
Proof.
  intros g s n p E. induction k as [|k IH]; intros a H x; [cbn in H; injection H as <-; reflexivity|]. cbn [dens_loop] in H. destruct (dens_loop g s k) as [b|]; [|discriminate]. cbn [bind] in H.
  destruct (phi_col s (Z.of_nat k)) as [y|] eqn:X; [|discriminate]. cbn [bind] in H. injection H as <-. cbn [sumR]. rewrite (IH b eq_refl), (phi_carry s n p k y E X). reflexivity.
Qed.
Lemma dens_line : forall g s n p d m, s_frac s = true -> s_phi s = Some (n, p) -> 0 <= s_N s -> calc_density g s = Ok d -> between (shell_size (s_m s) (s_pol s)) m (s_N s) ->
  forall x, d x = line (shell_size (s_m s) (s_pol s)) (fun i => p i x ^ 2 / norm2 g (p i)) m (s_N s).
Proof.
  intros g s n p d m F SE N0 H B x. unfold calc_density in H. rewrite nocc_form in H. unfold shx in H. pose proof (size_positive (s_m s) (s_pol s)) as Z. set (c := shell_size (s_m s) (s_pol s)) in *. set (f := fun i => p i x ^ 2 / norm2 g (p i)).
  destruct (filling c (s_N s) Z N0) as (q & Q1 & Q2). rewrite Q2, F in H. rewrite Nat2Z.id in H. cbn [andb] in H. destruct (dens_loop g s q) as [a|] eqn:L; [|discriminate]. cbn [bind] in H. rewrite <- INR_IZR_INZ in H.
  assert (EQ : d x = line c f q (s_N s)).
  { unfold nonzero in H. destruct (Req_EM_T (s_N s / c - INR q) 0) as [K|K].
    - cbn [bind] in H. injection H as <-. rewrite scale_size. fold c. rewrite (dens_carry g s n p SE q a L x). fold f. unfold line. assert (s_N s = c * INR q) as ->; [|ring]. replace (s_N s) with (s_N s / c * c) by (field; lra). replace (s_N s / c) with (INR q) by lra. ring.
    - destruct (phi_col s (Z.of_nat q)) as [y|] eqn:X; [|discriminate]. cbn [bind] in H. injection H as <-. rewrite scale_size. fold c. rewrite (dens_carry g s n p SE q a L x), (phi_carry s n p q y SE X). fold f. replace ((s_N s / c - INR q) * (p q x * (p q x * 1)) / norm2 g (p q)) with ((s_N s / c - INR q) * f q) by (unfold f, Rdiv; ring). change (sumR q (fun i => p i x ^ 2 / norm2 g (p i))) with (sumR q f). unfold line. generalize (f q) (sumR q f). intros y1 y2. field. lra. }
  rewrite EQ. destruct (Nat.eq_dec q m) as [->|NE]; [reflexivity|]. destruct B as (B1 & B2). assert (q = S m).
  { assert (INR m < INR (S q)) by (apply Rmult_lt_reg_l with (1 := Z); lra). assert (INR q <= INR (S m)) by (apply Rmult_le_reg_l with (1 := Z); lra). apply INR_lt in H0. apply INR_le in H1. lia. }
  subst q. apply line_edge. lra.
Qed.
Theorem density_linear : forall g s s' s'' d d' d'' t m, 0 <= t <= 1 -> s_frac s = true -> s_frac s' = true -> s_frac s'' = true -> s_m s' = s_m s -> s_m s'' = s_m s -> s_pol s' = s_pol s -> s_pol s'' = s_pol s -> s_phi s' = s_phi s -> s_phi s'' = s_phi s -> s_phi s <> None ->
  0 <= s_N s -> 0 <= s_N s' -> s_N s'' = t * s_N s + (1 - t) * s_N s' -> calc_density g s = Ok d -> calc_density g s' = Ok d' -> calc_density g s'' = Ok d'' ->
  between (shell_size (s_m s) (s_pol s)) m (s_N s) -> between (shell_size (s_m s) (s_pol s)) m (s_N s') -> forall x, d'' x = t * d x + (1 - t) * d' x.
Proof.
  intros g s s' s'' d d' d'' t m T F F' F'' M M' P P' G G' SN N0 N1 N2 H H' H'' B B' x. destruct (s_phi s) as [(n, p)|] eqn:SE; [|congruence].
  assert (N3 : 0 <= s_N s'') by (rewrite N2; apply Rplus_le_le_0_compat; apply Rmult_le_pos; lra).
  rewrite (dens_line g s n p d m F SE N0 H B x), (dens_line g s' n p d' m F' G N1 H'), (dens_line g s'' n p d'' m F'' G' N3 H''); rewrite ?M, ?P, ?M', ?P'; [rewrite N2; apply line_mix| |exact B'].
  rewrite N2. unfold between in *. nra.
Qed.

(** * Runs without interaction *)
Lemma run_levels : forall g w o sched k st ev E, steady g w -> o_int (k_opt k) = "ni"%string -> o_sym (k_opt k) = false -> k_pol k = k_cols k -> so_cont o = false -> so_flip o = false -> scf_trace g w o sched k st -> (2 <= c_iter st)%Z -> k_E (c_ks st) = Some ev -> E_E ev = Fin E ->
  E + E_Vext ev = sumR (k_lv k) (fun i => sumR (k_cols k) (fun j => eks_of (k_sol (c_ks st) i j))) + k_Za k * k_Zb k / (2 * ga g) /\
  forall i j, place k i j -> (exists e, calc_eks (k_sol (c_ks st) i j) = Ok e) /\ exists it s r, same_static (k_sol k i j) s /\ (forall x, s_veff s x = k_vnuc k x j + outer k x j) /\ e_worker w it s = Some r /\ s_eig (k_sol (c_ks st) i j) = Some (fst r) /\ same_static (k_sol k i j) (k_sol (c_ks st) i j).
Proof.
  intros g w o sched k st ev E ST HI HS PC HC HF T I2 KE EE.
  destruct (run_started _ _ _ _ _ _ T) as (k0 & S0). pose proof (start_guess g w o sched k HC k0 S0) as (q1 & q2 & n0 & _ & F0 & _ & N0 & _).
  destruct (ni_visited g w o sched k st ST HI HC HF T k0 n0 S0 N0) as ((k1 & k2 & (G1 & G2 & G3) & (FF & _ & (n & KN & NS) & AG) & SO) & EN). specialize (EN I2 HS PC).
  pose proof (trace_vext _ _ _ _ _ _ T) as VX.
  assert (OE : c_oldE st = E_E ev /\ E_Vext ev = interaction g (k_pol k) n0 (outer k) /\ forall i j, place k i j -> exists e, calc_eks (k_sol (c_ks st) i j) = Ok e).
  { destruct T as [kk SS|x y Tx Tt B]; [cbn in I2; lia|]. apply KSLoop.body_inv in B. destruct B as (_ & y1 & ve & vh & sol & k3 & nout & n1 & k4 & k5 & E1 & r & _ & _ & _ & _ & _ & _ & X & Y & X0 & _ & ->). cbn [c_ks c_oldE] in *.
    pose proof (energy_solved _ _ _ _ X) as Q. pose proof (energy_inv _ _ _ _ X) as (E' & nn & ve' & X1 & X2 & X3 & _ & _ & _ & _ & _ & _ & X5 & _). apply energy_keep in X. destruct X as (Ea & Va & ->). apply chempot_spec in Y. destruct Y as (uu & -> & _).
    destruct FF as (_ & _ & _ & F4 & F5 & F6 & _). cbn [set_u set_EV k_E k_n k_vext k_pol k_lv k_cols k_sol] in *. split; [congruence|]. split.
    - assert (Ea = ev) by congruence. subst Ea. injection X1 as <-. assert (nn = n) by congruence. assert (ve' = outer k) by congruence. subst nn ve'. rewrite X5, F4. unfold interaction. apply sumR_ext. intros s _. apply integrate1_ext. intros z _. rewrite NS. reflexivity.
    - intros i j Hp. destruct (Q i j) as (e & dd & Q1 & _); [|eauto]. unfold place in *. cbn [k_lv k_cols]. rewrite F5, F6. exact Hp. }
  destruct OE as (OE & VE & EKS). rewrite OE, EE in EN. injection EN as ->. rewrite VE. split.
  - assert (BD : band k0 = sumR (k_lv k) (fun i => sumR (k_cols k) (fun j => eks_of (k_sol (c_ks st) i j)))); [|lra].
    unfold band. destruct F0 as (_ & _ & _ & _ & -> & -> & _). rewrite SO. apply sumR_ext. intros i Hi. apply sumR_ext. intros j Hj. destruct (AG i j (conj Hi Hj)) as (r & s & A1 & A2 & A3 & A4). rewrite A1, A4. symmetry. apply (NonInteracting.eks_same _ _ r A2).
  - intros i j Hp. split; [exact (EKS i j Hp)|]. destruct (AG i j Hp) as (r & s & A1 & A2 & A3 & A4). apply density_inv in G3. destruct G3 as (sol & n1 & K2 & W & _).
    assert (Hp1 : place k1 i j) by (destruct G1 as (_ & _ & _ & _ & I5 & I6 & _); unfold place in *; rewrite I5, I6; exact Hp). destruct (W i j Hp1) as (r' & R1 & R2). exists (use_iter false (Fin 0)), (k_sol k1 i j), r'.
    split; [apply G1|]. split; [apply G2, Hp|]. split; [exact R1|]. split; [|apply FF]. assert (s_eig (k_sol k2 i j) = s_eig (k_sol k2 i j)) as Q by reflexivity. rewrite A1 in Q at 1. assert (KS : k_sol k2 = sol) by (rewrite K2; reflexivity). rewrite KS, R2 in Q. rewrite A4. exact Q.
Qed.
(** The stored density is that of the orbitals found in the unchanged potential. *)
Lemma run_density : forall g w o sched k st, steady g w -> o_int (k_opt k) = "ni"%string -> o_sym (k_opt k) = false -> so_cont o = false -> so_flip o = false -> scf_trace g w o sched k st ->
  exists n sol, k_n (c_ks st) = Some n /\ (forall x j, (j < k_cols k)%nat -> n x j = sumR (k_lv k) (fun i => dens g (sol i j) x)) /\
  forall i j, place k i j -> calc_density g (sol i j) = Ok (dens g (sol i j)) /\ exists it s r, same_static (k_sol k i j) s /\ (forall x, s_veff s x = k_vnuc k x j + outer k x j) /\ e_worker w it s = Some r /\ sol i j = set_result s r.
Proof.
  intros g w o sched k st ST HI HS HC HF T. destruct (run_started _ _ _ _ _ _ T) as (k0 & S0). pose proof (start_guess g w o sched k HC k0 S0) as (q1 & q2 & n0 & _ & F0 & _ & N0 & _).
  destruct (ni_visited g w o sched k st ST HI HC HF T k0 n0 S0 N0) as ((k1 & k2 & (G1 & G2 & G3) & (FF & _ & (n & KN & NS) & AG) & SO) & _).
  apply density_inv in G3. destruct G3 as (sol & n1 & K2 & W & _ & SD & E). destruct G1 as (I1 & I2 & I3 & I4 & I5 & I6 & I7 & I8). rewrite I1, HS in E. subst n1. apply sum_dens_spec in SD. destruct SD as (D1 & D2).
  exists n, sol. split; [exact KN|]. split.
  - intros x j Hj. rewrite NS, D2, I5, I6. destruct (Nat.ltb_spec j (k_cols k)); [reflexivity|lia].
  - intros i j Hp. assert (Hp1 : place k1 i j) by (unfold place in *; rewrite I5, I6; exact Hp). split; [apply D1, Hp1|]. destruct (W i j Hp1) as (r & R1 & R2). exists (use_iter false (Fin 0)), (k_sol k1 i j), r. split; [apply I8|]. split; [apply G2, Hp|]. auto.
Qed.
