(** The density of the lowest orbital determines the potential up to a constant. *)
From Coq Require Import Reals List Arith Lia Lra ZArith Bool String.
From Verif Require Import Base BaseLemmas GridModel GridSpec GridProofs SolverModel SolverSpec SolverProofs LibxcModel OptionsModel KSModel KSSpec KSProofs KSThms KSLoop KSEnergy KSTotal SelfConsistent NonInteracting Isolated InverterThms NCSignsThms GroundThms GroundSym KSMemory Gauge LevelBounds Binding.
Import ListNotations.
Local Open Scope R_scope.

(** * Specification *)
(** The first stored orbital is one of the lowest level in the solver's own potential, of either sign and any norm. *)
Definition orbital_found (g : grid) (s : solver) : Prop := forall p, phi_col s 0 = Ok p ->
  exists a u, ground g (s_m s) (s_veff s) a u /\ (exists x, (x < Nelem g)%nat /\ p x <> 0) /\ eigenpair g (hamiltonian g (s_m s)) (s_veff s) a p.
(** All electrons of the solver are in its first orbital. *)
Definition one_orbital (s : solver) : Prop := 0 < s_N s <= shell_size (s_m s) (s_pol s) /\ (s_frac s = true \/ s_N s = shell_size (s_m s) (s_pol s)).

(** * One solver *)
Lemma density_single : forall g s d, calc_density g s = Ok d -> one_orbital s -> exists p, phi_col s 0 = Ok p /\ forall x, d x = s_N s * (p x ^ 2 / norm2 g p).
Proof.
  intros g s d H ((N0 & N1) & HF). unfold calc_density in H. rewrite nocc_form in H. unfold shx in H. pose proof (size_positive (s_m s) (s_pol s)) as Z. set (c := shell_size (s_m s) (s_pol s)) in *.
  assert (X : s_N s / c * c = s_N s) by (field; lra).
  destruct (Req_EM_T (s_N s) c) as [Q|Q].
  - assert (Y : s_N s / c = IZR 1) by (rewrite Q; field; lra). rewrite Y in H. change (Int_part (IZR 1)) with (floorZ (IZR 1)) in H. rewrite floorZ_IZR in H. rewrite Rminus_eq_0 in H.
    assert (NZ : nonzero 0 = false) by (unfold nonzero; destruct (Req_EM_T 0 0); congruence). rewrite NZ, andb_false_r in H. change (Z.to_nat 1) with 1%nat in H. cbn [dens_loop bind Z.of_nat] in H.
    destruct (phi_col s 0) as [p|]; [|discriminate]. cbn [bind] in H. injection H as <-. exists p. split; [reflexivity|]. intros x. rewrite scale_size. fold c. rewrite Q, Rplus_0_l. reflexivity.
  - destruct HF as [HF|HF]; [|contradiction]. rewrite HF in H.
    assert (Y : 0 < s_N s / c < 1).
    { split; [apply Rdiv_lt_0_compat; assumption|]. apply Rmult_lt_reg_r with (1 := Z). rewrite X. lra. }
    assert (F : Int_part (s_N s / c) = 0%Z).
    { destruct (base_Int_part (s_N s / c)) as [A B]. assert (IZR (Int_part (s_N s / c)) < IZR 1) by lra. assert (IZR (-1) < IZR (Int_part (s_N s / c))) by lra. apply lt_IZR in H0, H1. lia. }
    rewrite F in H. cbn [Z.to_nat dens_loop bind andb] in H. rewrite Rminus_0_r in H. unfold nonzero in H. destruct (Req_EM_T (s_N s / c) 0) as [K|K]; [lra|].
    destruct (phi_col s 0) as [p|]; [|discriminate]. cbn [bind] in H. injection H as <-. exists p. split; [reflexivity|]. intros x. rewrite scale_size. fold c. rewrite <- X at 2. unfold Rdiv. ring.
Qed.
Section Pair.
Variable g : grid.
Hypotheses (T3 : three_point g) (W : forall x, (x < Nelem g)%nat -> 0 < gwi g x).
Lemma norm_somewhere : forall p, (exists x, (x < Nelem g)%nat /\ p x <> 0) -> 0 < norm2 g p.
Proof.
  intros p (x & X1 & X2). unfold norm2. apply Rnot_le_lt. intros H. pose proof (int_vanish g (proj1 T3) W (fun x => p x ^ 2) ltac:(intros; apply pow2_ge_0) H x X1) as Z. cbv beta in Z. pose proof (pow_nonzero _ 2 X2). contradiction.
Qed.
Lemma orbital_of_density : forall s d, calc_density g s = Ok d -> one_orbital s -> orbital_found g s -> exists a u, ground g (s_m s) (s_veff s) a u /\ forall x, (x < Nelem g)%nat -> d x = u x ^ 2.
Proof.
  intros s d H O F. destruct (density_single g s d H O) as (p & P & D). destruct (F p P) as (a & u & G & N & E).
  destruct (ground_others g T3 (s_m s) (s_veff s) a u a p G N E) as [(c & C & _ & Q)|(Q & _)]; [|lra]. pose proof (norm_somewhere p N) as NP.
  set (k := sqrt (s_N s / norm2 g p) * Rabs c). assert (K2 : k ^ 2 = s_N s / norm2 g p * c ^ 2).
  { unfold k. rewrite Rpow_mult_distr, pow2_sqrt; [|apply Rlt_le, Rdiv_lt_0_compat; [apply O|exact NP]]. f_equal. rewrite <- (pow2_abs c). reflexivity. }
  assert (K0 : 0 < k) by (unfold k; apply Rmult_lt_0_compat; [apply sqrt_lt_R0, Rdiv_lt_0_compat; [apply O|exact NP]|apply Rabs_pos_lt, C]).
  exists a, (fun x => k * u x). destruct G as (U & EU). split; [split|].
  - intros x Hx. apply Rmult_lt_0_compat; [exact K0|apply U, Hx].
  - intros x Hx. specialize (EU x Hx). rewrite (sumR_ext _ _ (fun j => k * (hamiltonian g (s_m s) x j * u j))) by (intros; ring). rewrite sumR_scal.
    replace (k * sumR (Nelem g) (fun j => hamiltonian g (s_m s) x j * u j) + gw g x * s_veff s x * (k * u x)) with (k * (sumR (Nelem g) (fun j => hamiltonian g (s_m s) x j * u j) + gw g x * s_veff s x * u x)) by ring. rewrite EU. ring.
  - intros x Hx. cbv beta; rewrite D, (Q x Hx), !Rpow_mult_distr, K2. unfold Rdiv. ring.
Qed.
Lemma ground_determines : forall m v v' a a' u u', ground g m v a u -> ground g m v' a' u' -> (forall x, (x < Nelem g)%nat -> u x ^ 2 = u' x ^ 2) -> forall x, (x < Nelem g)%nat -> v x - v' x = a - a'.
Proof.
  intros m v v' a a' u u' (U & E) (U' & E') H.
  assert (EQ : forall x, (x < Nelem g)%nat -> u' x = u x) by (intros x Hx; specialize (H x Hx); pose proof (U x Hx); pose proof (U' x Hx); nra).
  intros x Hx. specialize (E x Hx). specialize (E' x Hx). rewrite (sumR_ext _ _ (fun j => hamiltonian g m x j * u j)) in E' by (intros; rewrite EQ by assumption; ring). rewrite (EQ x Hx) in E'.
  pose proof (U x Hx) as UX. pose proof (gw_pos g x (proj1 T3) Hx) as GX. assert (Q : gw g x * u x * (v x - v' x - (a - a')) = 0) by lra.
  apply Rmult_integral in Q. destruct Q as [Q|Q]; [|lra]. apply Rmult_integral in Q. lra.
Qed.
Theorem density_potential : forall s s' d d', calc_density g s = Ok d -> calc_density g s' = Ok d' -> s_m s = s_m s' -> one_orbital s -> one_orbital s' -> orbital_found g s -> orbital_found g s' ->
  (forall x, (x < Nelem g)%nat -> d x = d' x) -> exists c, forall x, (x < Nelem g)%nat -> s_veff s x = s_veff s' x + c.
Proof.
  intros s s' d d' H H' M O O' F F' D. destruct (orbital_of_density s d H O F) as (a & u & G & A). destruct (orbital_of_density s' d' H' O' F') as (a' & u' & G' & A'). rewrite <- M in G'.
  exists (a - a'). intros x Hx. pose proof (ground_determines _ _ _ a a' u u' G G' ltac:(intros y Hy; rewrite <- A, <- A' by exact Hy; apply D, Hy) x Hx). lra.
Qed.
End Pair.

(** * Runs without interaction *)
(** The density n of spin j stored by a call of scf without interaction that has a single level. *)
Definition single_run (g : grid) (k : ks) (j : nat) (n : vec) : Prop :=
  exists w sched d o st m, steady g w /\ o_int (k_opt k) = "ni"%string /\ o_sym (k_opt k) = false /\ k_lv k = 1%nat /\ (j < k_cols k)%nat /\ one_orbital (k_sol k 0 j) /\ scf_options d = Ok o /\ so_cont o = false /\ so_flip o = false /\
    ks_scf g w sched d k = Ok st /\ orbital_found g (k_sol (c_ks st) 0 j) /\ k_n (c_ks st) = Some m /\ forall x, (x < Nelem g)%nat -> n x = m x j.
Theorem run_solver : forall g k j n, single_run g k j n -> exists s d, calc_density g s = Ok d /\ s_m s = s_m (k_sol k 0 j) /\ one_orbital s /\ orbital_found g s /\ (forall x, (x < Nelem g)%nat -> n x = d x) /\ forall x, s_veff s x = k_vnuc k x j + outer k x j.
Proof.
  intros g k j n (w & sched & d & o & st & m & ST & HI & HS & L & HJ & OO & O & HC & HF & R & OF & KN & NM).
  destruct (scf_inv _ _ _ _ _ _ R) as (o' & O' & T & _). rewrite O in O'. injection O' as <-. destruct (run_started _ _ _ _ _ _ T) as (k0 & S0). pose proof (start_guess g w o sched k HC k0 S0) as (q1 & q2 & n0 & _ & F0 & _ & N0 & _).
  destruct (ni_visited g w o sched k st ST HI HC HF T k0 n0 S0 N0) as ((k1 & k2 & (G1 & G2 & G3) & (FF & _ & (n' & KN' & NS) & AG) & SO) & _).
  assert (Hp : place k 0 j) by (split; lia). destruct (AG 0%nat j Hp) as (r & s & A1 & A2 & A3 & A4). exists (k_sol (c_ks st) 0 j), (dens g (k_sol k2 0 j)).
  apply density_inv in G3. destruct G3 as (sol & n1 & K2 & _ & _ & SD & N1). apply sum_dens_spec in SD. destruct SD as (D1 & D2). pose proof G1 as (O1 & _ & _ & _ & I5 & I6 & _).
  assert (Hp1 : place k1 0 j) by (unfold place in *; rewrite I5, I6; exact Hp). assert (K2' : k_sol k2 = sol) by (rewrite K2; reflexivity). rewrite <- K2' in *. destruct (D1 0%nat j Hp1) as (_ & D3).
  destruct FF as (_ & _ & _ & _ & _ & _ & _ & F8). destruct (F8 0%nat j) as (J1 & J2 & J3 & _ & J5 & _).
  split; [rewrite A4, (density_same g _ _ r A2), <- A1; exact D3|]. split; [exact J1|]. split; [unfold one_orbital in *; rewrite J1, J2, J3, J5; exact OO|]. split; [exact OF|]. split.
  - intros x Hx. rewrite NM by exact Hx. assert (m = n') by congruence. subst m. rewrite NS, N1. replace (o_sym (k_opt k1)) with false by congruence. rewrite D2, I5, I6, L. destruct (Nat.ltb_spec j (k_cols k)); [|lia]. cbn [sumR]. ring.
  - intros x. rewrite A4. cbn [set_result s_veff]. apply A3.
Qed.
