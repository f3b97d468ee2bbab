(** Lower bound of the energy of Kohnsham.scf without interaction by the lowest level of one electron. *)
From Coq Require Import Reals List Arith Lia Lra ZArith Bool String.
From Verif Require Import Base BaseLemmas GridModel GridSpec GridProofs SolverModel SolverSpec SolverProofs LibxcModel OptionsModel KSModel KSSpec KSProofs KSThms KSLoop KSEnergy KSTotal SelfConsistent NonInteracting InverterThms GroundThms GroundSym KSMemory Gauge LevelBounds Binding.
Import ListNotations.
Local Open Scope R_scope.

Lemma carried_placed : forall s, KSSpec.placed s -> carried s = s_N s.
Proof.
  intros s (N0 & HF). unfold carried. rewrite nocc_form. pose proof (size_positive (s_m s) (s_pol s)) as Z. rewrite scale_size. unfold shx. set (c := shell_size (s_m s) (s_pol s)) in *. set (x := s_N s / c).
  assert (XC : c * x = s_N s) by (unfold x; field; lra). assert (X0 : 0 <= x) by (unfold x; apply Rmult_le_pos; [exact N0|apply Rlt_le, Rinv_0_lt_compat, Z]).
  assert (I0 : (0 <= Int_part x)%Z) by (destruct (base_Int_part x) as [A B]; assert (IZR (-1) < IZR (Int_part x)) by lra; apply lt_IZR in H; lia).
  rewrite INR_IZR_INZ, Z2Nat.id by exact I0.
  assert (Q : IZR (Int_part x) + (if s_frac s && nonzero (x - IZR (Int_part x)) then x - IZR (Int_part x) else 0) = x); [|rewrite Q; exact XC].
  unfold nonzero. destruct (Req_EM_T (x - IZR (Int_part x)) 0) as [E|E]; [rewrite andb_false_r; lra|]. rewrite andb_true_r. destruct HF as [->|(m & M)]; [ring|].
  exfalso. apply E. assert (XM : x = IZR (Z.of_nat m)) by (unfold x, c; rewrite M, <- INR_IZR_INZ; unfold c in Z; field; lra). rewrite XM. change (Int_part (IZR (Z.of_nat m))) with (floorZ (IZR (Z.of_nat m))). rewrite floorZ_IZR. ring.
Qed.
Theorem many_bound : forall g w o sched k st ev E a u, three_point g -> steady g w -> o_int (k_opt k) = "ni"%string -> o_sym (k_opt k) = false -> k_pol k = k_cols k -> so_cont o = false -> so_flip o = false ->
  (forall i j, place k i j -> KSSpec.placed (k_sol k i j)) -> scf_trace g w o sched k st -> (2 <= c_iter st)%Z -> levels_exact g (c_ks st) -> k_E (c_ks st) = Some ev -> E_E ev = Fin E ->
  (forall j, (j < k_pol k)%nat -> ground g 0 (fun x => k_vnuc k x j + outer k x j) (a j) (u j)) ->
  sumR (k_pol k) (fun j => electrons k j * a j) + k_Za k * k_Zb k / (2 * ga g) <= E + E_Vext ev.
Proof.
  intros g w o sched k st ev E a u T3 ST HI HS PC HC HF PL T I2 LX KE EE G.
  destruct (run_started _ _ _ _ _ _ T) as (k0 & S0). pose proof (start_guess g w o sched k HC k0 S0) as (q1 & q2 & n0 & _ & F0 & _ & N0 & _).
  destruct (ni_visited g w o sched k st ST HI HC HF T k0 n0 S0 N0) as ((k1 & k2 & GG & (FF & _ & (n & KN & NS) & AG) & SO) & EN). specialize (EN I2 HS PC).
  pose proof (trace_vext _ _ _ _ _ _ T) as VX.
  assert (OE : c_oldE st = E_E ev /\ E_Vext ev = interaction g (k_pol k) n0 (outer k) /\ forall i j, place k i j -> exists e, calc_eks (k_sol (c_ks st) i j) = Ok e).
  { destruct T as [kk SS|x y Tx Tt B]; [cbn in I2; lia|]. apply KSLoop.body_inv in B. destruct B as (_ & y1 & ve & vh & sol & k3 & nout & n1 & k4 & k5 & E1 & r & _ & _ & _ & _ & _ & _ & X & Y & X0 & _ & ->). cbn [c_ks c_oldE] in *.
    pose proof (energy_solved _ _ _ _ X) as Q. pose proof (energy_inv _ _ _ _ X) as (E' & nn & ve' & X1 & X2 & X3 & _ & _ & _ & _ & _ & _ & X5 & _). apply energy_keep in X. destruct X as (Ea & Va & ->). apply chempot_spec in Y. destruct Y as (uu & -> & _).
    destruct FF as (_ & _ & _ & F4 & F5 & F6 & _). cbn [set_u set_EV k_E k_n k_vext k_pol k_lv k_cols k_sol] in *. split; [congruence|]. split.
    - assert (Ea = ev) by congruence. subst Ea. injection X1 as <-. assert (nn = n) by congruence. assert (ve' = outer k) by congruence. subst nn ve'. rewrite X5, F4. unfold interaction. apply sumR_ext. intros s _. apply integrate1_ext. intros z _. rewrite NS. reflexivity.
    - intros i j Hp. destruct (Q i j) as (e & dd & Q1 & _); [|eauto]. unfold place in *. cbn [k_lv k_cols]. rewrite F5, F6. exact Hp. }
  destruct OE as (OE & VE & EKS). rewrite OE, EE in EN. injection EN as ->. rewrite VE.
  assert (BD : sumR (k_pol k) (fun j => electrons k j * a j) <= band k0).
  { unfold band. destruct F0 as (_ & _ & _ & _ & -> & -> & _). rewrite SO, sumR_swap, <- PC. apply sumR_le. intros j Hj. unfold electrons. rewrite Rmult_comm, <- sumR_scal. apply sumR_le. intros i Hi.
    assert (Hp : place k i j) by (split; lia). destruct (AG i j Hp) as (r & s & A1 & A2 & A3 & A4). destruct (EKS i j Hp) as (e & Ee).
    assert (SE : eks_of (k_sol k2 i j) = e) by (rewrite A1, <- (NonInteracting.eks_same _ _ r A2), <- A4; unfold eks_of; rewrite Ee; reflexivity).
    rewrite SE. destruct FF as (_ & _ & _ & _ & F5 & F6 & _ & F8). destruct (F8 i j) as (J1 & J2 & J3 & _ & J5 & _).
    assert (PS : KSSpec.placed (k_sol (c_ks st) i j)).
    { destruct (PL i j Hp) as (P1 & P2). unfold KSSpec.placed, full_shells in *. rewrite J3, J5, J1, J2. auto. }
    rewrite <- J3, <- (carried_placed _ PS). apply eks_above; [|exact Ee]. intros m x X. destruct (LX i j m x) as (p & P1 & P2); [unfold place; rewrite F5, F6; exact Hp|exact X|].
    assert (VE' : forall y, s_veff (k_sol (c_ks st) i j) y = k_vnuc k y j + outer k y j) by (intros y; rewrite A4; cbn [set_result s_veff]; apply A3).
    assert (P3 : eigenpair g (hamiltonian g (s_m (k_sol (c_ks st) i j))) (fun y => k_vnuc k y j + outer k y j) x p) by (intros y Hy; pose proof (P2 y Hy) as P4; rewrite VE' in P4; exact P4).
    destruct (Z.eq_dec (s_m (k_sol (c_ks st) i j)) 0) as [Z0|Z0].
    - rewrite Z0 in P3. exact (ground_lowest g T3 0 _ _ _ x p (G j Hj) P1 P3).
    - apply Rlt_le. apply (ground_angular g T3 0 (s_m (k_sol (c_ks st) i j)) (fun y => k_vnuc k y j + outer k y j) (a j) (u j) x p); [lia|exact (G j Hj)|exact P1|exact P3]. }
  lra.
Qed.
