(** Energies of Kohnsham.scf without interaction and with one orbital per spin, as a function of the nuclear charges. *)
From Coq Require Import Reals List Arith Lia Lra ZArith Bool String.
From Verif Require Import Base BaseLemmas GridModel GridSpec GridProofs SolverModel SolverSpec SolverProofs LibxcModel OptionsModel KSModel KSSpec KSProofs KSThms KSLoop KSEnergy KSTotal SelfConsistent NonInteracting InverterThms GroundThms GroundSym Gauge.
Import ListNotations.
Local Open Scope R_scope.

(** * Specification *)
(** Electrons in one orbital that can hold c of them: without fractional occupation only a full orbital counts. *)
Definition in_orbital (frac : bool) (c N : R) : R := if frac then N else if Req_EM_T N c then N else 0.
(** The first stored level of every solver is the lowest one in the solver's own potential. *)
Definition lowest_found (g : grid) (k : ks) : Prop := forall i j e, place k i j -> eig_at (k_sol k i j) 0 = Ok e -> exists u, ground g (s_m (k_sol k i j)) (s_veff (k_sol k i j)) e u.
(** E is the energy a call of scf stores for charges Za, Zb and n electrons: a new object without interaction, one level of angular momentum 0, at most one orbital per spin. *)
Definition bound_run (g : grid) (Za Zb n E : R) : Prop :=
  exists w sched d k st o opt pol Nmo N ev, ks_init g Za Zb pol 1 pol Nmo 1 pol N opt = Ok k /\ (pol = 1 \/ pol = 2)%nat /\ o_int (k_opt k) = "ni"%string /\ o_sym (k_opt k) = false /\
    (forall j, (j < pol)%nat -> 0 <= N 0%nat j <= shell_size 0 pol) /\ n = sumR pol (fun j => in_orbital (o_frac (k_opt k)) (shell_size 0 pol) (N 0%nat j)) /\
    steady g w /\ scf_options d = Ok o /\ so_cont o = false /\ so_flip o = false /\ ks_scf g w sched d k = Ok st /\ (2 <= c_iter st)%Z /\ lowest_found g (c_ks st) /\ k_E (c_ks st) = Some ev /\ E_E ev = Fin E.

(** * One solver *)
Lemma scale_size : forall s x, shell_scale s x = shell_size (s_m s) (s_pol s) * x.
Proof. intros. unfold shell_scale, shell_size. destruct (s_m s =? 0)%Z, (s_pol s =? 1)%nat; ring. Qed.
Lemma size_positive : forall m p, 0 < shell_size m p.
Proof. intros. unfold shell_size. destruct (m =? 0)%Z, (p =? 1)%nat; lra. Qed.
Lemma eks_single : forall s e, calc_eks s = Ok e -> 0 <= s_N s <= shell_size (s_m s) (s_pol s) ->
  let c := in_orbital (s_frac s) (shell_size (s_m s) (s_pol s)) (s_N s) in (c = 0 /\ e = 0) \/ exists a, eig_at s 0 = Ok a /\ e = c * a.
Proof.
  intros s e H (N0 & N1). cbv zeta. unfold calc_eks in H. rewrite nocc_form in H. unfold shx in H. pose proof (size_positive (s_m s) (s_pol s)) as Z. set (c := shell_size (s_m s) (s_pol s)) in *.
  assert (X : s_N s / c * c = s_N s) by (field; lra). unfold in_orbital.
  destruct (Req_EM_T (s_N s) c) as [Q|Q].
  - assert (Y : s_N s / c = IZR 1) by (rewrite Q; field; lra). rewrite Y in H. change (Int_part (IZR 1)) with (floorZ (IZR 1)) in H. rewrite floorZ_IZR in H. rewrite Rminus_eq_0 in H.
    assert (NZ : nonzero 0 = false) by (unfold nonzero; destruct (Req_EM_T 0 0); congruence). rewrite NZ, andb_false_r in H. change (Z.to_nat 1) with 1%nat in H. cbn [eks_loop bind Z.of_nat] in H.
    destruct (eig_at s 0) as [a|]; [|discriminate]. cbn [bind] in H. injection H as <-. right. exists a. split; [reflexivity|]. rewrite scale_size. fold c. destruct (s_frac s); rewrite Q; ring.
  - assert (Y : 0 <= s_N s / c < 1).
    { split; [apply Rmult_le_pos; [exact N0|apply Rlt_le, Rinv_0_lt_compat, Z]|]. apply Rmult_lt_reg_r with (1 := Z). rewrite X. lra. }
    assert (F : Int_part (s_N s / c) = 0%Z).
    { destruct (base_Int_part (s_N s / c)) as [A B]. assert (IZR (Int_part (s_N s / c)) < IZR 1) by lra. assert (IZR (-1) < IZR (Int_part (s_N s / c))) by lra. apply lt_IZR in H0, H1. lia. }
    rewrite F in H. cbn [Z.to_nat eks_loop bind] in H. rewrite Rminus_0_r in H. destruct (s_frac s); cbn [andb] in H.
    + unfold nonzero in H. destruct (Req_EM_T (s_N s / c) 0) as [K|K].
      * cbn [bind] in H. injection H as <-. left. split; [rewrite <- X, K; ring|]. rewrite scale_size. ring.
      * destruct (eig_at s 0) as [a|]; [|discriminate]. cbn [bind] in H. injection H as <-. right. exists a. split; [reflexivity|]. rewrite scale_size. fold c. rewrite <- X at 2. ring.
    + cbn [bind] in H. injection H as <-. left. split; [reflexivity|]. rewrite scale_size. ring.
Qed.

(** * The stored energy *)
Lemma run_started : forall g w o sched k st, scf_trace g w o sched k st -> exists k0, scf_start g w o (sched 0%Z) k = Ok k0.
Proof. intros g w o sched k st T. induction T; eauto. Qed.
Lemma ground_ext : forall g m v v' a u, (forall x, (x < Nelem g)%nat -> v x = v' x) -> ground g m v a u -> ground g m v' a u.
Proof. intros g m v v' a u H (P & E). split; [exact P|]. intros x Hx. rewrite <- (H x Hx). apply E, Hx. Qed.
Theorem bound_energy : forall g Za Zb n E, three_point g -> bound_run g Za Zb n E -> forall a u, ground g 0 (coulomb g Za Zb) a u -> E = n * a + Za * Zb / (2 * ga g).
Proof.
  intros g Za Zb n E T3 (w & sched & d & k & st & o & opt & pol & Nmo & N & ev & KI & HP & HI & HS & HN & -> & ST & O & HC & HF & R & I2 & LF & KE & EE) a u G.
  pose proof KI as KV. apply init_spec in KI. destruct KI as (oo & CF & _ & _ & ZA & ZB & P & L & CC & _ & _ & OF & _ & _ & _ & VX & _ & _ & _ & _ & _ & S).
  assert (VN : forall x j, (j < pol)%nat -> k_vnuc k x j = coulomb g Za Zb x).
  { unfold ks_init in KV. rewrite CF in KV. cbn [bind] in KV. rewrite !Nat.eqb_refl in KV. cbn [andb negb] in KV. cbv zeta in KV. destruct (Pssolver 1 pol Nmo N _) as [sol|]; [|discriminate]. cbn [bind] in KV. injection KV as <-.
    cbn [k_vnuc k_opt o_sym] in *. intros x j Hj. unfold ks_vnuc. rewrite HS. destruct HP as [->| ->]; cbn [Nat.eqb andb].
    - replace j with 0%nat by lia. reflexivity.
    - destruct j as [|[|]]; [reflexivity|reflexivity|lia]. }
  assert (OUT : outer k = fun _ _ => 0) by (unfold outer; rewrite VX; reflexivity).
  destruct (scf_inv _ _ _ _ _ _ R) as (o' & O' & T & _). rewrite O in O'. injection O' as <-. destruct (run_started _ _ _ _ _ _ T) as (k0 & S0).
  pose proof (start_guess g w o sched k HC k0 S0) as (q1 & q2 & n0 & _ & F0 & _ & N0 & _).
  destruct (ni_visited g w o sched k st ST HI HC HF T k0 n0 S0 N0) as ((k1 & k2 & GG & (FF & _ & _ & AG) & SO) & EN). specialize (EN I2 HS ltac:(congruence)).
  assert (OE : c_oldE st = E_E ev).
  { destruct T as [kk SS|x y Tx Tt B]; [cbn in I2; lia|]. apply KSLoop.body_inv in B. destruct B as (_ & y1 & ve & vh & sol & k3 & nout & n1 & k4 & k5 & E1 & r & _ & _ & _ & _ & _ & _ & _ & _ & X & _ & ->). cbn [c_ks c_oldE] in *. congruence. }
  assert (EKS : forall j, (j < pol)%nat -> exists e, calc_eks (k_sol (c_ks st) 0 j) = Ok e).
  { intros j Hj. destruct T as [kk SS|x y Tx Tt B]; [cbn in I2; lia|]. apply KSLoop.body_inv in B. destruct B as (_ & y1 & ve & vh & sol & k3 & nout & n1 & k4 & k5 & E1 & r & _ & _ & _ & _ & _ & _ & X & Y & _ & _ & ->). cbn [c_ks] in *.
    pose proof (energy_solved _ _ _ _ X) as Q. apply energy_keep in X. destruct X as (Ea & Va & ->). apply chempot_spec in Y. destruct Y as (uu & -> & _).
    destruct FF as (_ & _ & _ & _ & F5 & F6 & _). cbn [set_u set_EV k_lv k_cols k_sol] in *. destruct (Q 0%nat j) as (e & dd & Q1 & _); [split; [rewrite F5, L; lia|rewrite F6, CC; exact Hj]|]. eauto. }
  assert (BD : band k0 = sumR pol (fun j => in_orbital (o_frac (k_opt k)) (shell_size 0 pol) (N 0%nat j)) * a).
  { unfold band. destruct F0 as (_ & _ & _ & _ & -> & -> & _). rewrite L, CC, SO. cbn [sumR]. rewrite Rplus_0_l, (Rmult_comm _ a), <- sumR_scal. apply sumR_ext. intros j Hj.
    assert (Hp : place k 0 j) by (split; lia). destruct (AG 0%nat j Hp) as (r & s & A1 & A2 & A3 & A4). destruct (EKS j Hj) as (e & Ee).
    assert (SE : eks_of (k_sol k2 0 j) = e).
    { rewrite A1, <- (NonInteracting.eks_same _ _ r A2), <- A4. unfold eks_of. rewrite Ee. reflexivity. }
    rewrite SE. destruct FF as (_ & _ & _ & _ & F5 & F6 & _ & F8). destruct (F8 0%nat j) as (J1 & J2 & J3 & _ & J5 & _). destruct (S 0%nat j Hp) as (_ & S1 & S2 & S3 & _ & S5 & _).
    change (Z.of_nat 0) with 0%Z in S1. pose proof (eks_single _ e Ee) as Q. rewrite J1, J2, J3, J5, S1, S2, S3, S5, <- OF in Q. destruct (Q (HN j Hj)) as [(Q1 & ->)|(b & Q1 & ->)]; [rewrite Q1; ring|].
    destruct (LF 0%nat j b ltac:(split; [rewrite F5, L; lia|rewrite F6, CC; exact Hj]) Q1) as (u' & G'). rewrite J1, S1 in G'.
    apply (ground_ext _ _ _ (coulomb g Za Zb)) in G'; [|intros x _; rewrite A4; cbn [set_result s_veff]; rewrite A3, OUT, VN by exact Hj; ring].
    rewrite (proj1 (ground_unique g T3 0 _ _ _ _ _ G G')). ring. }
  rewrite OE, EE, BD, ZA, ZB in EN. injection EN as ->. assert (I0 : interaction g (k_pol k) n0 (outer k) = 0); [|rewrite I0; ring].
  rewrite OUT. unfold interaction. apply sumR_zero. intros. rewrite (integrate1_ext g _ (fun _ => 0 * 0)) by (intros; ring). rewrite integrate1_scal. ring.
Qed.
