(** Property C134: electrons without interaction are never bound more strongly than by the lowest level of one electron. *)
From Coq Require Import Reals List Arith Lia Lra ZArith Bool String.
From Verif Require Import Base BaseLemmas GridModel GridSpec GridProofs SolverModel SolverSpec SolverProofs LibxcModel OptionsModel KSModel KSSpec KSProofs KSThms KSLoop KSEnergy KSTotal SelfConsistent NonInteracting GroundThms GroundSym GridWitness HartreeThms KSWit KSMemory KSMemoryWit NCSignsThms SolverWitness SolverCases InverterThms
  Gauge LevelBounds LevelWit Binding BindingWit BindingMany Properties_LevelBounds Properties_Binding.
Import ListNotations.
Local Open Scope R_scope.

(** Any number of levels and electrons, any external potential: the energy, with the part of the external potential that the code leaves out of E, is at least what the electrons would have if all of spin j were in the lowest level a j, plus the repulsion of the nuclei. *)
Theorem C134_floor : forall g w d o sched k st ev E a u, three_point g -> steady g w -> o_int (k_opt k) = "ni"%string -> o_sym (k_opt k) = false -> k_pol k = k_cols k -> scf_options d = Ok o -> so_cont o = false -> so_flip o = false ->
  (forall i j, place k i j -> KSSpec.placed (k_sol k i j)) -> ks_scf g w sched d k = Ok st -> (2 <= c_iter st)%Z -> levels_exact g (c_ks st) -> k_E (c_ks st) = Some ev -> E_E ev = Fin E ->
  (forall j, (j < k_pol k)%nat -> (forall x, (x < Nelem g)%nat -> 0 < u j x) /\
    forall x, (x < Nelem g)%nat -> sumR (Nelem g) (fun y => hamiltonian g 0 x y * u j y) + gw g x * (k_vnuc k x j + outer k x j) * u j x = a j * gw g x * u j x) ->
  sumR (k_pol k) (fun j => electrons k j * a j) + k_Za k * k_Zb k / (2 * ga g) <= E + E_Vext ev.
Proof.
  intros g w d o sched k st ev E a u T3 ST HI HS PC O HC HF PL R I2 LX KE EE G. destruct (scf_inv _ _ _ _ _ _ R) as (o' & O' & T & _). rewrite O in O'. injection O' as <-.
  apply (many_bound g w o sched k st ev E a u); auto.
Qed.
Print Assumptions C134_floor.
(** Without an external potential, compared with a run that has all n electrons in the lowest orbital: per electron, and apart from the repulsion of the nuclei, the energy is not lower. *)
Theorem C134_single : forall g Za Zb w sched d k st o opt pol lv Nmo N ev E n E1, three_point g -> ks_init g Za Zb pol lv pol Nmo lv pol N opt = Ok k -> (pol = 1 \/ pol = 2)%nat -> o_int (k_opt k) = "ni"%string -> o_sym (k_opt k) = false ->
  (forall i j, place k i j -> KSSpec.placed (k_sol k i j)) -> steady g w -> scf_options d = Ok o -> so_cont o = false -> so_flip o = false -> ks_scf g w sched d k = Ok st -> (2 <= c_iter st)%Z -> levels_exact g (c_ks st) ->
  k_E (c_ks st) = Some ev -> E_E ev = Fin E -> bound_run g Za Zb n E1 ->
  sumR pol (fun j => sumR lv (fun i => N i j)) * (E1 - Za * Zb / (2 * ga g)) <= n * (E - Za * Zb / (2 * ga g)).
Proof.
  intros g Za Zb w sched d k st o opt pol lv Nmo N ev E n E1 T3 KI HP HI HS PL ST O HC HF R I2 LX KE EE BR. pose proof (bound_count _ _ _ _ _ BR) as NN.
  destruct (ground_exists g T3 0 (coulomb g Za Zb)) as (a & u & G). rewrite (bound_energy g Za Zb n E1 T3 BR a u G).
  pose proof KI as KV. apply init_spec in KI. destruct KI as (oo & CF & _ & _ & ZA & ZB & P & L & CC & _ & _ & OF & _ & _ & _ & VX & _ & _ & _ & _ & _ & S).
  assert (VN : forall x j, (j < pol)%nat -> k_vnuc k x j = coulomb g Za Zb x).
  { unfold ks_init in KV. rewrite CF in KV. cbn [bind] in KV. rewrite !Nat.eqb_refl in KV. cbn [andb negb] in KV. cbv zeta in KV. destruct (Pssolver lv pol Nmo N _) as [sol|]; [|discriminate]. cbn [bind] in KV. injection KV as <-.
    cbn [k_vnuc k_opt o_sym] in *. intros x j Hj. unfold ks_vnuc. rewrite HS. destruct HP as [->| ->]; cbn [Nat.eqb andb].
    - replace j with 0%nat by lia. reflexivity.
    - destruct j as [|[|]]; [reflexivity|reflexivity|lia]. }
  assert (OUT : outer k = fun _ _ => 0) by (unfold outer; rewrite VX; reflexivity).
  pose proof (C134_floor g w d o sched k st ev E (fun _ => a) (fun _ => u) T3 ST HI HS ltac:(congruence) O HC HF PL R I2 LX KE EE) as Q. rewrite ZA, ZB, P in Q.
  assert (QV : E_Vext ev = 0).
  { destruct (scf_inv _ _ _ _ _ _ R) as (o' & O' & T & _). pose proof (trace_vext _ _ _ _ _ _ T) as TV. destruct T as [kk SS|x y Tx Tt B]; [cbn in I2; lia|]. apply KSLoop.body_inv in B.
    destruct B as (_ & y1 & ve & vh & sol & k3 & nout & n1 & k4 & k5 & Ex & r & _ & _ & _ & _ & _ & _ & X & Y & _ & _ & ->). cbn [c_ks c_oldE] in *.
    pose proof (energy_inv _ _ _ _ X) as (E' & nn & ve' & X1 & X2 & X3 & _ & _ & _ & _ & _ & _ & X5 & _). apply energy_keep in X. destruct X as (Ea & Va & ->). apply chempot_spec in Y. destruct Y as (uu & -> & _).
    cbn [set_u set_EV k_E k_n k_vext k_pol] in *. assert (Ea = ev) by congruence. subst Ea. injection X1 as <-. assert (HV : ve' = outer k) by congruence. rewrite X5, HV, OUT. unfold interaction. apply sumR_zero. intros.
    rewrite (integrate1_ext g _ (fun _ => 0 * 0)) by (intros; ring). rewrite integrate1_scal. ring. }
  rewrite QV in Q. assert (SM : sumR pol (fun j => electrons k j * a) = sumR pol (fun j => sumR lv (fun i => N i j)) * a).
  { rewrite (Rmult_comm _ a), <- sumR_scal. apply sumR_ext. intros j Hj. rewrite (Rmult_comm a). f_equal. unfold electrons. rewrite L. apply sumR_ext. intros i Hi. destruct (S i j) as (_ & _ & _ & S3 & _); [split; lia|exact S3]. }
  rewrite SM in Q. assert (Q' : sumR pol (fun j => sumR lv (fun i => N i j)) * a + Za * Zb / (2 * ga g) <= E + 0).
  { apply Q. intros j Hj. destruct G as (U & EP). split; [exact U|]. intros x Hx. rewrite OUT, VN by exact Hj. rewrite Rplus_0_r. apply EP, Hx. }
  pose proof (Rmult_le_compat_l n _ _ NN Q'). lra.
Qed.
Print Assumptions C134_single.
(** two electrons on a 16 x 16 grid, in constant potentials 2 and 3: every hypothesis of the floor is met *)
Lemma C134_witness : exists k st o ev E a u w, three_point g3p /\ steady g3p w /\ o_int (k_opt k) = "ni"%string /\ o_sym (k_opt k) = false /\ k_pol k = 2%nat /\ k_cols k = 2%nat /\ scf_options [] = Ok o /\ so_cont o = false /\ so_flip o = false /\
  (forall i j, place k i j -> KSSpec.placed (k_sol k i j)) /\ ks_scf g3p w (fun _ => keys k) [] k = Ok st /\ (2 <= c_iter st)%Z /\ levels_exact g3p (c_ks st) /\ k_E (c_ks st) = Some ev /\ E_E ev = Fin E /\
  (forall j, (j < 2)%nat -> electrons k j = 1 /\ ground g3p 0 (fun x => k_vnuc k x j + outer k x j) (a + 2 + INR j) u) /\ 2 * a + 5 <= E + E_Vext ev.
Proof.
  destruct C130_witness_constant as (u & e0 & k0 & k & st & KI & K & G & T3 & _ & NW & R & I2 & LX & _).
  pose proof (lv_static k0 KI) as (P & C & L & OS & OI & S). pose proof KI as KF. apply init_spec in KF. destruct KF as (oo & CF & _ & _ & ZA & ZB & _ & _ & _ & _ & _ & OFr & _ & _ & _ & _ & _ & _ & _ & _ & _ & S').
  assert (ST : steady g3p (lv_env (fun _ => 0) u e0)) by (intros it it' s s' _ H; unfold lv_env; cbn [e_worker]; rewrite (H 0%nat lv_points); reflexivity).
  assert (O : exists o, scf_options [] = Ok o) by (eexists; reflexivity). destruct O as (o & O). pose proof O as OE. injection OE as OE.
  assert (Q : so_cont o = false /\ so_flip o = false) by (rewrite <- OE; split; reflexivity). destruct Q as (Q2 & Q6).
  assert (PL : forall i j, place k i j -> KSSpec.placed (k_sol k i j)).
  { intros i j Hp. rewrite K in *. cbn [set_vext k_sol] in *. destruct (S i j Hp) as (_ & _ & S3). destruct (S' i j Hp) as (_ & _ & _ & _ & _ & S5 & _). split; [rewrite S3; lra|]. left. rewrite S5. injection CF as <-. reflexivity. }
  assert (GR : forall j, (j < 2)%nat -> electrons k j = 1 /\ ground g3p 0 (fun x => k_vnuc k x j + outer k x j) (e0 + 2 + INR j) u).
  { intros j Hj. split; [unfold electrons; rewrite K; cbn [set_vext k_lv k_sol]; rewrite L; cbn [sumR]; destruct (S 0%nat j) as (_ & _ & S3); [split; lia|rewrite S3; ring]|]. split; [apply G|]. rewrite Rplus_assoc.
    apply (lv_pair (fun _ => 0) u e0 (proj2 G) (2 + INR j)). intros x _. rewrite K. unfold outer. cbn [set_vext k_vnuc k_vext]. ring. }
  assert (KE : exists ev r, k_E (c_ks st) = Some ev /\ E_E ev = Fin r).
  { destruct (scf_inv _ _ _ _ _ _ R) as (o' & O' & T & _). rewrite O in O'. injection O' as <-. destruct T as [kk SS|x y Tx Tt B]; [cbn in I2; lia|].
    destruct (pass_results g3p _ o _ x y NW B) as (ev & uu & R1 & _). exists ev. pose proof (trace_step _ _ _ _ _ _ _ Tx Tt B) as T. destruct (run_started _ _ _ _ _ _ T) as (kz & S0).
    pose proof (start_guess g3p (lv_env (fun _ => 0) u e0) o (fun _ : Z => keys k) k Q2 kz S0) as (q1 & q2 & n0 & _ & _ & _ & N0 & _).
    pose proof (ni_energy g3p (lv_env (fun _ => 0) u e0) o (fun _ : Z => keys k) k y ST ltac:(rewrite K; exact OI) Q2 Q6 ltac:(rewrite K; exact OS) ltac:(rewrite K; cbn [set_vext k_pol k_cols]; congruence) T I2 kz n0 S0 N0) as EN. eexists. split; [exact R1|]. rewrite <- EN.
    apply KSLoop.body_inv in B. destruct B as (_ & y1 & ve & vh & sol & k3 & nout & n1 & k4 & k5 & E1 & r & _ & _ & _ & _ & _ & _ & _ & _ & Y & _ & ->). cbn [c_ks c_oldE] in *. congruence. }
  destruct KE as (ev & E & KE & EE). exists k, st, o, ev, E, e0, u, (lv_env (fun _ => 0) u e0).
  assert (HI : o_int (k_opt k) = "ni"%string) by (rewrite K; exact OI). assert (HS : o_sym (k_opt k) = false) by (rewrite K; exact OS). assert (HP : k_pol k = 2%nat) by (rewrite K; exact P). assert (HC : k_cols k = 2%nat) by (rewrite K; exact C).
  do 16 (split; [assumption|]).
  pose proof (C134_floor g3p _ [] o _ k st ev E (fun j => e0 + 2 + INR j) (fun _ => u) T3 ST HI HS ltac:(congruence) O Q2 Q6 PL R I2 LX KE EE) as Q. rewrite HP in Q. specialize (Q (fun j Hj => proj2 (GR j Hj))).
  cbn [sumR] in Q. rewrite (proj1 (GR 0%nat ltac:(lia))), (proj1 (GR 1%nat ltac:(lia))) in Q. assert (Z0 : k_Zb k = 0) by (rewrite K; exact ZB). rewrite Z0 in Q. simpl INR in Q. unfold Rdiv in Q. rewrite Rmult_0_r, Rmult_0_l in Q. lra.
Qed.
(** two electrons on the same grid, for every pair of charges: every hypothesis of the comparison is met *)
Lemma C134_witness_single : forall Za Zb, exists w k st o ev E, ks_init g3p Za Zb 2 1 2 (fun _ _ => 1%nat) 1 2 ex_N ni_opt = Ok k /\ o_int (k_opt k) = "ni"%string /\ o_sym (k_opt k) = false /\
  (forall i j, place k i j -> KSSpec.placed (k_sol k i j)) /\ steady g3p w /\ scf_options [] = Ok o /\ so_cont o = false /\ so_flip o = false /\ ks_scf g3p w (fun _ => keys k) [] k = Ok st /\ (2 <= c_iter st)%Z /\ levels_exact g3p (c_ks st) /\
  k_E (c_ks st) = Some ev /\ E_E ev = Fin E.
Proof.
  intros Za Zb.
  destruct (ground_exists g3p g3p_spacing 0 (coulomb g3p Za Zb)) as (a & u & G). set (q := coulomb g3p Za Zb) in *. destruct G as (U & EP). assert (UN : exists x, (x < Nelem g3p)%nat /\ u x <> 0) by (exists 0%nat; split; [exact lv_points|apply Rgt_not_eq, U, lv_points]).
  destruct (bn_init Za Zb) as (k & KI). destruct (bn_static Za Zb k KI) as (SH & FR & VX & VN).
  assert (O : exists o, scf_options [] = Ok o) by (eexists; reflexivity). destruct O as (o & O). pose proof O as OE. injection OE as OE.
  assert (T0 : 10 * / 10 ^ 6 = 1 / 100000) by field.
  assert (Q : so_cont o = false /\ so_auto o = false /\ so_maxiter o = 100%Z /\ so_tol o = 10 * / 10 ^ 6 /\ so_flip o = false) by (rewrite <- OE; repeat split; reflexivity). destruct Q as (Q2 & Q3 & Q4 & Q5 & Q6). rewrite T0 in Q5.
  destruct (lv_runs q u a UN k (keys k) [] o SH (keys_schedule k) O Q3 Q2) as (st & E).
  destruct (scf_inv _ _ _ _ _ _ E) as (o' & O' & T & X). rewrite O in O'. injection O' as <-. pose proof (first_pass _ _ _ _ _ _ T X ltac:(lra) ltac:(lia)) as I2.
  assert (KE : exists ev r, k_E (c_ks st) = Some ev /\ E_E ev = Fin r).
  { destruct T as [kk SS|x y Tx Tt B]; [cbn in I2; lia|]. destruct (pass_results g3p (lv_env q u a) o _ x y (lv_normed q u a UN) B) as (ev & uu & R1 & _). exists ev.
    pose proof (trace_step _ _ _ _ _ _ _ Tx Tt B) as T. destruct (run_started _ _ _ _ _ _ T) as (k0 & S0). pose proof (start_guess g3p (lv_env q u a) o (fun _ : Z => keys k) k Q2 k0 S0) as (q1 & q2 & n0 & _ & _ & _ & N0 & _).
    pose proof SH as (P & C & _ & OS & OI & _).
    assert (ST : steady g3p (lv_env q u a)) by (intros it it' s s' _ H; unfold lv_env; cbn [e_worker]; rewrite (H 0%nat lv_points); reflexivity).
    pose proof (ni_energy g3p (lv_env q u a) o (fun _ : Z => keys k) k y ST OI Q2 Q6 OS ltac:(congruence) T I2 k0 n0 S0 N0) as EN. eexists. split; [exact R1|]. rewrite <- EN.
    apply KSLoop.body_inv in B. destruct B as (_ & y1 & ve & vh & sol & k3 & nout & n1 & k4 & k5 & E1 & r & _ & _ & _ & _ & _ & _ & _ & _ & Y & _ & ->). cbn [c_ks c_oldE] in *. congruence. }
  destruct KE as (ev & e & KE & EE). exists (lv_env q u a), k, st, o, ev, e. pose proof SH as (P & C & L & OS & OI & S).
  split; [exact KI|]. do 2 (split; [assumption|]). split; [|split; [intros it it' s s' _ H; unfold lv_env; cbn [e_worker]; rewrite (H 0%nat lv_points); reflexivity|]].
  { intros i j Hp. destruct (S i j Hp) as (_ & _ & S3). pose proof KI as KF. apply init_spec in KF. destruct KF as (oo & CF & _ & _ & _ & _ & _ & _ & _ & _ & _ & _ & _ & _ & _ & _ & _ & _ & _ & _ & _ & S').
    destruct (S' i j Hp) as (_ & _ & _ & _ & _ & S5 & _). split; [rewrite S3; lra|]. left. rewrite S5. injection CF as <-. reflexivity. }
  do 5 (split; [assumption|]). split; [|auto].
  intros i j m x Hp H. destruct T as [kk SS|b t Tb Te TB]; [cbn in I2; lia|]. destruct (lv_veff q u a k o _ b t SH Tb TB i j Hp) as (V1 & V2 & v & V3 & V4).
  assert (HJ : (j < 2)%nat).
  { pose proof (trace_frame _ _ _ _ _ _ (trace_step _ _ _ _ _ _ _ Tb Te TB)) as ((_ & _ & _ & _ & _ & F6 & _) & _). destruct Hp as (_ & Hp). rewrite F6, C in Hp. exact Hp. }
  assert (VQ : forall y, s_veff (k_sol (c_ks t) i j) y = q y) by (intros y; rewrite V1, VN by exact HJ; unfold outer; rewrite VX; unfold q; ring).
  unfold eig_at in H. rewrite V3 in H. destruct (pyidx 1 m) as [z|]; [|discriminate]. cbn [bind] in H. injection H as <-. exists u. split; [exact UN|]. rewrite V2, V4, VQ. replace (q 0%nat - q 0%nat + a) with a by ring.
  intros y Hy. cbv beta. rewrite VQ. apply EP, Hy.
Qed.
