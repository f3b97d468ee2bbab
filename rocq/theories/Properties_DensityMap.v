(** Property C135: the density of one orbital determines the potential and the nuclear charges. *)
From Coq Require Import Reals List Arith Lia Lra ZArith Bool String.
From Verif Require Import Base BaseLemmas GridModel GridSpec GridProofs AxisProofs SolverModel SolverSpec SolverProofs LibxcModel OptionsModel KSModel KSSpec KSProofs KSThms KSLoop KSEnergy KSTotal SelfConsistent NonInteracting GroundThms GroundSym GridWitness HartreeThms KSWit KSMemory KSMemoryWit NCSignsThms SolverWitness SolverCases InverterThms
  Gauge LevelBounds LevelWit Binding BindingWit BindingMany DensityMap.
Import ListNotations.
Local Open Scope R_scope.
Local Opaque sinh cosh.

(** Two solvers of equal angular momentum, each with its electrons in the lowest orbital: where the densities agree everywhere the effective potentials differ by a constant. *)
Theorem C135_solver : forall g s s' d d', three_point g -> (forall x, (x < Nelem g)%nat -> 0 < gwi g x) -> calc_density g s = Ok d -> calc_density g s' = Ok d' -> s_m s = s_m s' -> one_orbital s -> one_orbital s' -> orbital_found g s -> orbital_found g s' ->
  (forall x, (x < Nelem g)%nat -> d x = d' x) -> exists c, forall x, (x < Nelem g)%nat -> s_veff s x = s_veff s' x + c.
Proof. intros g s s' d d' T W. exact (density_potential g T W s s' d d'). Qed.
Print Assumptions C135_solver.
(** Runs without interaction: the stored density of a spin determines the sum of nuclear and external potential of this spin up to a constant. *)
Theorem C135_run : forall g k k' j n n', three_point g -> (forall x, (x < Nelem g)%nat -> 0 < gwi g x) -> single_run g k j n -> single_run g k' j n' -> s_m (k_sol k 0 j) = s_m (k_sol k' 0 j) -> (forall x, (x < Nelem g)%nat -> n x = n' x) ->
  exists c, forall x, (x < Nelem g)%nat -> k_vnuc k x j + outer k x j = k_vnuc k' x j + outer k' x j + c.
Proof.
  intros g k k' j n n' T W R R' M H. destruct (run_solver g k j n R) as (s & d & D & MS & O & F & N & V). destruct (run_solver g k' j n' R') as (s' & d' & D' & MS' & O' & F' & N' & V').
  destruct (density_potential g T W s s' d d' D D' ltac:(congruence) O O' F F') as (c & C); [intros x Hx; rewrite <- N, <- N' by exact Hx; apply H, Hx|]. exists c. intros x Hx. rewrite <- V, <- V'. apply C, Hx.
Qed.
Print Assumptions C135_run.
(** Two pairs of point charges whose potentials differ by a constant at the grid points are equal. *)
Lemma charges_determined : forall g Za Zb Za' Zb' c, grid_ok g -> (forall x, (x < Nelem g)%nat -> coulomb g Za Zb x = coulomb g Za' Zb' x + c) -> Za = Za' /\ Zb = Zb'.
Proof.
  intros g Za Zb Za' Zb' c G H. pose proof (Na_ge2 g G) as N2. pose proof (Nr_ge2 g G) as R2. pose proof G as (_ & _ & _ & A0 & _).
  set (a := Za - Za'). set (b := Zb - Zb'). set (C := c * ga g).
  assert (E : forall ia ir, is_point g ia ir -> a * (cosh (xr g ir) - cos (xa g ia)) + b * (cosh (xr g ir) + cos (xa g ia)) = - C * (cosh (xr g ir) ^ 2 - cos (xa g ia) ^ 2)).
  { intros ia ir P. specialize (H _ (pos_lt g ia ir P)). rewrite !coulomb_val, dist_A, dist_B, Xa_pos, Xr_pos in H by (auto using pos_lt). pose proof (cosh_gt1 (xr g ir) (proj1 (xr_range g ir G (proj2 P)))) as C1. pose proof (COS_bound (xa g ia)) as C2.
    set (p := cosh (xr g ir)) in *. set (q := cos (xa g ia)) in *. assert (P1 : p + q <> 0) by lra. assert (P2 : p - q <> 0) by lra. assert (P3 : ga g <> 0) by lra.
    assert (Q : (- Za / (ga g * (p + q)) - Zb / (ga g * (p - q))) * (ga g * ((p + q) * (p - q))) = - Za * (p - q) - Zb * (p + q)) by (field; auto).
    assert (Q' : (- Za' / (ga g * (p + q)) - Zb' / (ga g * (p - q)) + c) * (ga g * ((p + q) * (p - q))) = - Za' * (p - q) - Zb' * (p + q) + c * ga g * ((p + q) * (p - q))) by (field; auto).
    rewrite H in Q. rewrite Q' in Q. unfold a, b, C. lra. }
  pose proof (E 0%nat 0%nat ltac:(split; lia)) as E1. pose proof (E (Na g - 1 - 0)%nat 0%nat ltac:(split; lia)) as E2. pose proof (E 0%nat 1%nat ltac:(split; lia)) as E3.
  rewrite xa_reflect in E2 by lia. assert (CR : cos (PI - xa g 0%nat) = - cos (xa g 0%nat)) by (rewrite cos_minus, cos_PI, sin_PI; ring). rewrite CR in E2.
  pose proof (proj1 (xr_range g 0%nat G ltac:(lia))) as X0. pose proof (cosh_gt1 _ X0) as C0.
  assert (XL : xr g 0%nat < xr g 1%nat).
  { rewrite !xr_node. unfold node. destruct G as (_ & _ & _ & _ & L0). assert (NP : 0 < INR (Nr g)) by (apply lt_0_INR; lia). unfold Rdiv. pose proof (Rinv_0_lt_compat _ NP). simpl INR. nra. }
  assert (CL : cosh (xr g 0%nat) < cosh (xr g 1%nat)).
  { pose proof (cosh2_sinh2 (xr g 0%nat)). pose proof (cosh2_sinh2 (xr g 1%nat)). pose proof (sinh_lt _ _ XL). pose proof (sinh_pos _ X0). pose proof (cosh_pos (xr g 0%nat)). pose proof (cosh_pos (xr g 1%nat)). nra. }
  assert (Q0 : 0 < cos (xa g 0%nat)).
  { rewrite xa_node by lia. pose proof PI_RGT_0. assert (NP : 2 <= INR (Na g)) by (replace 2 with (INR 2) by (simpl; ring); apply le_INR; lia). assert (0 < / INR (Na g) <= / 2) by (split; [apply Rinv_0_lt_compat; lra|apply Rinv_le_contravar; lra]). apply cos_gt_0; unfold node, Rdiv; simpl INR; nra. }
  set (q := cos (xa g 0%nat)) in *. set (p := cosh (xr g 0%nat)) in *. set (p' := cosh (xr g 1%nat)) in *.
  assert (AB : a = b) by nra. rewrite <- AB in *. assert (A1 : 2 * a * p = - C * (p ^ 2 - q ^ 2)) by lra. assert (A2 : 2 * a * p' = - C * (p' ^ 2 - q ^ 2)) by lra.
  assert (A3 : C * ((p' - p) * (p * p' + q ^ 2)) = 0).
  { replace (C * ((p' - p) * (p * p' + q ^ 2))) with (p' * (- C * (p ^ 2 - q ^ 2)) - p * (- C * (p' ^ 2 - q ^ 2))) by ring. rewrite <- A1, <- A2. ring. }
  assert (Cz : C = 0) by (apply Rmult_integral in A3; destruct A3 as [|A3]; [assumption|]; exfalso; assert (0 < (p' - p) * (p * p' + q ^ 2)) by (apply Rmult_lt_0_compat; nra); lra).
  rewrite Cz in A1. assert (a = 0) by nra. split; unfold a, b in *; lra.
Qed.
(** What a new object without external potential puts its electrons into. *)
Lemma new_potential : forall g Za Zb pol Nmo N opt k j n, (pol = 1 \/ pol = 2)%nat -> ks_init g Za Zb pol 1 pol Nmo 1 pol N opt = Ok k -> single_run g k j n -> s_m (k_sol k 0 j) = 0%Z /\ forall x, k_vnuc k x j + outer k x j = coulomb g Za Zb x.
Proof.
  intros g Za Zb pol Nmo N opt k j n HP KI (w & sched & d & o & st & m & _ & _ & HS & _ & HJ & _). pose proof KI as KV. apply init_spec in KI. destruct KI as (oo & CF & _ & _ & _ & _ & _ & L & CC & _ & _ & _ & _ & _ & _ & VX & _ & _ & _ & _ & _ & S).
    rewrite CC in HJ. split; [destruct (S 0%nat j) as (_ & S1 & _); [split; lia|exact S1]|]. unfold ks_init in KV. rewrite CF in KV. cbn [bind] in KV. rewrite !Nat.eqb_refl in KV. cbn [andb negb] in KV. cbv zeta in KV. destruct (Pssolver 1 pol Nmo N _) as [sol|]; [|discriminate]. cbn [bind] in KV. injection KV as <-.
    cbn [k_opt o_sym k_vext] in *. intros x. unfold outer. cbn [k_vnuc k_vext]. unfold ks_vnuc. rewrite HS. destruct HP as [->| ->]; cbn [Nat.eqb andb].
    - replace j with 0%nat by lia. apply Rplus_0_r.
    - destruct j as [|[|]]; [apply Rplus_0_r|apply Rplus_0_r|lia].
Qed.
(** New objects without external potential: the density of one spin determines both nuclear charges. *)
Theorem C135_charges : forall g Za Zb Za' Zb' pol Nmo Nmo' N N' opt opt' k k' j n n', three_point g -> (forall x, (x < Nelem g)%nat -> 0 < gwi g x) -> (pol = 1 \/ pol = 2)%nat -> ks_init g Za Zb pol 1 pol Nmo 1 pol N opt = Ok k -> ks_init g Za' Zb' pol 1 pol Nmo' 1 pol N' opt' = Ok k' ->
  single_run g k j n -> single_run g k' j n' -> (forall x, (x < Nelem g)%nat -> n x = n' x) -> Za = Za' /\ Zb = Zb'.
Proof.
  intros g Za Zb Za' Zb' pol Nmo Nmo' N N' opt opt' k k' j n n' T W HP KI KI' R R' H. destruct (new_potential _ _ _ _ _ _ _ _ _ _ HP KI R) as (M & V). destruct (new_potential _ _ _ _ _ _ _ _ _ _ HP KI' R') as (M' & V').
  destruct (C135_run g k k' j n n' T W R R' ltac:(congruence) H) as (c & C). apply (charges_determined g Za Zb Za' Zb' c (proj1 T)). intros x Hx. rewrite <- V, <- V'. apply C, Hx.
Qed.
Print Assumptions C135_charges.
(** two electrons on a 16 x 16 grid: for every pair of charges there is such a run *)
Lemma C135_witness : three_point g3p /\ (forall x, (x < Nelem g3p)%nat -> 0 < gwi g3p x) /\ forall Za Zb, exists k n, ks_init g3p Za Zb 2 1 2 (fun _ _ => 1%nat) 1 2 ex_N ni_opt = Ok k /\ single_run g3p k 0 n.
Proof.
  split; [exact g3p_spacing|]. split; [exact lv_weights|]. intros Za Zb.
  destruct (ground_exists g3p g3p_spacing 0 (coulomb g3p Za Zb)) as (a & u & G). set (q := coulomb g3p Za Zb) in *. pose proof G as (U & EP). assert (UN : exists x, (x < Nelem g3p)%nat /\ u x <> 0) by (exists 0%nat; split; [exact lv_points|apply Rgt_not_eq, U, lv_points]).
  destruct (bn_init Za Zb) as (k & KI). destruct (bn_static Za Zb k KI) as (SH & FR & VX & VN).
  assert (O : exists o, scf_options [] = Ok o) by (eexists; reflexivity). destruct O as (o & O). pose proof O as OE. injection OE as OE.
  assert (Q : so_cont o = false /\ so_auto o = false /\ so_flip o = false) by (rewrite <- OE; repeat split; reflexivity). destruct Q as (Q2 & Q3 & Q6).
  destruct (lv_runs q u a UN k (keys k) [] o SH (keys_schedule k) O Q3 Q2) as (st & E).
  assert (ST : steady g3p (lv_env q u a)) by (intros it it' s s' _ H; unfold lv_env; cbn [e_worker]; rewrite (H 0%nat lv_points); reflexivity).
  destruct (scf_inv _ _ _ _ _ _ E) as (o' & O' & T & _). rewrite O in O'. injection O' as <-. destruct (run_started _ _ _ _ _ _ T) as (k0 & S0). pose proof (start_guess g3p (lv_env q u a) o (fun _ : Z => keys k) k Q2 k0 S0) as (q1 & q2 & n0 & _ & _ & _ & N0 & _).
  pose proof SH as (P & C & L & OS & OI & S).
  destruct (ni_visited g3p (lv_env q u a) o (fun _ : Z => keys k) k st ST OI Q2 Q6 T k0 n0 S0 N0) as ((k1 & k2 & (G1 & G2 & G3) & (FF & _ & (n & KN & NS) & AG) & SO) & _).
  assert (Hp : place k 0 0) by (split; lia). exists k, (fun x => n x 0%nat). split; [exact KI|]. exists (lv_env q u a), (fun _ => keys k), [], o, st, n. do 4 (split; [assumption|]). split; [rewrite C; lia|].
  split. { destruct (S 0%nat 0%nat Hp) as (S1 & S2 & S3). unfold one_orbital. rewrite S1, S2, S3. unfold shell_size. simpl. split; [lra|]. right. ring. }
  do 4 (split; [assumption|]). split; [|auto].
  destruct (AG 0%nat 0%nat Hp) as (r & s & A1 & A2 & A3 & A4). apply density_inv in G3. destruct G3 as (sol & n1 & K2 & W & _). assert (Hp1 : place k1 0 0) by (destruct G1 as (_ & _ & _ & _ & I5 & I6 & _); unfold place in *; rewrite I5, I6; exact Hp).
  destruct (W 0%nat 0%nat Hp1) as (r' & R1 & R2). assert (PH : s_phi (k_sol (c_ks st) 0%nat 0%nat) = Some (1%nat, fun _ => u)).
  { assert (s_phi (set_result (k_sol k1 0%nat 0%nat) r) = s_phi (set_result (k_sol k1 0%nat 0%nat) r')) as PE by (rewrite <- A1, <- R2, K2; reflexivity). injection R1 as <-.
    rewrite A4. exact PE. }
  assert (VQ : forall y, s_veff (k_sol (c_ks st) 0%nat 0%nat) y = q y) by (intros y; rewrite A4; cbn [set_result s_veff]; rewrite A3, VN by lia; unfold outer; rewrite VX; unfold q; ring).
  assert (MZ : s_m (k_sol (c_ks st) 0%nat 0%nat) = 0%Z) by (destruct FF as (_ & _ & _ & _ & _ & _ & _ & F8); destruct (F8 0%nat 0%nat) as (J1 & _); rewrite J1; apply (S 0%nat 0%nat Hp)).
  intros p HPH. unfold phi_col in HPH. rewrite PH in HPH. destruct (pyidx 1 0) as [z|]; [|discriminate]. cbn [bind] in HPH. injection HPH as <-. exists a, u. rewrite MZ.
  assert (GG : ground g3p 0 (s_veff (k_sol (c_ks st) 0%nat 0%nat)) a u) by (apply (ground_ext _ _ q); [intros; symmetry; apply VQ|exact G]). split; [exact GG|]. split; [exact UN|apply GG].
Qed.
(** a solver of such a run and the same one with its potential raised by 3 *)
Lemma C135_witness_solver : exists s s' d, calc_density g3p s = Ok d /\ calc_density g3p s' = Ok d /\ s_m s = s_m s' /\ one_orbital s /\ one_orbital s' /\ orbital_found g3p s /\ orbital_found g3p s' /\ forall x, s_veff s' x = s_veff s x + 3.
Proof.
  destruct C135_witness as (_ & _ & W). destruct (W 1 1) as (k & n & _ & R). destruct (run_solver g3p k 0 n R) as (s & d & D & _ & O & F & _). exists s, (set_veff s (fun x => s_veff s x + 3)), d.
  assert (DV : forall v, calc_density g3p (set_veff s v) = calc_density g3p s).
  { intros v. assert (DL : forall i, dens_loop g3p (set_veff s v) i = dens_loop g3p s i) by (induction i as [|i IH]; [reflexivity|cbn [dens_loop]; rewrite IH; reflexivity]). unfold calc_density. change (nocc (set_veff s v)) with (nocc s). destruct (nocc s). rewrite DL. reflexivity. }
  split; [exact D|]. split; [rewrite DV; exact D|]. split; [reflexivity|]. split; [exact O|]. split; [exact O|]. split; [exact F|]. split; [|reflexivity].
  assert (SH : forall a p, eigenpair g3p (hamiltonian g3p (s_m s)) (s_veff s) a p -> eigenpair g3p (hamiltonian g3p (s_m s)) (fun x => s_veff s x + 3) (a + 3) p) by (intros a p E x Hx; specialize (E x Hx); cbv beta; rewrite Rmult_plus_distr_l, Rmult_plus_distr_r, <- Rplus_assoc, E; ring).
  intros p P. destruct (F p P) as (a & u & (U & E) & N & E'). exists (a + 3), u. split; [split; [exact U|apply SH, E]|]. split; [exact N|apply SH, E'].
Qed.
