(** Property C137: energies without interaction are piecewise linear and convex in the electron numbers. *)
From Coq Require Import Reals List Arith Lia Lra ZArith Bool String.
From Verif Require Import Base BaseLemmas GridModel GridSpec GridProofs SolverModel SolverSpec SolverProofs LibxcModel OptionsModel KSModel KSSpec KSProofs KSThms KSLoop KSEnergy KSTotal SelfConsistent NonInteracting KSMemory Gauge Binding GridWitness HartreeModel HartreeThms SolverWitness SolverCases KSWit KSMemoryWit InverterThms NCSignsThms GroundThms LevelBounds LevelWit ElectronNumber.
Import ListNotations.
Local Open Scope R_scope.

(** Solvers that differ in the number of electrons only: the sum of levels is linear while the same orbital is being filled, and convex when the levels are in ascending order. *)
Theorem C137_solver : forall s s' s'' E E' E'' t, 0 <= t <= 1 -> s_frac s = true -> s_frac s' = true -> s_frac s'' = true -> s_m s' = s_m s -> s_m s'' = s_m s -> s_pol s' = s_pol s -> s_pol s'' = s_pol s -> s_eig s' = s_eig s -> s_eig s'' = s_eig s -> s_eig s <> None ->
  0 <= s_N s -> 0 <= s_N s' -> s_N s'' = t * s_N s + (1 - t) * s_N s' -> calc_eks s = Ok E -> calc_eks s' = Ok E' -> calc_eks s'' = Ok E'' ->
  (ascending s -> E'' <= t * E + (1 - t) * E') /\ (forall m, between (shell_size (s_m s) (s_pol s)) m (s_N s) -> between (shell_size (s_m s) (s_pol s)) m (s_N s') -> E'' = t * E + (1 - t) * E').
Proof. exact eks_convex. Qed.
Print Assumptions C137_solver.
(** The density of a solver is linear in the same way. *)
Theorem C137_density : forall g s s' s'' d d' d'' t m, 0 <= t <= 1 -> s_frac s = true -> s_frac s' = true -> s_frac s'' = true -> s_m s' = s_m s -> s_m s'' = s_m s -> s_pol s' = s_pol s -> s_pol s'' = s_pol s -> s_phi s' = s_phi s -> s_phi s'' = s_phi s -> s_phi s <> None ->
  0 <= s_N s -> 0 <= s_N s' -> s_N s'' = t * s_N s + (1 - t) * s_N s' -> calc_density g s = Ok d -> calc_density g s' = Ok d' -> calc_density g s'' = Ok d'' ->
  between (shell_size (s_m s) (s_pol s)) m (s_N s) -> between (shell_size (s_m s) (s_pol s)) m (s_N s') -> forall x, d'' x = t * d x + (1 - t) * d' x.
Proof. exact density_linear. Qed.
Print Assumptions C137_density.

(** E is what a run without interaction stores as E + E.Vext for the object k. *)
Definition free_run (g : grid) (w : env) (k : ks) (E : R) (last : ks) : Prop :=
  exists sched d o st ev r, o_int (k_opt k) = "ni"%string /\ o_sym (k_opt k) = false /\ k_pol k = k_cols k /\ scf_options d = Ok o /\ so_cont o = false /\ so_flip o = false /\ ks_scf g w sched d k = Ok st /\ (2 <= c_iter st)%Z /\
    k_E (c_ks st) = Some ev /\ E_E ev = Fin r /\ E = r + E_Vext ev /\ last = c_ks st.
(** The objects differ at most in the numbers of electrons of their solvers. *)
Definition same_but_electrons (k k' : ks) : Prop :=
  k_Za k' = k_Za k /\ k_Zb k' = k_Zb k /\ k_lv k' = k_lv k /\ k_cols k' = k_cols k /\ (forall x j, k_vnuc k' x j + outer k' x j = k_vnuc k x j + outer k x j) /\
  forall i j, place k i j -> s_m (k_sol k' i j) = s_m (k_sol k i j) /\ s_pol (k_sol k' i j) = s_pol (k_sol k i j) /\ s_Nmo (k_sol k' i j) = s_Nmo (k_sol k i j) /\ s_frac (k_sol k' i j) = s_frac (k_sol k i j) /\ s_sym (k_sol k' i j) = s_sym (k_sol k i j).
Lemma by_potential_steady : forall g w, by_potential g w -> steady g w.
Proof. intros g w H it it' s s' (A1 & A2 & _ & A4 & A5 & A6) V. apply H; assumption. Qed.
Lemma free_levels : forall g w k E last, by_potential g w -> free_run g w k E last ->
  E = sumR (k_lv k) (fun i => sumR (k_cols k) (fun j => eks_of (k_sol last i j))) + k_Za k * k_Zb k / (2 * ga g) /\
  forall i j, place k i j -> calc_eks (k_sol last i j) = Ok (eks_of (k_sol last i j)) /\ exists it s r, same_static (k_sol k i j) s /\ (forall x, s_veff s x = k_vnuc k x j + outer k x j) /\ e_worker w it s = Some r /\ s_eig (k_sol last i j) = Some (fst r) /\ same_static (k_sol k i j) (k_sol last i j).
Proof.
  intros g w k E last H (sched & d & o & st & ev & r & HI & HS & PC & O & HC & HF & R & I2 & KE & EE & -> & ->). destruct (scf_inv _ _ _ _ _ _ R) as (o' & O' & T & _). rewrite O in O'. injection O' as <-.
  destruct (run_levels g w o sched k st ev r (by_potential_steady g w H) HI HS PC HC HF T I2 KE EE) as (Q & L). split; [exact Q|]. intros i j Hp. destruct (L i j Hp) as ((e & Ee) & X). split; [unfold eks_of; rewrite Ee; reflexivity|exact X].
Qed.
(** Runs: with numbers of electrons mixed level by level the energy is at most the mixed energy; it equals it while no orbital is completed in between. *)
Theorem C137_run : forall g w k k' k'' E E' E'' l l' l'' t, 0 <= t <= 1 -> by_potential g w -> free_run g w k E l -> free_run g w k' E' l' -> free_run g w k'' E'' l'' -> same_but_electrons k k' -> same_but_electrons k k'' ->
  (forall i j, place k i j -> s_frac (k_sol k i j) = true /\ 0 <= s_N (k_sol k i j) /\ 0 <= s_N (k_sol k' i j) /\ s_N (k_sol k'' i j) = t * s_N (k_sol k i j) + (1 - t) * s_N (k_sol k' i j)) ->
  ((forall i j, place k i j -> ascending (k_sol l i j)) -> E'' <= t * E + (1 - t) * E') /\
  ((forall i j, place k i j -> exists m, between (shell_size (s_m (k_sol k i j)) (s_pol (k_sol k i j))) m (s_N (k_sol k i j)) /\ between (shell_size (s_m (k_sol k i j)) (s_pol (k_sol k i j))) m (s_N (k_sol k' i j))) -> E'' = t * E + (1 - t) * E').
Proof.
  intros g w k k' k'' E E' E'' l l' l'' t Ht BP R R' R'' S S' HN. destruct (free_levels _ _ _ _ _ BP R) as (-> & L). destruct (free_levels _ _ _ _ _ BP R') as (-> & L'). destruct (free_levels _ _ _ _ _ BP R'') as (-> & L'').
  destruct S as (A1 & A2 & A3 & A4 & A5 & A6). destruct S' as (B1 & B2 & B3 & B4 & B5 & B6). rewrite A1, A2, A3, A4, B1, B2, B3, B4. clear A1 A2 B1 B2.
  assert (P : forall i j, place k i j -> (ascending (k_sol l i j) -> eks_of (k_sol l'' i j) <= t * eks_of (k_sol l i j) + (1 - t) * eks_of (k_sol l' i j)) /\
    forall m, between (shell_size (s_m (k_sol k i j)) (s_pol (k_sol k i j))) m (s_N (k_sol k i j)) -> between (shell_size (s_m (k_sol k i j)) (s_pol (k_sol k i j))) m (s_N (k_sol k' i j)) -> eks_of (k_sol l'' i j) = t * eks_of (k_sol l i j) + (1 - t) * eks_of (k_sol l' i j)).
  { intros i j Hp. destruct (HN i j Hp) as (F & N0 & N1 & N2). destruct (L i j Hp) as (C & it & s & r & Q1 & Q2 & Q3 & Q4 & Q5). assert (Hp' : place k' i j) by (unfold place in *; rewrite A3, A4; exact Hp). assert (Hp'' : place k'' i j) by (unfold place in *; rewrite B3, B4; exact Hp).
    destruct (L' i j Hp') as (C' & it' & s' & r' & Q1' & Q2' & Q3' & Q4' & Q5'). destruct (L'' i j Hp'') as (C'' & it'' & s'' & r'' & Q1'' & Q2'' & Q3'' & Q4'' & Q5'').
    destruct (A6 i j Hp) as (X1 & X2 & X3 & X4 & X5). destruct (B6 i j Hp) as (Y1 & Y2 & Y3 & Y4 & Y5).
    destruct Q1 as (K1 & K2 & K3 & K4 & K5 & K6). destruct Q1' as (K1' & K2' & K3' & K4' & K5' & K6'). destruct Q1'' as (K1'' & K2'' & K3'' & K4'' & K5'' & K6''). destruct Q5 as (J1 & J2 & J3 & _ & J5 & _). destruct Q5' as (J1' & J2' & J3' & _ & J5' & _). destruct Q5'' as (J1'' & J2'' & J3'' & _ & J5'' & _).
    assert (W1 : e_worker w it' s' = e_worker w it s) by (apply BP; try congruence; intros x _; rewrite Q2, Q2'; apply A5). assert (W2 : e_worker w it'' s'' = e_worker w it s) by (apply BP; try congruence; intros x _; rewrite Q2, Q2''; apply B5).
    assert (r' = r) by congruence. assert (r'' = r) by congruence. subst r' r''.
    pose proof (eks_convex (k_sol l i j) (k_sol l' i j) (k_sol l'' i j) _ _ _ t Ht ltac:(congruence) ltac:(congruence) ltac:(congruence) ltac:(congruence) ltac:(congruence) ltac:(congruence) ltac:(congruence) ltac:(congruence) ltac:(congruence) ltac:(congruence) ltac:(rewrite J3; exact N0) ltac:(rewrite J3'; exact N1) ltac:(rewrite J3, J3', J3''; exact N2) C C' C'') as Q.
    rewrite J1, J2, J3, J3' in Q. exact Q. }
  assert (ID : t * (sumR (k_lv k) (fun i => sumR (k_cols k) (fun j => eks_of (k_sol l i j))) + k_Za k * k_Zb k / (2 * ga g)) + (1 - t) * (sumR (k_lv k) (fun i => sumR (k_cols k) (fun j => eks_of (k_sol l' i j))) + k_Za k * k_Zb k / (2 * ga g)) =
    sumR (k_lv k) (fun i => sumR (k_cols k) (fun j => t * eks_of (k_sol l i j) + (1 - t) * eks_of (k_sol l' i j))) + k_Za k * k_Zb k / (2 * ga g)).
  { rewrite (sumR_ext (k_lv k) (fun i => sumR (k_cols k) (fun j => t * eks_of (k_sol l i j) + (1 - t) * eks_of (k_sol l' i j))) (fun i => t * sumR (k_cols k) (fun j => eks_of (k_sol l i j)) + (1 - t) * sumR (k_cols k) (fun j => eks_of (k_sol l' i j)))) by (intros i _; rewrite sumR_plus, !sumR_scal; reflexivity). rewrite sumR_plus, !sumR_scal. ring. }
  rewrite ID. split; intros A.
  - apply Rplus_le_compat_r. apply sumR_le. intros i Hi. apply sumR_le. intros j Hj. apply (P i j (conj Hi Hj)), A. split; assumption.
  - apply Rplus_eq_compat_r. apply sumR_ext. intros i Hi. apply sumR_ext. intros j Hj. destruct (A i j (conj Hi Hj)) as (m & M & M'). exact (proj2 (P i j (conj Hi Hj)) m M M').
Qed.
Print Assumptions C137_run.
(** The stored densities of such runs are mixed in the same way while no orbital is completed in between. *)
Theorem C137_run_density : forall g w k k' k'' E E' E'' l l' l'' n n' n'' t, 0 <= t <= 1 -> by_potential g w -> (forall it s r, e_worker w it s = Some r -> snd r <> None) -> free_run g w k E l -> free_run g w k' E' l' -> free_run g w k'' E'' l'' -> same_but_electrons k k' -> same_but_electrons k k'' ->
  (forall i j, place k i j -> s_frac (k_sol k i j) = true /\ 0 <= s_N (k_sol k i j) /\ 0 <= s_N (k_sol k' i j) /\ s_N (k_sol k'' i j) = t * s_N (k_sol k i j) + (1 - t) * s_N (k_sol k' i j)) ->
  (forall i j, place k i j -> exists m, between (shell_size (s_m (k_sol k i j)) (s_pol (k_sol k i j))) m (s_N (k_sol k i j)) /\ between (shell_size (s_m (k_sol k i j)) (s_pol (k_sol k i j))) m (s_N (k_sol k' i j))) ->
  k_n l = Some n -> k_n l' = Some n' -> k_n l'' = Some n'' -> forall x j, (j < k_cols k)%nat -> n'' x j = t * n x j + (1 - t) * n' x j.
Proof.
  intros g w k k' k'' E E' E'' l l' l'' n n' n'' t Ht BP SO R R' R'' S S' HN HM KN KN' KN'' x j Hj.
  assert (DEN : forall k E l n, free_run g w k E l -> k_n l = Some n -> exists sol, (forall x j, (j < k_cols k)%nat -> n x j = sumR (k_lv k) (fun i => dens g (sol i j) x)) /\
    forall i j, place k i j -> calc_density g (sol i j) = Ok (dens g (sol i j)) /\ exists it s r, same_static (k_sol k i j) s /\ (forall x, s_veff s x = k_vnuc k x j + outer k x j) /\ e_worker w it s = Some r /\ sol i j = set_result s r).
  { clear - BP. intros k E l n (sched & d & o & st & ev & r & HI & HS & PC & O & HC & HF & R & I2 & KE & EE & -> & ->) KN. destruct (scf_inv _ _ _ _ _ _ R) as (o' & O' & T & _). rewrite O in O'. injection O' as <-.
    destruct (run_density g w o sched k st (by_potential_steady g w BP) HI HS HC HF T) as (n0 & sol & Q1 & Q2 & Q3). assert (n0 = n) by congruence. subst n0. exists sol. auto. }
  destruct (DEN _ _ _ _ R KN) as (sol & D1 & L). destruct (DEN _ _ _ _ R' KN') as (sol' & D1' & L'). destruct (DEN _ _ _ _ R'' KN'') as (sol'' & D1'' & L''). clear DEN.
  destruct S as (_ & _ & A3 & A4 & A5 & A6). destruct S' as (_ & _ & B3 & B4 & B5 & B6). rewrite (D1 x j Hj), (D1' x j) by (rewrite A4; exact Hj). rewrite (D1'' x j) by (rewrite B4; exact Hj). rewrite A3, B3, <- !sumR_scal, <- sumR_plus. apply sumR_ext. intros i Hi.
  assert (Hp : place k i j) by (split; assumption). destruct (HN i j Hp) as (F & N0 & N1 & N2). destruct (HM i j Hp) as (m & M & M'). destruct (L i j Hp) as (C & it & s & r & Q1 & Q2 & Q3 & Q4). assert (Hp' : place k' i j) by (unfold place in *; rewrite A3, A4; exact Hp). assert (Hp'' : place k'' i j) by (unfold place in *; rewrite B3, B4; exact Hp).
  destruct (L' i j Hp') as (C' & it' & s' & r' & Q1' & Q2' & Q3' & Q4'). destruct (L'' i j Hp'') as (C'' & it'' & s'' & r'' & Q1'' & Q2'' & Q3'' & Q4'').
  destruct (A6 i j Hp) as (X1 & X2 & X3 & X4 & X5). destruct (B6 i j Hp) as (Y1 & Y2 & Y3 & Y4 & Y5). destruct Q1 as (K1 & K2 & K3 & K4 & K5 & K6). destruct Q1' as (K1' & K2' & K3' & K4' & K5' & K6'). destruct Q1'' as (K1'' & K2'' & K3'' & K4'' & K5'' & K6'').
  assert (W1 : e_worker w it' s' = e_worker w it s) by (apply BP; try congruence; intros z _; rewrite Q2, Q2'; apply A5). assert (W2 : e_worker w it'' s'' = e_worker w it s) by (apply BP; try congruence; intros z _; rewrite Q2, Q2''; apply B5).
  assert (r' = r) by congruence. assert (r'' = r) by congruence. subst r' r''. pose proof (SO _ _ _ Q3) as SR. destruct r as [re [rp|]]; [|cbn [snd] in SR; congruence]. clear SR.
  apply (density_linear g (sol i j) (sol' i j) (sol'' i j) _ _ _ t m Ht); auto; rewrite ?Q4, ?Q4', ?Q4''; cbn [set_result s_frac s_m s_pol s_phi s_N snd]; first [congruence|rewrite K1, K2, K3; exact M|rewrite K1, K2, K3'; exact M'].
Qed.
Print Assumptions C137_run_density.
(** a solver with levels -2 and -1 and 1/2, 1 and 3/2 electrons: -1, -2 and -5/2 *)
Definition en_solver (n : R) : solver := mkSolver 0 2 n 2 true false (fun _ => 0) (Some (2%nat, fun i x => 1 + INR i * INR x)) (Some (2%nat, fun i => INR i - 2)).
Lemma floor_between : forall x z, IZR z <= x < IZR z + 1 -> floorZ x = z.
Proof. intros x z H. unfold floorZ. destruct (base_Int_part x) as [A B]. assert (IZR (Int_part x) < IZR (z + 1)) by (rewrite plus_IZR; lra). assert (IZR (z - 1) < IZR (Int_part x)) by (rewrite minus_IZR; lra). apply lt_IZR in H0, H1. lia. Qed.
Lemma en_eks : calc_eks (en_solver (1 / 2)) = Ok (-1) /\ calc_eks (en_solver 1) = Ok (-2) /\ calc_eks (en_solver (3 / 2)) = Ok (- (5 / 2)).
Proof.
  assert (F0 : floorZ (1 / 2) = 0%Z) by (apply floor_between; lra). assert (F1 : floorZ 1 = 1%Z) by (apply floor_between; lra). assert (F2 : floorZ (3 / 2) = 1%Z) by (apply floor_between; lra).
  unfold calc_eks, nocc, en_solver, nonzero. cbn [s_m s_pol s_N s_frac Z.eqb Nat.eqb]. rewrite F0, F1, F2. change (Z.to_nat 0) with 0%nat. change (Z.to_nat 1) with 1%nat. cbn [eks_loop bind andb].
  unfold eig_at. cbn [s_eig]. unfold pyidx. cbn [Z.of_nat Z.leb Z.ltb Z.compare andb bind Pos.of_succ_nat Pos.succ Pos.compare Pos.compare_cont Z.to_nat Pos.to_nat Pos.iter_op]. unfold shell_scale. cbn [s_m s_pol Z.eqb Nat.eqb].
  split; [|split].
  - destruct (Req_EM_T (1 / 2 - 0) 0); [lra|]. cbn [bind]. f_equal. simpl. field.
  - destruct (Req_EM_T (1 - 1) 0); [|lra]. cbn [bind]. f_equal. simpl. ring.
  - destruct (Req_EM_T (3 / 2 - 1) 0); [lra|]. cbn [bind]. f_equal. simpl. field.
Qed.
Lemma C137_witness : ascending (en_solver (1 / 2)) /\ s_eig (en_solver (1 / 2)) <> None /\ s_N (en_solver 1) = 1 / 2 * s_N (en_solver (1 / 2)) + (1 - 1 / 2) * s_N (en_solver (3 / 2)) /\ -2 < 1 / 2 * -1 + (1 - 1 / 2) * - (5 / 2).
Proof. split; [intros n e H i Hi; injection H as <- <-; apply Rplus_le_compat_r, le_INR; lia|]. split; [discriminate|]. cbn [en_solver s_N]. lra. Qed.
(** its densities for 1/2, 3/4 and 1 electrons *)
Lemma C137_witness_density : exists d d' d'', calc_density g3p (en_solver (1 / 2)) = Ok d /\ calc_density g3p (en_solver 1) = Ok d' /\ calc_density g3p (en_solver (3 / 4)) = Ok d'' /\ between (shell_size 0 2) 0 (1 / 2) /\ between (shell_size 0 2) 0 1 /\ 3 / 4 = 1 / 2 * (1 / 2) + (1 - 1 / 2) * 1 /\ s_phi (en_solver (1 / 2)) <> None /\
  d 0%nat = 1 / 2 * (1 / norm2 g3p (fun x => 1 + 0 * INR x)).
Proof.
  assert (F0 : floorZ (1 / 2) = 0%Z) by (apply floor_between; lra). assert (F1 : floorZ 1 = 1%Z) by (apply floor_between; lra). assert (F2 : floorZ (3 / 4) = 0%Z) by (apply floor_between; lra).
  unfold calc_density, nocc, en_solver, nonzero. cbn [s_m s_pol s_N s_frac Z.eqb Nat.eqb]. rewrite F0, F1, F2. change (Z.to_nat 0) with 0%nat. change (Z.to_nat 1) with 1%nat. cbn [dens_loop bind andb].
  unfold phi_col. cbn [s_phi]. unfold pyidx. cbn [Z.of_nat Z.leb Z.ltb Z.compare andb bind Pos.of_succ_nat Pos.succ Pos.compare Pos.compare_cont Z.to_nat Pos.to_nat Pos.iter_op].
  destruct (Req_EM_T (1 / 2 - 0) 0); [lra|]. destruct (Req_EM_T (1 - 1) 0); [|lra]. destruct (Req_EM_T (3 / 4 - 0) 0); [lra|]. cbn [bind]. do 3 eexists. do 3 (split; [reflexivity|]).
  unfold between, shell_size. cbn [Z.eqb Nat.eqb INR]. split; [lra|]. split; [lra|]. split; [lra|]. split; [discriminate|]. unfold shell_scale. cbn [s_m s_pol Z.eqb Nat.eqb INR]. unfold Rdiv. ring.
Qed.
(** runs on a 16 x 16 grid with a worker that returns these levels *)
Definition en_env : env := mkEnv (fun _ _ => Some ((2%nat, fun i => INR i - 2), Some (2%nat, fun _ _ => 1))) (e_lib ex_env) (e_spL ex_env) (e_spU ex_env).
Lemma en_run : forall n, 0 < n <= 2 -> exists k E l, ks_init g3p 1 0 2 1 2 (fun _ _ => 2%nat) 1 2 (fun _ _ => n) ni_opt = Ok k /\ free_run g3p en_env k E l /\ forall i j, place k i j -> ascending (k_sol l i j).
Proof.
  intros n Hn. assert (KI : exists k, ks_init g3p 1 0 2 1 2 (fun _ _ => 2%nat) 1 2 (fun _ _ => n) ni_opt = Ok k) by (eapply init_total; [reflexivity|]; intros; lra). destruct KI as (k & KI).
  pose proof KI as KS. apply init_spec in KS. destruct KS as (oo & CF & _ & _ & ZA & ZB & P & L & CC & OI & OS & _ & _ & _ & OF & VX & _ & _ & _ & _ & _ & S). injection CF as <-.
  assert (HS : o_sym (k_opt k) = false) by exact OS. assert (HI : o_int (k_opt k) = "ni"%string) by exact OI.
  assert (U1 : exists x, (x < Nelem g3p)%nat /\ (fun _ : nat => 1) x <> 0) by (exists 0%nat; split; [exact lv_points|lra]). pose proof (lv_norm (fun _ => 1) U1) as NP.
  assert (S' : forall i j, place k i j -> s_m (k_sol k i j) = 0%Z /\ s_pol (k_sol k i j) = 2%nat /\ s_N (k_sol k i j) = n /\ s_frac (k_sol k i j) = true).
  { intros i j Hp. destruct (S i j Hp) as (_ & S1 & S2 & S3 & _ & S5 & _). split; [rewrite S1; destruct Hp as (Hi & _); rewrite L in Hi; replace i with 0%nat by lia; reflexivity|]. auto. }
  assert (C1 : capable en_env k).
  { intros it i j s Hp (S1 & S2 & S3 & S4). destruct (S' i j Hp) as (M & PP & N & _). rewrite S3, N. split; [lra|]. eexists 2%nat, _, _. split; [reflexivity|]. rewrite S1, S2, M, PP. unfold shell_size. simpl. lra. }
  assert (C2 : worker_ok g3p en_env) by (intros it s r E; injection E as <-; cbn [snd]; intros; exact NP).
  assert (C3 : forall i j, place k i j -> KSSpec.placed (k_sol k i j)) by (intros i j Hp; destruct (S' i j Hp) as (_ & _ & N & F); split; [rewrite N; lra|left; exact F]).
  assert (C4 : hxc_available g3p en_env k) by (left; exact HI). pose proof lv_points as Q.
  assert (O : exists o, scf_options [] = Ok o) by (eexists; reflexivity). destruct O as (o & O). pose proof O as OE. injection OE as OE.
  assert (T0 : 10 * / 10 ^ 6 = 1 / 100000) by field.
  assert (QQ : so_cont o = false /\ so_auto o = false /\ so_maxiter o = 100%Z /\ so_tol o = 10 * / 10 ^ 6 /\ so_flip o = false) by (rewrite <- OE; repeat split; reflexivity). destruct QQ as (Q2 & Q3 & Q4 & Q5 & Q6). rewrite T0 in Q5.
  assert (RUN : exists st, ks_scf g3p en_env (fun _ => keys k) [] k = Ok st).
  { edestruct (scf_total g3p en_env k) with (sched := fun _ : Z => keys k) (d := @nil _ : dict) as (st & E); try eassumption; try (intros _; apply keys_schedule); try congruence; try lia. eauto. }
  destruct RUN as (st & E). destruct (scf_inv _ _ _ _ _ _ E) as (o' & O' & T & X). rewrite O in O'. injection O' as <-. pose proof (first_pass _ _ _ _ _ _ T X ltac:(lra) ltac:(lia)) as I2.
  assert (BP : by_potential g3p en_env) by (intros it it' s s' _ _ _ _ _ _; reflexivity). pose proof (by_potential_steady _ _ BP) as ST.
  assert (NW : normed_workers g3p en_env) by (intros it s r m p EE PP i _; injection EE as <-; injection PP as <- <-; apply Rgt_not_eq, NP).
  assert (KE : exists ev r, k_E (c_ks st) = Some ev /\ E_E ev = Fin r).
  { destruct T as [kk SS|x y Tx Tt B]; [cbn in I2; lia|]. destruct (pass_results g3p en_env o _ x y NW B) as (ev & uu & R1 & _). exists ev. pose proof (trace_step _ _ _ _ _ _ _ Tx Tt B) as T. destruct (run_started _ _ _ _ _ _ T) as (k0 & S0).
    pose proof (start_guess g3p en_env o (fun _ : Z => keys k) k Q2 k0 S0) as (q1 & q2 & n0 & _ & _ & _ & N0 & _). pose proof (ni_energy g3p en_env o (fun _ : Z => keys k) k y ST HI Q2 Q6 HS ltac:(congruence) T I2 k0 n0 S0 N0) as EN. eexists. split; [exact R1|]. rewrite <- EN.
    apply KSLoop.body_inv in B. destruct B as (_ & y1 & ve & vh & sol & k3 & nout & n1 & k4 & k5 & E1 & r & _ & _ & _ & _ & _ & _ & _ & _ & Y & _ & ->). cbn [c_ks c_oldE] in *. congruence. }
  destruct KE as (ev & r & KE & EE). exists k, (r + E_Vext ev), (c_ks st). split; [exact KI|].
  assert (FR : free_run g3p en_env k (r + E_Vext ev) (c_ks st)) by (exists (fun _ => keys k), [], o, st, ev, r; repeat (split; [first [assumption|congruence|reflexivity]|]); reflexivity). split; [exact FR|].
  intros i j Hp n' e H. destruct (free_levels _ _ _ _ _ BP FR) as (_ & FL). destruct (FL i j Hp) as (_ & it & s & rr & _ & _ & W & SE & _). injection W as <-. cbn [fst] in SE. rewrite SE in H. injection H as <- <-. intros z _. apply Rplus_le_compat_r, le_INR. lia.
Qed.
Lemma C137_witness_run : exists k k' k'' E E' E'' l l' l'', by_potential g3p en_env /\ free_run g3p en_env k E l /\ free_run g3p en_env k' E' l' /\ free_run g3p en_env k'' E'' l'' /\ same_but_electrons k k' /\ same_but_electrons k k'' /\
  (forall i j, place k i j -> s_frac (k_sol k i j) = true /\ s_N (k_sol k i j) = 1 / 2 /\ s_N (k_sol k' i j) = 3 / 2 /\ s_N (k_sol k'' i j) = 1) /\ (forall i j, place k i j -> ascending (k_sol l i j)) /\ E'' <= 1 / 2 * E + (1 - 1 / 2) * E'.
Proof.
  destruct (en_run (1 / 2) ltac:(lra)) as (k & E & l & KI & R & A). destruct (en_run (3 / 2) ltac:(lra)) as (k' & E' & l' & KI' & R' & _). destruct (en_run 1 ltac:(lra)) as (k'' & E'' & l'' & KI'' & R'' & _).
  exists k, k', k'', E, E', E'', l, l', l''. assert (BP : by_potential g3p en_env) by (intros it it' s s' _ _ _ _ _ _; reflexivity).
  assert (VN : forall n k, ks_init g3p 1 0 2 1 2 (fun _ _ => 2%nat) 1 2 (fun _ _ => n) ni_opt = Ok k -> k_vnuc k = ks_vnuc g3p 1 0 2 false).
  { intros n q KV. unfold ks_init in KV. cbn [configure bind] in KV. destruct (configure KohnShamOptions ni_opt) as [oo|] eqn:QQ; [|discriminate]. injection QQ as <-. cbn [bind] in KV. cbv zeta in KV. cbn [Nat.eqb andb negb] in KV. destruct (Pssolver 1 2 _ _ _) as [sol|]; [|discriminate]. cbn [bind] in KV. injection KV as <-. reflexivity. }
  pose proof (VN _ _ KI) as V. pose proof (VN _ _ KI') as V'. pose proof (VN _ _ KI'') as V''.
  apply init_spec in KI, KI', KI''. destruct KI as (o1 & C1 & _ & _ & ZA & ZB & P & L & CC & _ & _ & _ & _ & _ & _ & VX & _ & _ & _ & _ & _ & S). destruct KI' as (o2 & C2 & _ & _ & ZA' & ZB' & P' & L' & CC' & _ & _ & _ & _ & _ & _ & VX' & _ & _ & _ & _ & _ & S'). destruct KI'' as (o3 & C3 & _ & _ & ZA'' & ZB'' & P'' & L'' & CC'' & _ & _ & _ & _ & _ & _ & VX'' & _ & _ & _ & _ & _ & S'').
  injection C1 as <-. injection C2 as <-. injection C3 as <-.
  assert (SB : same_but_electrons k k').
  { do 4 (split; [congruence|]). split; [intros x j; unfold outer; rewrite V, V', VX, VX'; reflexivity|]. intros i j Hp. destruct (S i j Hp) as (_ & A1 & A2 & A3 & A4 & A5 & A6 & _). destruct (S' i j ltac:(unfold place in *; rewrite L', CC'; rewrite L, CC in Hp; exact Hp)) as (_ & B1 & B2 & B3 & B4 & B5 & B6 & _). repeat split; congruence. }
  assert (SB' : same_but_electrons k k'').
  { do 4 (split; [congruence|]). split; [intros x j; unfold outer; rewrite V, V'', VX, VX''; reflexivity|]. intros i j Hp. destruct (S i j Hp) as (_ & A1 & A2 & A3 & A4 & A5 & A6 & _). destruct (S'' i j ltac:(unfold place in *; rewrite L'', CC''; rewrite L, CC in Hp; exact Hp)) as (_ & B1 & B2 & B3 & B4 & B5 & B6 & _). repeat split; congruence. }
  assert (NN : forall i j, place k i j -> s_frac (k_sol k i j) = true /\ s_N (k_sol k i j) = 1 / 2 /\ s_N (k_sol k' i j) = 3 / 2 /\ s_N (k_sol k'' i j) = 1).
  { intros i j Hp. destruct (S i j Hp) as (_ & _ & _ & A3 & _ & A5 & _). destruct (S' i j ltac:(unfold place in *; rewrite L', CC'; rewrite L, CC in Hp; exact Hp)) as (_ & _ & _ & B3 & _). destruct (S'' i j ltac:(unfold place in *; rewrite L'', CC''; rewrite L, CC in Hp; exact Hp)) as (_ & _ & _ & D3 & _). auto. }
  do 8 (split; [assumption|]). apply (C137_run g3p en_env k k' k'' E E' E'' l l' l'' (1 / 2)); auto; [lra|]. intros i j Hp. destruct (NN i j Hp) as (N1 & N2 & N3 & N4). rewrite N2, N3, N4. split; [exact N1|]. lra.
Qed.
Lemma en_same : forall a b k k', ks_init g3p 1 0 2 1 2 (fun _ _ => 2%nat) 1 2 (fun _ _ => a) ni_opt = Ok k -> ks_init g3p 1 0 2 1 2 (fun _ _ => 2%nat) 1 2 (fun _ _ => b) ni_opt = Ok k' ->
  same_but_electrons k k' /\ k_cols k = 2%nat /\ forall i j, place k i j -> s_frac (k_sol k i j) = true /\ s_N (k_sol k i j) = a /\ s_N (k_sol k' i j) = b /\ shell_size (s_m (k_sol k i j)) (s_pol (k_sol k i j)) = 1.
Proof.
  assert (VN : forall n k, ks_init g3p 1 0 2 1 2 (fun _ _ => 2%nat) 1 2 (fun _ _ => n) ni_opt = Ok k -> k_vnuc k = ks_vnuc g3p 1 0 2 false).
  { intros n q KV. unfold ks_init in KV. cbn [configure bind] in KV. destruct (configure KohnShamOptions ni_opt) as [oo|] eqn:QQ; [|discriminate]. injection QQ as <-. cbn [bind] in KV. cbv zeta in KV. cbn [Nat.eqb andb negb] in KV. destruct (Pssolver 1 2 _ _ _) as [sol|]; [|discriminate]. cbn [bind] in KV. injection KV as <-. reflexivity. }
  intros a b k k' KI KI'. pose proof (VN _ _ KI) as V. pose proof (VN _ _ KI') as V'. apply init_spec in KI, KI'.
  destruct KI as (o1 & C1 & _ & _ & ZA & ZB & P & L & CC & _ & _ & _ & _ & _ & _ & VX & _ & _ & _ & _ & _ & S). destruct KI' as (o2 & C2 & _ & _ & ZA' & ZB' & P' & L' & CC' & _ & _ & _ & _ & _ & _ & VX' & _ & _ & _ & _ & _ & S').
  injection C1 as <-. injection C2 as <-. split; [|split; [exact CC|]].
  - do 4 (split; [congruence|]). split; [intros x j; unfold outer; rewrite V, V', VX, VX'; reflexivity|]. intros i j Hp. destruct (S i j Hp) as (_ & A1 & A2 & A3 & A4 & A5 & A6 & _). destruct (S' i j ltac:(unfold place in *; rewrite L', CC'; rewrite L, CC in Hp; exact Hp)) as (_ & B1 & B2 & B3 & B4 & B5 & B6 & _). repeat split; congruence.
  - intros i j Hp. destruct (S i j Hp) as (_ & A1 & A2 & A3 & _ & A5 & _). destruct (S' i j ltac:(unfold place in *; rewrite L', CC'; rewrite L, CC in Hp; exact Hp)) as (_ & _ & _ & B3 & _). do 3 (split; [auto|]). rewrite A1, A2. destruct Hp as (Hi & _). rewrite L in Hi. replace i with 0%nat by lia. unfold shell_size. simpl. lra.
Qed.
(** runs with 1, 2 and 3/2 electrons of each spin: the second orbital is being filled *)
Lemma C137_witness_run_density : exists k k' k'' E E' E'' l l' l'' n n' n'', by_potential g3p en_env /\ (forall it s r, e_worker en_env it s = Some r -> snd r <> None) /\ free_run g3p en_env k E l /\ free_run g3p en_env k' E' l' /\ free_run g3p en_env k'' E'' l'' /\ same_but_electrons k k' /\ same_but_electrons k k'' /\
  (forall i j, place k i j -> s_frac (k_sol k i j) = true /\ s_N (k_sol k i j) = 1 /\ s_N (k_sol k' i j) = 2 /\ s_N (k_sol k'' i j) = 3 / 2 /\ shell_size (s_m (k_sol k i j)) (s_pol (k_sol k i j)) = 1) /\ k_n l = Some n /\ k_n l' = Some n' /\ k_n l'' = Some n'' /\ n'' 0%nat 1%nat = 1 / 2 * n 0%nat 1%nat + (1 - 1 / 2) * n' 0%nat 1%nat.
Proof.
  destruct (en_run 1 ltac:(lra)) as (k & E & l & KI & R & _). destruct (en_run 2 ltac:(lra)) as (k' & E' & l' & KI' & R' & _). destruct (en_run (3 / 2) ltac:(lra)) as (k'' & E'' & l'' & KI'' & R'' & _).
  destruct (en_same _ _ _ _ KI KI') as (S & CC & N). destruct (en_same _ _ _ _ KI KI'') as (S' & _ & N'). assert (BP : by_potential g3p en_env) by (intros it it' s s' _ _ _ _ _ _; reflexivity).
  assert (KN : forall k E l, free_run g3p en_env k E l -> exists n, k_n l = Some n).
  { intros q F m (sched & d & o & st & ev & r & HI & HS & PC & O & HC & HF & RR & I2 & KE & EE & -> & ->). destruct (scf_inv _ _ _ _ _ _ RR) as (o' & O' & T & _). rewrite O in O'. injection O' as <-. destruct (run_density _ _ o sched q st (by_potential_steady _ _ BP) HI HS HC HF T) as (n & _ & Q & _). eauto. }
  destruct (KN _ _ _ R) as (n & K1). destruct (KN _ _ _ R') as (n' & K2). destruct (KN _ _ _ R'') as (n'' & K3). assert (SO : forall it s r, e_worker en_env it s = Some r -> snd r <> None) by (intros it s r H; injection H as <-; discriminate).
  exists k, k', k'', E, E', E'', l, l', l'', n, n', n''. do 7 (split; [assumption|]). split; [intros i j Hp; destruct (N i j Hp) as (? & ? & ? & ?); destruct (N' i j Hp) as (? & ? & ? & ?); auto|]. do 3 (split; [assumption|]).
  apply (C137_run_density g3p en_env k k' k'' E E' E'' l l' l'' n n' n'' (1 / 2)); auto; [lra| | |lia].
  - intros i j Hp. destruct (N i j Hp) as (F & -> & -> & _). destruct (N' i j Hp) as (_ & _ & -> & _). split; [exact F|]. lra.
  - intros i j Hp. destruct (N i j Hp) as (_ & -> & -> & ->). exists 1%nat. unfold between. cbn [INR]. lra.
Qed.
