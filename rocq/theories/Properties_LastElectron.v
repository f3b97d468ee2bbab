(** Property C138: the chemical potential is the energy of the last electron. *)
From Coq Require Import Reals List Arith Lia Lra ZArith Bool String.
From Verif Require Import Base BaseLemmas GridModel GridSpec GridProofs SolverModel SolverSpec SolverProofs LibxcModel OptionsModel KSModel KSSpec KSProofs KSThms KSLoop KSEnergy KSTotal SelfConsistent NonInteracting KSMemory Gauge Binding GridWitness HartreeModel HartreeThms KSWit InverterThms SolverThms ElectronNumber Properties_ElectronNumber LastElectron.
Import ListNotations.
Local Open Scope R_scope.

(** Taking electrons out of a solver raises the sum of levels by exactly - get_homo per electron while the last orbital is being emptied, and by no less than this when the levels are in ascending order. *)
Theorem C138_solver : forall s s' E E' h, s_frac s = true -> s_frac s' = true -> s_m s' = s_m s -> s_pol s' = s_pol s -> s_eig s' = s_eig s -> s_eig s <> None -> 0 <= s_N s' <= s_N s -> 0 < s_N s -> calc_eks s = Ok E -> calc_eks s' = Ok E' -> get_homo s = Ok h ->
  (ascending s -> E - E' <= (s_N s - s_N s') * h) /\ (forall m, between (shell_size (s_m s) (s_pol s)) m (s_N s) -> between (shell_size (s_m s) (s_pol s)) m (s_N s') -> E - E' = (s_N s - s_N s') * h).
Proof. exact eks_removal. Qed.
Print Assumptions C138_solver.
Lemma free_chempot : forall g w k E l, free_run g w k E l -> exists u, k_u l = Some u /\ (exists i j, place k i j /\ get_homo (k_sol l i j) = Ok u) /\ forall i j, place k i j -> exists h, get_homo (k_sol l i j) = Ok h /\ h <= u.
Proof.
  intros g w k E l (sched & d & o & st & ev & r & _ & _ & _ & O & _ & _ & R & I2 & _ & _ & _ & ->). destruct (scf_inv _ _ _ _ _ _ R) as (o' & _ & T & _).
  assert (KU : exists u, k_u (c_ks st) = Some u).
  { pose proof T as T'. destruct T' as [kk SS|x y Tx Tt B]; [cbn in I2; lia|]. apply KSLoop.body_inv in B. destruct B as (_ & y1 & ve & vh & sol & k3 & nout & n1 & k4 & k5 & E1 & r1 & _ & _ & _ & _ & _ & _ & X & Y & _ & _ & ->). cbn [c_ks]. apply chempot_spec in Y. destruct Y as (uu & -> & _). eexists. reflexivity. }
  destruct KU as (u & KU). exists u. split; [exact KU|]. exact (run_chempot g w o' sched k st u T I2 KU).
Qed.
(** Runs without interaction: u is stored after the run. Taking electrons out (no solver gains any) costs at least - u per electron; exactly - u when they come from the last orbitals of solvers whose highest level is u, and there is such a solver. *)
Theorem C138_run : forall g w k k' E E' l l', by_potential g w -> free_run g w k E l -> free_run g w k' E' l' -> same_but_electrons k k' ->
  (forall i j, place k i j -> s_frac (k_sol k i j) = true /\ 0 <= s_N (k_sol k' i j) <= s_N (k_sol k i j)) ->
  exists u, k_u l = Some u /\ (exists i j, place k i j /\ get_homo (k_sol l i j) = Ok u) /\
  let out := sumR (k_lv k) (fun i => sumR (k_cols k) (fun j => s_N (k_sol k i j) - s_N (k_sol k' i j))) in
  ((forall i j, place k i j -> ascending (k_sol l i j)) -> E - E' <= out * u) /\
  ((forall i j, place k i j -> s_N (k_sol k' i j) = s_N (k_sol k i j) \/ get_homo (k_sol l i j) = Ok u /\ exists m, between (shell_size (s_m (k_sol k i j)) (s_pol (k_sol k i j))) m (s_N (k_sol k i j)) /\ between (shell_size (s_m (k_sol k i j)) (s_pol (k_sol k i j))) m (s_N (k_sol k' i j))) ->
   E - E' = out * u).
Proof.
  intros g w k k' E E' l l' BP R R' S HN. destruct (free_chempot _ _ _ _ _ R) as (u & KU & U1 & U2). exists u. split; [exact KU|]. split; [exact U1|]. intros out.
  destruct (free_levels _ _ _ _ _ BP R) as (-> & L). destruct (free_levels _ _ _ _ _ BP R') as (-> & L'). destruct S as (A1 & A2 & A3 & A4 & A5 & A6). rewrite A1, A2, A3, A4.
  assert (P : forall i j, place k i j -> let D := eks_of (k_sol l i j) - eks_of (k_sol l' i j) in let q := s_N (k_sol k i j) - s_N (k_sol k' i j) in
    (ascending (k_sol l i j) -> D <= q * u) /\ (s_N (k_sol k' i j) = s_N (k_sol k i j) -> D = 0) /\
    (get_homo (k_sol l i j) = Ok u -> forall m, between (shell_size (s_m (k_sol k i j)) (s_pol (k_sol k i j))) m (s_N (k_sol k i j)) -> between (shell_size (s_m (k_sol k i j)) (s_pol (k_sol k i j))) m (s_N (k_sol k' i j)) -> D = q * u)).
  { intros i j Hp D q. destruct (HN i j Hp) as (F & N0). destruct (L i j Hp) as (C & it & s & r & Q1 & Q2 & Q3 & Q4 & Q5). assert (Hp' : place k' i j) by (unfold place in *; rewrite A3, A4; exact Hp).
    destruct (L' i j Hp') as (C' & it' & s' & r' & Q1' & Q2' & Q3' & Q4' & Q5'). destruct (A6 i j Hp) as (X1 & X2 & X3 & X4 & X5).
    destruct Q1 as (K1 & K2 & K3 & K4 & K5 & K6). destruct Q1' as (K1' & K2' & K3' & K4' & K5' & K6'). destruct Q5 as (J1 & J2 & J3 & _ & J5 & _). destruct Q5' as (J1' & J2' & J3' & _ & J5' & _).
    assert (W1 : e_worker w it' s' = e_worker w it s) by (apply BP; try congruence; intros x _; rewrite Q2, Q2'; apply A5). assert (r' = r) by congruence. subst r'.
    destruct (U2 i j Hp) as (h & HH & HU). destruct (Req_dec (s_N (k_sol k i j)) 0) as [Z|NZ].
    - assert (Z' : s_N (k_sol k' i j) = 0) by lra. assert (D0 : D = 0).
      { unfold D. rewrite (eks_none (k_sol l i j) _ ltac:(congruence) ltac:(congruence) ltac:(congruence) C), (eks_none (k_sol l' i j) _ ltac:(congruence) ltac:(congruence) ltac:(congruence) C'). ring. }
      assert (q0 : q = 0) by (unfold q; lra). rewrite D0, q0, Rmult_0_l. repeat split; intros; lra.
    - pose proof (eks_removal (k_sol l i j) (k_sol l' i j) _ _ h ltac:(congruence) ltac:(congruence) ltac:(congruence) ltac:(congruence) ltac:(congruence) ltac:(congruence) ltac:(rewrite J3, J3'; exact N0) ltac:(rewrite J3; lra) C C' HH) as (V1 & V2).
      rewrite J1, J2, J3, J3' in V2. rewrite J3, J3' in V1. fold D q in V1, V2. assert (q1 : 0 <= q) by (unfold q; lra). split; [|split].
      + intros A. specialize (V1 A). pose proof (Rmult_le_compat_l q h u q1 HU). lra.
      + intros Q. pose proof (size_positive (s_m (k_sol k i j)) (s_pol (k_sol k i j))) as SZ. destruct (ElectronNumber.filling _ (s_N (k_sol k i j)) SZ ltac:(lra)) as (m & B & _).
        rewrite (V2 m); [unfold q; rewrite Q; ring| |]; unfold between; rewrite ?Q; lra.
      + intros HU' m B B'. assert (h = u) by congruence. subst h. exact (V2 m B B'). }
  assert (ID : sumR (k_lv k) (fun i => sumR (k_cols k) (fun j => eks_of (k_sol l i j))) - sumR (k_lv k) (fun i => sumR (k_cols k) (fun j => eks_of (k_sol l' i j))) = sumR (k_lv k) (fun i => sumR (k_cols k) (fun j => eks_of (k_sol l i j) - eks_of (k_sol l' i j)))).
  { rewrite (sumR_ext (k_lv k) (fun i => sumR (k_cols k) (fun j => eks_of (k_sol l i j) - eks_of (k_sol l' i j))) (fun i => sumR (k_cols k) (fun j => eks_of (k_sol l i j)) + -1 * sumR (k_cols k) (fun j => eks_of (k_sol l' i j)))) by (intros i _; rewrite <- sumR_scal, <- sumR_plus; apply sumR_ext; intros; ring). rewrite sumR_plus, sumR_scal. ring. }
  assert (OU : out * u = sumR (k_lv k) (fun i => sumR (k_cols k) (fun j => (s_N (k_sol k i j) - s_N (k_sol k' i j)) * u))).
  { unfold out. rewrite Rmult_comm, <- sumR_scal. apply sumR_ext. intros i _. rewrite <- sumR_scal. apply sumR_ext. intros j _. ring. }
  set (a := sumR (k_lv k) (fun i => sumR (k_cols k) (fun j => eks_of (k_sol l i j)))) in *. set (b := sumR (k_lv k) (fun i => sumR (k_cols k) (fun j => eks_of (k_sol l' i j)))) in *.
  replace (a + k_Za k * k_Zb k / (2 * ga g) - (b + k_Za k * k_Zb k / (2 * ga g))) with (a - b) by ring. rewrite ID, OU. split; intros A.
  - apply sumR_le. intros i Hi. apply sumR_le. intros j Hj. apply (P i j (conj Hi Hj)), A. split; assumption.
  - apply sumR_ext. intros i Hi. apply sumR_ext. intros j Hj. destruct (P i j (conj Hi Hj)) as (_ & P2 & P3). destruct (A i j (conj Hi Hj)) as [Q|(Q & m & M & M')].
    + rewrite (P2 Q), Q. ring.
    + exact (P3 Q m M M').
Qed.
Print Assumptions C138_run.
(** The stored u does not rise when electrons are taken out; without electrons it is the constant -1/eps. *)
Theorem C138_order : forall g w k k' E E' l l', by_potential g w -> free_run g w k E l -> free_run g w k' E' l' -> same_but_electrons k k' ->
  (forall i j, place k i j -> 0 <= s_N (k_sol k' i j) <= s_N (k_sol k i j)) -> (forall i j, place k i j -> ascending (k_sol l i j)) ->
  exists u u', k_u l = Some u /\ k_u l' = Some u' /\ (u' <= u \/ u' = - 1 / feps).
Proof.
  intros g w k k' E E' l l' BP R R' S HN AS. destruct (free_chempot _ _ _ _ _ R) as (u & KU & _ & U2). destruct (free_chempot _ _ _ _ _ R') as (u' & KU' & (i & j & Hp' & U1) & _). exists u, u'. split; [exact KU|]. split; [exact KU'|].
  destruct (free_levels _ _ _ _ _ BP R) as (_ & L). destruct (free_levels _ _ _ _ _ BP R') as (_ & L'). destruct S as (A1 & A2 & A3 & A4 & A5 & A6). assert (Hp : place k i j) by (unfold place in *; rewrite A3, A4 in Hp'; exact Hp').
  pose proof (HN i j Hp) as N0. destruct (L i j Hp) as (C & it & s & r & Q1 & Q2 & Q3 & Q4 & Q5). destruct (L' i j Hp') as (C' & it' & s' & r' & Q1' & Q2' & Q3' & Q4' & Q5'). destruct (A6 i j Hp) as (X1 & X2 & X3 & X4 & X5).
  destruct Q1 as (K1 & K2 & K3 & K4 & K5 & K6). destruct Q1' as (K1' & K2' & K3' & K4' & K5' & K6'). destruct Q5 as (J1 & J2 & J3 & _ & J5 & _). destruct Q5' as (J1' & J2' & J3' & _ & J5' & _).
  assert (W1 : e_worker w it' s' = e_worker w it s) by (apply BP; try congruence; intros x _; rewrite Q2, Q2'; apply A5). assert (r' = r) by congruence. subst r'.
  destruct (Req_dec (s_N (k_sol k' i j)) 0) as [Z|NZ].
  - right. rewrite (homo_empty (k_sol l' i j)) in U1 by congruence. injection U1 as <-. reflexivity.
  - left. destruct (U2 i j Hp) as (h & HH & HU). apply Rle_trans with (2 := HU). apply (homo_order (k_sol l i j) (k_sol l' i j) h u'); auto; try congruence. rewrite J3, J3'. lra.
Qed.
Print Assumptions C138_order.
(** the solver of C137_witness: from 3/2 electrons to 1 (the highest level, -1) and to 1/2 (more is needed, as the lower level -2 is emptied too) *)
Lemma C138_witness : get_homo (en_solver (3 / 2)) = Ok (-1) /\ calc_eks (en_solver (3 / 2)) = Ok (- (5 / 2)) /\ calc_eks (en_solver 1) = Ok (-2) /\ calc_eks (en_solver (1 / 2)) = Ok (-1) /\ ascending (en_solver (3 / 2)) /\ between (shell_size 0 2) 1 (3 / 2) /\ between (shell_size 0 2) 1 1 /\
  - (5 / 2) - -2 = (3 / 2 - 1) * -1 /\ - (5 / 2) - -1 < (3 / 2 - 1 / 2) * -1.
Proof.
  split; [|destruct en_eks as (-> & -> & ->)].
  - assert (F2 : floorZ (3 / 2) = 1%Z) by (apply floor_between; lra). unfold get_homo, nocc, en_solver, nonzero. cbn [s_m s_pol s_N s_frac Z.eqb Nat.eqb]. rewrite F2. destruct (Req_EM_T (3 / 2 - 1) 0); [lra|]. cbn [Z.add Z.eqb Z.sub]. unfold eig_at. cbn [s_eig]. unfold pyidx. simpl. f_equal. ring.
  - do 3 (split; [reflexivity|]). split; [intros n e H i Hi; injection H as <- <-; apply Rplus_le_compat_r, le_INR; lia|]. unfold between, shell_size. cbn [Z.eqb Nat.eqb INR]. lra.
Qed.
(** two runs with 3/2 and with 5/4 electrons of each spin: u = -1 and the energies differ by -1/2 *)
Lemma C138_witness_run : exists k k' E E' l l', by_potential g3p en_env /\ free_run g3p en_env k E l /\ free_run g3p en_env k' E' l' /\ same_but_electrons k k' /\
  (forall i j, place k i j -> s_frac (k_sol k i j) = true /\ s_N (k_sol k i j) = 3 / 2 /\ s_N (k_sol k' i j) = 5 / 4) /\ (forall i j, place k i j -> ascending (k_sol l i j)) /\ k_u l = Some (-1) /\ E - E' = - (1 / 2).
Proof.
  destruct (en_run (3 / 2) ltac:(lra)) as (k & E & l & KI & R & A). destruct (en_run (5 / 4) ltac:(lra)) as (k' & E' & l' & KI' & R' & _).
  exists k, k', E, E', l, l'. assert (BP : by_potential g3p en_env) by (intros it it' s s' _ _ _ _ _ _; reflexivity).
  assert (VN : forall n k, ks_init g3p 1 0 2 1 2 (fun _ _ => 2%nat) 1 2 (fun _ _ => n) ni_opt = Ok k -> k_vnuc k = ks_vnuc g3p 1 0 2 false).
  { intros n q KV. unfold ks_init in KV. cbn [configure bind] in KV. destruct (configure KohnShamOptions ni_opt) as [oo|] eqn:QQ; [|discriminate]. injection QQ as <-. cbn [bind] in KV. cbv zeta in KV. cbn [Nat.eqb andb negb] in KV. destruct (Pssolver 1 2 _ _ _) as [sol|]; [|discriminate]. cbn [bind] in KV. injection KV as <-. reflexivity. }
  pose proof (VN _ _ KI) as V. pose proof (VN _ _ KI') as V'. apply init_spec in KI, KI'.
  destruct KI as (o1 & C1 & _ & _ & ZA & ZB & P & L & CC & _ & _ & _ & _ & _ & _ & VX & _ & _ & _ & _ & _ & S). destruct KI' as (o2 & C2 & _ & _ & ZA' & ZB' & P' & L' & CC' & _ & _ & _ & _ & _ & _ & VX' & _ & _ & _ & _ & _ & S').
  injection C1 as <-. injection C2 as <-.
  assert (SB : same_but_electrons k k').
  { do 4 (split; [congruence|]). split; [intros x j; unfold outer; rewrite V, V', VX, VX'; reflexivity|]. intros i j Hp. destruct (S i j Hp) as (_ & A1 & A2 & A3 & A4 & A5 & A6 & _). destruct (S' i j ltac:(unfold place in *; rewrite L', CC'; rewrite L, CC in Hp; exact Hp)) as (_ & B1 & B2 & B3 & B4 & B5 & B6 & _). repeat split; congruence. }
  assert (NN : forall i j, place k i j -> s_frac (k_sol k i j) = true /\ s_N (k_sol k i j) = 3 / 2 /\ s_N (k_sol k' i j) = 5 / 4).
  { intros i j Hp. destruct (S i j Hp) as (_ & _ & _ & A3 & _ & A5 & _). destruct (S' i j ltac:(unfold place in *; rewrite L', CC'; rewrite L, CC in Hp; exact Hp)) as (_ & _ & _ & B3 & _). auto. }
  do 6 (split; [assumption|]).
  assert (SZ : forall i j, place k i j -> shell_size (s_m (k_sol k i j)) (s_pol (k_sol k i j)) = 1).
  { intros i j Hp. destruct (S i j Hp) as (_ & A1 & A2 & _). rewrite A1, A2. destruct Hp as (Hi & _). rewrite L in Hi. replace i with 0%nat by lia. unfold shell_size. simpl. lra. }
  assert (HO : forall i j h, place k i j -> get_homo (k_sol l i j) = Ok h -> h = -1).
  { intros i j h Hp H. destruct (free_levels _ _ _ _ _ BP R) as (_ & FL). destruct (FL i j Hp) as (_ & it & s & rr & _ & _ & W & SE & J1 & J2 & J3 & _). injection W as <-. cbn [fst] in SE. destruct (NN i j Hp) as (_ & N1 & _).
    destruct (homo_last _ _ _ h SE ltac:(rewrite J3, N1; lra) H) as (m & HM & ->). rewrite J1, J2, J3, (SZ i j Hp), N1 in HM. assert (m = 1)%nat by (apply (last_unique 1 1 m (3 / 2)); [lra|unfold holds_last; cbn [INR]; lra|exact HM]). subst m. unfold carry. cbn [Nat.ltb Nat.leb INR]. ring. }
  destruct (C138_run g3p en_env k k' E E' l l' BP R R' SB) as (u & KU & (i & j & Hp & U) & _ & EQ).
  { intros i j Hp. destruct (NN i j Hp) as (N1 & N2 & N3). rewrite N2, N3. split; [exact N1|lra]. }
  pose proof (HO i j u Hp U) as ->. split; [exact KU|]. rewrite EQ.
  - rewrite L, CC. cbn [sumR]. destruct (NN 0%nat 0%nat ltac:(split; lia)) as (_ & -> & ->). destruct (NN 0%nat 1%nat ltac:(split; lia)) as (_ & -> & ->). lra.
  - intros a b Hq. right. destruct (free_chempot _ _ _ _ _ R) as (u' & _ & _ & U2). destruct (U2 a b Hq) as (h & HH & _). split; [rewrite HH; f_equal; exact (HO a b h Hq HH)|]. exists 1%nat. rewrite (SZ a b Hq). destruct (NN a b Hq) as (_ & -> & ->). unfold between. cbn [INR]. lra.
Qed.
