(** Counterexamples and concrete cases for the solver properties. *)
From Coq Require Import Reals List Arith Lia Lra ZArith Bool FunctionalExtensionality Permutation.
From Verif Require Import Base BaseLemmas GridModel GridSpec GridProofs FDProofs OpProofs AxisProofs GridWitness GridMore HartreeSpec LinAlg
  SolverModel SolverSpec SolverProofs SolverThms SolverResp SolverWitness.
Import ListNotations.
Local Open Scope R_scope.
Local Opaque sinh cosh.

(** * Kinetic energy density with a partly filled shell *)
Definition k_phi : nat -> vec := fun i _ => if (i =? 2)%nat then 2 else 1.
Definition k_solver (m : Z) : solver :=
  mkSolver m 1 6 3 true false (pot_for g22 (hamiltonian g22 m) 0 (fun _ => 1)) (Some (3%nat, k_phi)) (Some (3%nat, fun _ => 0)).
Lemma k_eigen : forall m i, eigenpair g22 (hamiltonian g22 m) (s_veff (k_solver m)) 0 (k_phi i).
Proof.
  intros m i. cbn [k_solver s_veff].
  pose proof (eigenpair_scal g22 _ _ 0 (fun _ => 1) (if (i =? 2)%nat then 2 else 1)
    (pot_for_eigen g22 (hamiltonian g22 m) 0 (fun _ => 1) g22_ok (fun _ _ => R1_neq_R0))) as E.
  intros k Hk. specialize (E k Hk). cbv beta in E. unfold k_phi. set (c := if (i =? 2)%nat then 2 else 1) in *.
  rewrite (sumR_ext _ _ (fun j => hamiltonian g22 m k j * c)) in E by (intros; ring). lra.
Qed.
Lemma k_norm : forall i, 0 < norm2 g22 (k_phi i).
Proof. intros. apply g22_int_pos. intros. unfold k_phi. destruct (i =? 2)%nat; simpl; lra. Qed.
Definition k_t (m : Z) : R := integrate1 g22 (fun k => gapply g22 (hamiltonian g22 m) (fun _ => 1) k / gw g22 k).
Lemma k_Y : forall k, (k < Nelem g22)%nat -> 0 < gY g22 k.
Proof.
  intros. rewrite gY_val by auto. assert (0 < ga g22) by (simpl; lra).
  apply Rmult_lt_0_compat; [apply Rmult_lt_0_compat|]; auto using sin_Xa_pos, sinh_Xr_pos, g22_ok.
Qed.
Lemma k_t_nonzero : k_t 2 <> 0 \/ k_t 4 <> 0.
Proof.
  assert (F : forall m, Z.even m = true -> k_t m = 
    integrate1 g22 (fun k => - (1 / 2) * gapply g22 (elap g22) (fun _ => 1) k / gw g22 k) + IZR m ^ 2 * integrate1 g22 (gf g22)).
  { intros m Hm. unfold k_t. rewrite <- integrate1_scal, <- integrate1_plus. apply integrate1_ext. intros k Hk.
    rewrite hamiltonian_apply by (auto using g22_ok). rewrite Hm, gf_val by (auto using g22_ok).
    pose proof (gw_pos g22 k g22_ok Hk). pose proof (k_Y k Hk). field. split; lra. }
  rewrite !F by reflexivity.
  assert (P : 0 < integrate1 g22 (gf g22)).
  { apply g22_int_pos. intros. rewrite gf_val by (auto using g22_ok).
    pose proof (k_Y k H).
    apply Rdiv_lt_0_compat; [lra|]. assert (0 < gY g22 k ^ 2) by (apply pow_lt; auto). lra. }
  set (a := integrate1 g22 _) in *. set (b := integrate1 g22 (gf g22)) in *. clearbody a b. clear F.
  destruct (Req_dec (a + 2 ^ 2 * b) 0) as [Z|Z]; [|left; exact Z].
  right. simpl in *. lra.
Qed.
Lemma k_filling : forall m, m <> 0%Z -> filling (k_solver m) 0 = 1 /\ filling (k_solver m) 1 = / 2 /\
  (forall i, (2 <= i)%nat -> filling (k_solver m) i = 0) /\ ~ full_shells (k_solver m).
Proof.
  intros m Hm. unfold filling, aufbau, full_shells, shell_size, k_solver. simpl.
  destruct (Z.eqb_spec m 0); [contradiction|]. repeat split.
  - unfold Rmin, Rmax. repeat destruct Rle_dec; lra.
  - unfold Rmin, Rmax. repeat destruct Rle_dec; lra.
  - intros i Hi. assert (2 <= INR i) by (change 2 with (INR 2); apply le_INR; lia).
    unfold Rmin, Rmax. repeat destruct Rle_dec; lra.
  - intros (q & Hq). assert (E : INR 6 = INR (q * 4)) by (rewrite mult_INR; simpl; lra). apply INR_eq in E. lia.
Qed.
Lemma k_enough : forall m, m <> 0%Z -> enough (k_solver m) 3.
Proof.
  intros m Hm i Hi. destruct (k_filling m Hm) as (_ & _ & F & _). destruct (lt_dec i 3); auto.
  rewrite F in Hi by lia. lra.
Qed.
Lemma ked_frac_refuted : exists m c p e t eks Vs Ts n,
  let s := k_solver m in
  s_phi s = Some (c, p) /\ s_eig s = Some (c, e) /\ enough s c /\
  (forall i, 0 < integrate1 g22 (fun k => p i k ^ 2) /\ eigenpair g22 (hamiltonian g22 (s_m s)) (s_veff s) (e i) (p i)) /\
  calc_ked_WFI g22 (hamiltonian g22 (s_m s)) s = Ok t /\ calc_energy g22 s = Ok (eks, Vs, Ts, n) /\
  Ts <> Fin (integrate1 g22 t).
Proof.
  assert (M : exists m, m <> 0%Z /\ k_t m <> 0).
  { destruct k_t_nonzero; [exists 2%Z|exists 4%Z]; split; auto; lia. }
  destruct M as (m & Hm & Ht).
  destruct (k_filling m Hm) as (F0 & F1 & F2 & NF).
  set (H0 := hamiltonian g22 m).
  destruct (ked_frac g22 H0 (k_solver m) 3 k_phi) as (n0 & B & _ & _ & K); auto; [simpl; lra|].
  assert (n0 = 1%nat).
  { destruct n0 as [|[|n0]]; auto; [lra|]. rewrite F2 in B by lia. lra. }
  subst n0. destruct K as (t & Et & Ft); [lia..|].
  destruct (energy_split g22 (k_solver m) 3 k_phi (fun _ => 0)) as (n & Vs & Ts & E1 & E2 & E3 & _); auto;
    [simpl; lra|apply k_enough; auto|].
  exists m, 3%nat, k_phi, (fun _ => 0), t. do 4 eexists. cbv zeta.
  split; [reflexivity|]. split; [reflexivity|]. split; [apply k_enough; auto|].
  split; [intros i; split; [apply k_norm|apply k_eigen]|].
  split; [exact Et|]. split; [exact E2|]. rewrite E3. intro Q.
  assert (FI : forall a b, Fin a = Fin b -> a = b) by (intros; congruence). apply FI in Q. clear FI.
  assert (SZ : shell_size (s_m (k_solver m)) (s_pol (k_solver m)) = 4).
  { unfold shell_size, k_solver. simpl. destruct (Z.eqb_spec m 0); [contradiction|lra]. }
  (* potential energy per orbital *)
  assert (V1 : integrate1 g22 (fun k => s_veff (k_solver m) k * 1) = - k_t m).
  { unfold k_t. rewrite <- (Rmult_1_l (integrate1 g22 (fun k => gapply _ _ _ k / _))), <- Ropp_mult_distr_l_reverse, <- integrate1_scal.
    apply integrate1_ext. intros. cbn [k_solver s_veff]. unfold pot_for. pose proof (gw_pos g22 k g22_ok H). field. lra. }
  set (N1 := norm2 g22 (k_phi 0)).
  assert (PN1 : 0 < N1) by apply k_norm.
  assert (E01 : norm2 g22 (k_phi 1) = N1) by reflexivity.
  assert (E02 : norm2 g22 (k_phi 2) = 4 * N1).
  { unfold N1, norm2. rewrite <- integrate1_scal. apply integrate1_ext. intros. unfold k_phi. simpl. ring. }
  assert (VV : integrate1 g22 (fun k => s_veff (k_solver m) k * n k) = - 6 * k_t m / N1).
  { destruct (calc_density_ok g22 (k_solver m) 3 k_phi) as (n' & D1 & D2); auto; [simpl; lra|apply k_enough; auto|].
    rewrite E1 in D1. injection D1 as <-.
    rewrite (integrate1_ext g22 _ (fun k => 6 / N1 * (s_veff (k_solver m) k * 1))).
    - rewrite integrate1_scal, V1. field. lra.
    - intros k Hk. rewrite D2. unfold textbook_density. rewrite SZ. cbn [sumR]. rewrite F0, F1, (F2 2%nat) by lia.
      change (integrate1 g22 (fun x => k_phi 0 x ^ 2)) with N1. change (integrate1 g22 (fun x => k_phi 1 x ^ 2)) with N1.
      set (q := integrate1 g22 (fun x => k_phi 2 x ^ 2)). assert (0 < q) by apply k_norm. clearbody N1 q. unfold k_phi. simpl. field. lra. }
  assert (BB : textbook_band (k_solver m) 3 (fun _ => 0) = 0).
  { unfold textbook_band. apply sumR_zero. intros; ring. }
  rewrite VV, BB in Q.
  assert (KT : integrate1 g22 t = 4 * (k_t m / N1 + / 2 * (k_t m / (4 * N1)))).
  { rewrite (integrate1_ext g22 t _ (fun k _ => Ft k)), integrate1_scal, SZ. f_equal.
    rewrite integrate1_plus, integrate1_scal, F1. cbn [sumR]. change (1 - 1)%nat with 0%nat. change (1 + 1)%nat with 2%nat.
    rewrite (integrate1_ext g22 (fun k => 0 + ked_term g22 H0 (k_phi 0) (norm2 g22 (k_phi 0)) k) (ked_term g22 H0 (k_phi 0) (norm2 g22 (k_phi 0)))) by (intros; ring).
    rewrite !(ked_term_integral g22 H0 (s_veff (k_solver m)) 0) by (first [apply g22_ok|apply k_eigen|apply k_norm]).
    rewrite E02. fold N1.
    rewrite (integrate1_ext g22 (fun k => s_veff (k_solver m) k * k_phi 0 k ^ 2) (fun k => s_veff (k_solver m) k * 1)) by (intros; unfold k_phi; simpl; ring).
    rewrite V1. field. lra. }
  rewrite KT in Q.
  assert (Z : k_t m / N1 * (3 / 2) = 0).
  { transitivity (0 - - 6 * k_t m / N1 - 4 * (k_t m / N1 + / 2 * (k_t m / (4 * N1)))).
    - field. lra.
    - rewrite Q. ring. }
  apply Ht. apply (Rmult_eq_reg_r (3 / 2 / N1)).
  - rewrite Rmult_0_l, <- Z. field. lra.
  - apply Rgt_not_eq. apply Rdiv_lt_0_compat; lra.
Qed.
(** The hypotheses of the complete-shell theorem are met: four electrons with m = 2. *)
Definition k_full : solver :=
  mkSolver 2 1 4 1 true false (pot_for g22 (hamiltonian g22 2) 0 (fun _ => 1)) (Some (1%nat, k_phi)) (Some (1%nat, fun _ => 0)).
Lemma k_full_enough : enough k_full 1.
Proof.
  intros i Hi. unfold filling, aufbau, shell_size, k_full in Hi. simpl in Hi.
  destruct (lt_dec i 1); auto. exfalso.
  assert (1 <= INR i) by (change 1 with (INR 1); apply le_INR; lia).
  unfold Rmin, Rmax in Hi. destruct (Rle_dec 0 (4 / (2 * 2) - INR i)); [|destruct (Rle_dec 1 0); lra].
  destruct (Rle_dec 1 (4 / (2 * 2) - INR i)); lra.
Qed.
Lemma k_full_shells : full_shells k_full.
Proof. exists 1%nat. unfold k_full, shell_size. simpl. lra. Qed.

(** * Iterative update *)
Definition i_S : R := sumR (Nelem g22) (gw g22).
Lemma g22_n : Nelem g22 = 4%nat.
Proof. reflexivity. Qed.
Lemma i_S_pos : 0 < i_S.
Proof. unfold i_S. apply sumR_pos; [rewrite g22_n; lia|]. intros. apply gw_pos; auto using g22_ok. Qed.
Definition i_c : R := / sqrt i_S.
Lemma i_c_pos : 0 < i_c.
Proof. apply Rinv_0_lt_compat, sqrt_lt_R0, i_S_pos. Qed.
Lemma i_c_sq : i_c * i_c * i_S = 1.
Proof.
  unfold i_c. pose proof i_S_pos. assert (0 < sqrt i_S) by (apply sqrt_lt_R0; auto).
  replace (/ sqrt i_S * / sqrt i_S * i_S) with (i_S / (sqrt i_S * sqrt i_S)) by (field; lra).
  rewrite sqrt_sqrt by lra. field. lra.
Qed.
Definition i_mu : R := / (1 - / 10 ^ 12).
Definition i_alpha : R := - (/ 10 ^ 12) * i_mu.
Lemma i_small : 0 < / 10 ^ 12 < / 2.
Proof. split; [apply Rinv_0_lt_compat; simpl; lra|]. apply Rinv_lt_contravar; simpl; lra. Qed.
Lemma i_mu_pos : 0 < i_mu.
Proof. pose proof i_small. apply Rinv_0_lt_compat. lra. Qed.
Lemma i_sum : i_alpha + i_mu = 1.
Proof. unfold i_alpha, i_mu. pose proof i_small. set (d := / 10 ^ 12) in *. clearbody d. field. lra. Qed.
Definition i_phi : nat -> vec := fun _ _ => i_c.
Definition i_eig : vec := fun j => if (j =? 0)%nat then 1 else 0.
Definition i_solver22 : solver :=
  mkSolver 0 1 4 2 false false (pot_for g22 (hamiltonian g22 0) 0 (fun _ => i_c)) None None.
Definition i_x : vec := fun k => if (k <? Nelem g22)%nat then i_alpha * i_c else i_mu.
Definition i_lin : mat -> vec -> vec := fun _ _ => i_x.
Lemma i_H : forall k, (k < Nelem g22)%nat -> sumR (Nelem g22) (fun j => ks_ham g22 i_solver22 k j * i_c) = 0.
Proof.
  intros k Hk. pose proof i_c_pos.
  pose proof (pot_for_eigen g22 (hamiltonian g22 0) 0 (fun _ => i_c) g22_ok ltac:(intros; lra) k Hk) as E.
  unfold ks_ham. cbn [i_solver22 s_m s_veff].
  rewrite (sumR_ext _ _ (fun j => hamiltonian g22 0 k j * i_c + (if (k =? j)%nat then gw g22 k * pot_for g22 (hamiltonian g22 0) 0 (fun _ => i_c) k * i_c else 0)))
    by (intros j Hj; destruct (Nat.eqb_spec k j); ring).
  rewrite sumR_plus, (sumR_single (Nelem g22) k (fun j => if (k =? j)%nat then _ else 0)); auto.
  - rewrite Nat.eqb_refl. lra.
  - intros j Hj Hne. destruct (Nat.eqb_spec k j); [congruence|auto].
Qed.
Lemma i_norm : forall c, 0 < c -> 0 < norm2 g22 (fun _ => c).
Proof. intros. apply g22_int_pos. intros. apply pow_lt. auto. Qed.
Lemma i_solves : solves (S (Nelem g22)) (newton_C g22 (ks_ham g22 i_solver22) (i_eig 0%nat) (i_phi 0%nat))
  (newton_rhs g22 (res_col g22 (ks_ham g22 i_solver22) (i_eig 0%nat) (i_phi 0%nat))) i_x.
Proof.
  intros i Hi. rewrite sumR_S_last. unfold newton_C, newton_rhs, i_x. rewrite ltb_refl.
  destruct (Nat.ltb_spec i (Nelem g22)) as [L|L].
  - rewrite (sumR_ext _ _ (fun j => i_alpha * (ks_ham g22 i_solver22 i j * i_c) + (if (i =? j)%nat then - (gw g22 i * (i_alpha * i_c)) else 0))).
    2: { intros j Hj. rewrite ltb_true by auto. unfold diagflat, i_eig. simpl (0 =? 0)%nat. cbv iota. destruct (Nat.eqb_spec i j); ring. }
    rewrite sumR_plus, sumR_scal, i_H by auto.
    rewrite (sumR_single (Nelem g22) i (fun j => if (i =? j)%nat then _ else 0)); auto.
    2: { intros j Hj Hne. destruct (Nat.eqb_spec i j); [congruence|auto]. }
    rewrite Nat.eqb_refl. unfold res_col, gapply, matvec, i_phi, i_eig. rewrite i_H by auto.
    replace i_mu with (1 - i_alpha) by (pose proof i_sum; lra). simpl (0 =? 0)%nat. cbv iota. ring.
  - rewrite (sumR_ext _ _ (fun j => - (i_alpha * (i_c * i_c)) * gw g22 j)).
    2: { intros j Hj. rewrite ltb_true by auto. unfold i_phi. ring. }
    rewrite sumR_scal. fold i_S.
    replace (- (i_alpha * (i_c * i_c)) * i_S) with (- i_alpha * (i_c * i_c * i_S)) by ring. rewrite i_c_sq. unfold i_alpha. ring.
Qed.
Lemma i_unconv0 : unconverged g22 (ks_ham g22 i_solver22) 0 (i_eig 0%nat) (i_phi 0%nat).
Proof.
  exists O. assert (K : (0 < Nelem g22)%nat) by (rewrite g22_n; lia). split; auto.
  unfold i_phi, i_eig. rewrite i_H by auto. simpl (0 =? 0)%nat. cbv iota. pose proof (gw_pos g22 0 g22_ok K). pose proof i_c_pos.
  replace (0 - 1 * gw g22 0%nat * i_c) with (- (gw g22 0%nat * i_c)) by ring. rewrite Rabs_Ropp, Rabs_right.
  - apply Rmult_lt_0_compat; auto.
  - apply Rle_ge, Rlt_le, Rmult_lt_0_compat; auto.
Qed.
Lemma i_conv1 : ~ unconverged g22 (ks_ham g22 i_solver22) 0 (i_eig 1%nat) (i_phi 1%nat).
Proof.
  intros (k & Hk & Q). unfold i_phi, i_eig in Q. rewrite i_H in Q by auto. simpl (1 =? 0)%nat in Q. cbv iota in Q.
  rewrite !Rmult_0_l, Rminus_0_r, Rabs_R0 in Q. lra.
Qed.
Lemma i_start_pos : forall j q, 0 < norm2 g22 (fun k => entering g22 i_solver22 i_phi j k - newton g22 i_solver22 (ks_ham g22 i_solver22) i_lin i_phi i_eig q k).
Proof.
  intros j q.
  assert (P : forall k, (k < Nelem g22)%nat -> 0 < entering g22 i_solver22 i_phi j k - newton g22 i_solver22 (ks_ham g22 i_solver22) i_lin i_phi i_eig q k).
  { intros k Hk. unfold newton, i_lin, i_x. rewrite ltb_true by auto.
    pose proof i_c_pos. pose proof i_mu_pos. pose proof i_small.
    assert (i_alpha * i_c < 0).
    { unfold i_alpha. assert (0 < / 10 ^ 12 * i_mu * i_c) by (repeat apply Rmult_lt_0_compat; tauto). lra. }
    assert (0 < entering g22 i_solver22 i_phi j k); [|lra].
    unfold entering. destruct (j =? 0)%nat; [exact H|]. unfold normalize_col, i_phi.
    apply Rdiv_lt_0_compat.
    - apply Rmult_lt_0_compat; auto. apply sqrt_lt_R0. unfold norm_occ; simpl; lra.
    - apply sqrt_lt_R0, i_norm; auto. }
  apply g22_int_pos. intros. apply pow_lt. auto.
Qed.
Lemma iter_stale_refuted : exists g s lin phi eig st,
  grid_ok g /\ s_Nmo s = 2%nat /\
  unconverged g (ks_ham g s) 0 (eig 0%nat) (phi 0%nat) /\
  eigenpair g (hamiltonian g (s_m s)) (s_veff s) (eig 1%nat) (phi 1%nat) /\
  solves (S (Nelem g)) (newton_C g (ks_ham g s) (eig 0%nat) (phi 0%nat))
    (newton_rhs g (res_col g (ks_ham g s) (eig 0%nat) (phi 0%nat)))
    (lin (newton_C g (ks_ham g s) (eig 0%nat) (phi 0%nat)) (newton_rhs g (res_col g (ks_ham g s) (eig 0%nat) (phi 0%nat)))) /\
  iter_orbitals g s lin 0 phi eig = Ok st /\ it_eig st 1%nat < eig 1%nat - 1.
Proof.
  pose proof (iter_orbitals_ok g22 i_solver22 i_lin 0 i_phi i_eig) as OK. cbv zeta in OK. rewrite full_ham_ks in OK.
  destruct OK as (st & E & F).
  - apply above_iff; [lra|]. apply i_unconv0.
  - intros. apply i_norm, i_c_pos.
  - intros. apply i_start_pos.
  - exists g22, i_solver22, i_lin, i_phi, i_eig, st.
    split; [apply g22_ok|]. split; [reflexivity|]. split; [apply i_unconv0|]. split.
    + apply (pot_for_eigen g22 (hamiltonian g22 0) 0 (fun _ => i_c) g22_ok). intros. pose proof i_c_pos. lra.
    + split; [apply i_solves|]. split; [exact E|].
      destruct (F 1%nat 0%nat) as (_ & Q); try (simpl; lia).
      * apply above_iff; [lra|]. apply i_unconv0.
      * intros i A B. replace i with 1%nat by lia. rewrite above_iff by lra. apply i_conv1.
      * rewrite Q. unfold newton, i_lin, i_x. rewrite ltb_refl.
        assert (1 < i_mu).
        { unfold i_mu. pose proof i_small. rewrite <- Rinv_1 at 1. apply Rinv_lt_contravar; lra. }
        lra.
Qed.

(** * Orbitals *)
Lemma orbitals_nan_refuted : exists g s eigs asort e ph,
  grid_ok g /\ (forall xs, argsort_ok xs (asort xs)) /\ s_sym s = true /\ s_Nmo s = 2%nat /\
  (exists ev pv, eigs (-20) = Some (ev, pv)) /\
  calc_orbitals g s eigs asort (-20) 0 = Some (e, ph) /\ ph 1%nat = None.
Proof.
  assert (A : exists asort : list R -> list nat, argsort_ok [0; 0] (asort [0; 0]) /\ forall xs, argsort_ok xs (asort xs)).
  { assert (C : exists f : list R -> list nat, forall xs, argsort_ok xs (f xs)).
    { exists (fun xs => fold_right (fun p l => (fix ins l := match l with [] => [p] | q :: t => if Rle_dec (nth p xs 0) (nth q xs 0) then p :: q :: t else q :: ins t end) l) [] (seq 0 (length xs))).
      intros xs.
      assert (G : forall l, let r := fold_right (fun p l => (fix ins l := match l with [] => [p] | q :: t => if Rle_dec (nth p xs 0) (nth q xs 0) then p :: q :: t else q :: ins t end) l) [] l in
        Permutation r l /\ Sorted.StronglySorted Rle (map (fun p => nth p xs 0) r)).
      { induction l as [|p l IH]; [split; [constructor|constructor]|].
        cbn [fold_right]. cbv zeta in *. set (r := fold_right _ [] l) in *. clearbody r. destruct IH as (P1 & S1).
        assert (Q : forall r, Sorted.StronglySorted Rle (map (fun p => nth p xs 0) r) ->
          Permutation ((fix ins l := match l with [] => [p] | q :: t => if Rle_dec (nth p xs 0) (nth q xs 0) then p :: q :: t else q :: ins t end) r) (p :: r)
          /\ Sorted.StronglySorted Rle (map (fun p => nth p xs 0) ((fix ins l := match l with [] => [p] | q :: t => if Rle_dec (nth p xs 0) (nth q xs 0) then p :: q :: t else q :: ins t end) r))).
        { clear. induction r as [|q r IH]; intros S.
          - split; auto. repeat constructor.
          - inversion S as [|? ? S' F]; subst. destruct (Rle_dec (nth p xs 0) (nth q xs 0)) as [L|L].
            + split; auto. cbn [map]. constructor; auto. constructor; auto.
              rewrite Forall_forall in F |- *. intros z Hz. specialize (F z Hz). lra.
            + destruct (IH S') as (P & S2). split.
              * rewrite perm_swap. constructor. exact P.
              * cbn [map]. constructor; auto. rewrite Forall_forall. intros z Hz. apply in_map_iff in Hz.
                destruct Hz as (y & <- & Hy). apply (Permutation_in _ P) in Hy. destruct Hy as [<-|Hy]; [lra|].
                rewrite Forall_forall in F. apply F. apply in_map_iff. exists y. auto. }
        destruct (Q r S1) as (P2 & S2). split; auto. rewrite P2. constructor. auto. }
      destruct (G (seq 0 (length xs))). split; auto. }
    destruct C as (f & Hf). exists f. split; auto. }
  destruct A as (asort & _ & HA).
  exists g22, (mkSolver 0 1 4 2 false true (fun _ => 0) None None), (fun _ => Some (fun _ => 0, fun _ _ => 1)), asort.
  do 2 eexists. split; [apply g22_ok|]. split; [exact HA|]. split; [reflexivity|]. split; [reflexivity|].
  split; [do 2 eexists; reflexivity|].
  unfold calc_orbitals. split; [reflexivity|].
  cbn [s_sym s_Nmo andb]. change (1 <? 2)%nat with true. cbv iota.
  unfold mix_all, pairs. simpl fold_left. unfold mix_pair. cbn [fst snd].
  destruct Rlt_dec as [L|L].
  - unfold upd. simpl (_ =? _)%nat. cbv iota. unfold cmap2, mix_odd.
    cbn [unit_col].
    destruct (Req_EM_T _ 0) as [E|E]; [reflexivity|]. exfalso. apply E. unfold nrm.
    rewrite sumR_zero; [apply sqrt_0|]. intros k Hk.
    rewrite (mirror1_map _ _ g22 (fun _ : R => 1) (fun _ => 0) k Hk). ring.
  - exfalso. apply L. rewrite Rminus_0_r, Rabs_R0. apply Rinv_0_lt_compat. simpl; lra.
Qed.
Lemma orbitals_retry_refuted : forall g asort, exists s eigs e ph,
  s_Nmo s = 2%nat /\ eigs (-20) = None /\ calc_orbitals g s eigs asort (-20) 1 = Some (e, ph) /\ e 1%nat < e 0%nat.
Proof.
  intros g asort.
  exists (mkSolver 0 1 4 2 false false (fun _ => 0) None None),
    (fun x => if Rlt_dec x (-20) then Some (fun i => - INR i, fun _ _ => 1) else None).
  do 2 eexists. split; [reflexivity|].
  destruct (Rlt_dec (-20) (-20)); [lra|]. split; [reflexivity|].
  unfold calc_orbitals. destruct (Rlt_dec (-20) (-20)); [lra|]. cbn [eigs_retry].
  destruct (Rlt_dec (-20 - / 10) (-20)); [|lra]. split; [reflexivity|]. simpl. lra.
Qed.

(** * Response *)
Definition r_phi : nat -> vec := fun _ _ => 1.
Definition r_solver (m : Z) (N e : R) : solver :=
  mkSolver m 1 N 1 false false (fun _ => 0) (Some (1%nat, r_phi)) (Some (1%nat, fun _ => e)).
Lemma r_case : forall m, exists N e sp chi, let s := r_solver m N e in
  let P := fun j k => r_phi j k / sqrt (integrate1 g22 (fun x => r_phi j x ^ 2)) in
  0 <= N /\ 0 < filling s 0 /\ full_shells s /\ enough s 1 /\
  (forall j, 0 < filling s j -> nonsing (S (Nelem g22)) (resp_A g22 (ks_ham g22 s) e (P j)) /\
     forall q, (q < Nelem g22)%nat -> solves (S (Nelem g22)) (resp_A g22 (ks_ham g22 s) e (P j)) (resp_rhs g22 (P j) q)
        (sp (resp_A g22 (ks_ham g22 s) e (P j)) (resp_rhs g22 (P j) q))) /\
  calc_response g22 sp s = Ok chi.
Proof.
  intros m. set (N := shell_size m 1).
  assert (NP : 1 <= N) by apply shell_size_pos.
  assert (HP : 0 < sqrt (integrate1 g22 (fun x => r_phi 0 x ^ 2))).
  { apply sqrt_lt_R0. apply g22_int_pos. intros. unfold r_phi. simpl; lra. }
  set (P := fun j k => r_phi j k / sqrt (integrate1 g22 (fun x => r_phi j x ^ 2))).
  destruct (resp_nonsing g22 (ks_ham g22 (r_solver m N 0)) (P 0%nat) 0 g22_ok) as (e & He); [rewrite g22_n; lia| |].
  { unfold P, r_phi at 1. apply Rgt_not_eq, Rdiv_lt_0_compat; [lra|exact HP]. }
  destruct (nonsing_solver _ _ He) as (sol & Hsol).
  assert (FS : full_shells (r_solver m N e)).
  { exists 1%nat. cbn [r_solver s_N s_m s_pol]. fold N. simpl. ring. }
  assert (FX : forall i, filling (r_solver m N e) i = if (i =? 0)%nat then 1 else 0).
  { intros i. unfold filling, aufbau. cbn [r_solver s_frac s_N s_m s_pol]. fold N.
    replace (N / N) with 1 by (field; lra).
    destruct i; simpl (_ =? _)%nat; cbv iota.
    - simpl INR. destruct Rle_dec; lra.
    - assert (1 <= INR (S i)) by (change 1 with (INR 1); apply le_INR; lia). destruct Rle_dec; lra. }
  assert (EN : enough (r_solver m N e) 1).
  { intros i Hi. rewrite FX in Hi. destruct i; [lia|]. simpl in Hi. lra. }
  destruct (response_ok g22 (fun _ => sol) (r_solver m N e) 1 r_phi (fun _ => e)) as (chi & E & _); auto; [simpl; lra|].
  exists N, e, (fun _ => sol), chi. cbv zeta. fold P.
  split; [lra|]. split; [rewrite FX; simpl; lra|]. split; [auto|]. split; [auto|]. split; [|exact E].
  intros j Hj. rewrite FX in Hj. destruct j; [|simpl in Hj; lra].
  change (ks_ham g22 (r_solver m N e)) with (ks_ham g22 (r_solver m N 0)). split; auto.
Qed.
(** A non-constant perturbation gives a non-zero response. *)
Lemma response_nonzero : forall m, exists N e sp chi dv r, let s := r_solver m N e in
  (exists u mu, first_order g22 (ks_ham g22 s) e (fun k => r_phi 0 k / sqrt (integrate1 g22 (fun x => r_phi 0 x ^ 2))) dv u mu /\
    (forall k, sumR (Nelem g22) (fun q => chi k q * dv q) = 2 * (2 * (r_phi 0 k / sqrt (integrate1 g22 (fun x => r_phi 0 x ^ 2))) * u k))) /\
  0 <= N /\ full_shells s /\ enough s 1 /\ calc_response g22 sp s = Ok chi /\
  (r < Nelem g22)%nat /\ sumR (Nelem g22) (fun q => chi r q * dv q) <> 0.
Proof.
  intros m. destruct (r_case m) as (N & e & sp & chi & HN & HF & FS & EN & HS & E). cbv zeta in *.
  set (dv := fun k => if (k =? 0)%nat then 1 else 0).
  set (P := fun j k => r_phi j k / sqrt (integrate1 g22 (fun x => r_phi j x ^ 2))) in *.
  assert (HP : 0 < sqrt (integrate1 g22 (fun x => r_phi 0 x ^ 2))).
  { apply sqrt_lt_R0. apply g22_int_pos. intros. unfold r_phi. simpl; lra. }
  destruct (response_first_order g22 sp (r_solver m N e) 1 r_phi (fun _ => e) chi HN eq_refl eq_refl) with (dv := dv)
    as (u & mu & U1 & U2); auto.
  { intros j Hj q Hq. apply HS; auto. }
  fold P in U1, U2.
  assert (PP : forall k, 0 < P 0%nat k) by (intros; unfold P, r_phi at 1; apply Rdiv_lt_0_compat; [lra|exact HP]).
  assert (F0 : filling (r_solver m N e) 0 = 1).
  { assert (B := filling_nonneg (r_solver m N e) 0). unfold filling, aufbau in HF |- *. cbn [r_solver s_frac] in *. destruct Rle_dec; lra. }
  assert (U3 : forall k, sumR (Nelem g22) (fun q => chi k q * dv q) = 2 * (2 * P 0%nat k * u 0%nat k)).
  { intros k. rewrite U2. cbn [r_solver s_pol]. simpl (1 =? 1)%nat. cbv iota. cbn [sumR]. rewrite F0. unfold P. ring. }
  destruct (all_zero_dec (Nelem g22) (u 0%nat)) as [Z|(r & Hr & Z)].
  - exfalso. destruct (U1 0%nat HF) as (Q & _).
    assert (G : forall i, (i < Nelem g22)%nat -> dv i = mu 0%nat).
    { intros i Hi. specialize (Q i Hi).
      rewrite (sumR_zero (Nelem g22) (fun j => ks_ham g22 (r_solver m N e) i j * u 0%nat j)) in Q by (intros; rewrite Z by auto; ring).
      cbv beta in Q. rewrite (Z i Hi) in Q. pose proof (gw_pos g22 i g22_ok Hi). pose proof (PP i). fold (P 0%nat i) in Q.
      assert (M0 : gw g22 i * P 0%nat i * (dv i - mu 0%nat) = 0) by lra.
      apply Rmult_integral in M0. destruct M0 as [M0|M0]; [|lra].
      assert (0 < gw g22 i * P 0%nat i) by (apply Rmult_lt_0_compat; auto). lra. }
    assert (A := G 0%nat ltac:(rewrite g22_n; lia)). assert (B := G 1%nat ltac:(rewrite g22_n; lia)). unfold dv in A, B. simpl in A, B. lra.
  - exists N, e, sp, chi, dv, r. cbv zeta. split.
    { exists (u 0%nat), (mu 0%nat). split; [apply U1; auto|exact U3]. }
    repeat split; auto. rewrite U3. intro W. apply Z.
    pose proof (PP r). assert (M0 : P 0%nat r * u 0%nat r = 0) by lra. apply Rmult_integral in M0. destruct M0; [lra|auto].
Qed.

(** ** A negative number of electrons *)
Lemma negative_density : forall g s c p (k : nat), s_phi s = Some (c, p) -> s_N s < 0 -> - INR k <= s_N s / shell_size (s_m s) (s_pol s) < - INR k + 1 ->
  (s_frac s = false -> exists n, calc_density g s = Ok n /\ forall i, n i = 0) /\
  (s_frac s = true -> s_N s / shell_size (s_m s) (s_pol s) = - INR k -> exists n, calc_density g s = Ok n /\ forall i, n i = 0) /\
  (s_frac s = true -> s_N s / shell_size (s_m s) (s_pol s) <> - INR k -> (k <= c)%nat -> exists n, calc_density g s = Ok n /\
     forall i, n i = (s_N s + INR k * shell_size (s_m s) (s_pol s)) * (p (c - k)%nat i ^ 2 / integrate1 g (fun x => p (c - k)%nat x ^ 2))) /\
  (s_frac s = true -> s_N s / shell_size (s_m s) (s_pol s) <> - INR k -> (c < k)%nat -> calc_density g s = Err IndexError).
Proof.
  intros g s c p k Hp HN HK. pose proof (shell_size_pos (s_m s) (s_pol s)) as SP. fold (shx s) in *.
  assert (X : shx s < 0). { unfold shx. apply (Rmult_lt_reg_r (shell_size (s_m s) (s_pol s))); [lra|]. unfold Rdiv. rewrite Rmult_assoc, Rinv_l, Rmult_0_l by lra. lra. }
  assert (IP : Int_part (shx s) = (- Z.of_nat k)%Z).
  { destruct (base_Int_part (shx s)) as (A & B). rewrite INR_IZR_INZ in HK. assert (L1 : IZR (Int_part (shx s)) < IZR (- Z.of_nat k + 1)) by (rewrite plus_IZR, opp_IZR; lra). assert (L2 : IZR (- Z.of_nat k - 1) < IZR (Int_part (shx s))) by (rewrite minus_IZR, opp_IZR; lra). apply lt_IZR in L1. apply lt_IZR in L2. lia. }
  assert (K1 : (1 <= k)%nat). { destruct k; [|lia]. simpl in HK. lra. }
  unfold calc_density. rewrite nocc_form, IP. replace (Z.to_nat (- Z.of_nat k)) with 0%nat by lia. cbn [dens_loop bind]. rewrite opp_IZR, <- INR_IZR_INZ.
  repeat split.
  - intros ->. cbn [andb bind]. eexists. split; [reflexivity|]. intros i. cbv beta. rewrite shell_scale_form. ring.
  - intros -> E. rewrite E. replace (nonzero (- INR k - - INR k)) with false by (symmetry; apply nonzero_false; ring). cbn [andb bind]. eexists. split; [reflexivity|]. intros i. cbv beta. rewrite shell_scale_form. ring.
  - intros -> E KC. replace (nonzero (shx s - - INR k)) with true by (symmetry; apply nonzero_spec; lra). cbn [andb]. unfold phi_col. rewrite Hp. unfold pyidx.
    destruct (Z.leb_spec 0 (- Z.of_nat k)); [lia|]. destruct (Z.ltb_spec (- Z.of_nat k) 0); [|lia]. destruct (Z.leb_spec (- Z.of_nat c) (- Z.of_nat k)); [|lia]. cbn [andb bind]. replace (Z.to_nat (Z.of_nat c + - Z.of_nat k)) with (c - k)%nat by lia.
    eexists. split; [reflexivity|]. intros i. cbv beta. rewrite shell_scale_form. unfold norm2. unfold shx. unfold Rdiv. rewrite Rplus_0_l. replace (s_N s + INR k * shell_size (s_m s) (s_pol s)) with (shell_size (s_m s) (s_pol s) * (s_N s * / shell_size (s_m s) (s_pol s) - - INR k)) by (field; lra). ring.
  - intros -> E KC. replace (nonzero (shx s - - INR k)) with true by (symmetry; apply nonzero_spec; lra). cbn [andb]. unfold phi_col. rewrite Hp. unfold pyidx.
    destruct (Z.leb_spec 0 (- Z.of_nat k)); [lia|]. destruct (Z.ltb_spec (- Z.of_nat k) 0); [|lia]. destruct (Z.leb_spec (- Z.of_nat c) (- Z.of_nat k)); [lia|]. reflexivity.
Qed.
