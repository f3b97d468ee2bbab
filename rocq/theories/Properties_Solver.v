(** Properties C24 to C34 and C72: the orbital solvers. *)
From Coq Require Import Reals List Arith Lia Lra ZArith Bool Permutation.
From Verif Require Import Base BaseLemmas GridModel GridSpec GridProofs FDProofs OpProofs AxisProofs GridWitness HartreeSpec LinAlg
  SolverModel SolverSpec SolverProofs SolverThms SolverResp SolverWitness SolverCases SolverMoreCases.
Import ListNotations.
Local Open Scope R_scope.
Local Opaque sinh cosh.

(** * C24 *)
Theorem C24_density_integrates_to_N : forall (g : grid) (s : solver) c p n,
  0 <= s_N s -> s_phi s = Some (c, p) ->
  (forall i, 0 < filling s i -> integrate1 g (fun x => p i x ^ 2) <> 0) ->
  calc_density g s = Ok n ->
  (s_frac s = true -> integrate1 g n = s_N s) /\
  (s_frac s = false -> exists q : nat,
     INR q * shell_size (s_m s) (s_pol s) <= s_N s < (INR q + 1) * shell_size (s_m s) (s_pol s)
     /\ integrate1 g n = INR q * shell_size (s_m s) (s_pol s)).
Proof. exact density_count. Qed.
Print Assumptions C24_density_integrates_to_N.
Theorem C24_density_is_textbook : forall (g : grid) (s : solver) c p,
  0 <= s_N s -> s_phi s = Some (c, p) -> enough s c ->
  exists n, calc_density g s = Ok n /\ forall k, n k = textbook_density g s c p k.
Proof. exact calc_density_ok. Qed.
Print Assumptions C24_density_is_textbook.
(** Three electrons in an unpolarised m = 0 solver: 3 with fractional occupation, 2 without. *)
Lemma C24_witness : exists n n', calc_density g22 (w_solver true 0 3 2 (fun _ => 0)) = Ok n /\
  calc_density g22 (w_solver false 0 3 2 (fun _ => 0)) = Ok n' /\ integrate1 g22 n = 3 /\ integrate1 g22 n' = 2.
Proof.
  destruct (C24_density_is_textbook g22 (w_solver true 0 3 2 (fun _ => 0)) 2 w_phi) as (n & E & _);
    [simpl; lra|reflexivity|apply w_enough|].
  destruct (C24_density_is_textbook g22 (w_solver false 0 3 2 (fun _ => 0)) 2 w_phi) as (n' & E' & _);
    [simpl; lra|reflexivity|apply w_enough|].
  exists n, n'. split; auto. split; auto. split.
  - refine (proj1 (C24_density_integrates_to_N g22 (w_solver true 0 3 2 (fun _ => 0)) 2 w_phi n _ eq_refl _ E) eq_refl); [simpl; lra|].
    intros. pose proof (w_norm i). lra.
  - destruct (C24_density_integrates_to_N g22 (w_solver false 0 3 2 (fun _ => 0)) 2 w_phi n') as (_ & Q); auto; [simpl; lra| |].
    + intros. pose proof (w_norm i). lra.
    + destruct (Q eq_refl) as (q & B & ->). unfold w_solver, shell_size in *. simpl in *.
      assert (INR q < INR 2) by (simpl; lra). apply INR_lt in H. assert (INR 0 < INR q) by (simpl; lra). apply INR_lt in H0.
      replace q with 1%nat by lia. simpl. lra.
Qed.

(** * C25 *)
Theorem C25_density_nonneg : forall (g : grid) (s : solver) c p n,
  0 <= s_N s -> s_phi s = Some (c, p) ->
  (forall i, 0 < filling s i -> 0 < integrate1 g (fun x => p i x ^ 2)) ->
  calc_density g s = Ok n -> forall k, 0 <= n k.
Proof. exact density_nonneg. Qed.
Print Assumptions C25_density_nonneg.
Theorem C25_density_rescaling : forall (g : grid) (s : solver) c p (a : nat -> R) n,
  0 <= s_N s -> s_phi s = Some (c, p) ->
  (forall i, 0 < filling s i -> integrate1 g (fun x => p i x ^ 2) <> 0) -> (forall i, a i <> 0) ->
  calc_density g s = Ok n ->
  exists n', calc_density g (with_phi s (Some (c, fun i k => a i * p i k))) = Ok n' /\ forall k, n' k = n k.
Proof. exact density_rescale. Qed.
Print Assumptions C25_density_rescaling.
Lemma C25_witness : exists n, calc_density g22 (w_solver true 0 3 2 (fun _ => 0)) = Ok n /\
  (forall i, 0 < integrate1 g22 (fun x => w_phi i x ^ 2)) /\ 0 < n 0%nat.
Proof.
  destruct (C24_density_is_textbook g22 (w_solver true 0 3 2 (fun _ => 0)) 2 w_phi) as (n & E & F);
    [simpl; lra|reflexivity|apply w_enough|].
  exists n. split; auto. split; [apply w_norm|]. rewrite F. unfold textbook_density. cbn [sumR].
  destruct (w_fill (fun _ => 0)) as (F0 & F1 & _). rewrite F0, F1. cbn [w_solver s_m s_pol].
  pose proof (w_norm 0). pose proof (w_norm 1).
  assert (T : forall i, 0 < integrate1 g22 (fun x => w_phi i x ^ 2) -> 0 < w_phi i 0%nat ^ 2 / integrate1 g22 (fun x => w_phi i x ^ 2)).
  { intros. apply Rdiv_lt_0_compat; auto. unfold w_phi. apply pow_lt, lt_0_INR. lia. }
  pose proof (T 0%nat H). pose proof (T 1%nat H0). unfold shell_size. simpl (0 =? 0)%Z. simpl (1 =? 1)%nat. cbv iota. lra.
Qed.

(** * C26 *)
Theorem C26_too_few_orbitals : forall (g : grid) (s : solver) c p, 0 <= s_N s -> s_phi s = Some (c, p) ->
  (enough s c -> is_ok (calc_density g s)) /\ (~ enough s c -> calc_density g s = Err IndexError).
Proof.
  intros g s c p H Hp. split.
  - intros En. destruct (calc_density_ok g s c p H Hp En) as (n & E & _). exists n. auto.
  - intros. eapply calc_density_err; eauto.
Qed.
Print Assumptions C26_too_few_orbitals.
Theorem C26_no_orbitals : forall (g : grid) (s : solver), 0 <= s_N s -> s_phi s = None ->
  (is_ok (calc_density g s) <-> enough s 0) /\ (~ enough s 0 -> calc_density g s = Err TypeError).
Proof.
  intros g s H Hp. destruct (calc_density_none g s H Hp) as (A & B). split; [split|]; auto.
  - intros (n & E). apply enough_iff; auto. destruct (le_dec (nneed s) 0); auto.
    exfalso. rewrite B in E; [discriminate|]. rewrite enough_iff; auto.
  - intros E. rewrite (A E). eexists; reflexivity.
Qed.
Print Assumptions C26_no_orbitals.
(** A negative number of electrons is not rejected: the index of the fractionally filled orbital is negative and Python counts it from
    the end, so the highest orbital of the list gives the density; only beyond the list is an error reported. *)
Theorem C26_negative_electrons_refuted : forall (g : grid) (s : solver) c p (k : nat), s_phi s = Some (c, p) -> s_N s < 0 ->
  - INR k <= s_N s / shell_size (s_m s) (s_pol s) < - INR k + 1 ->
  (s_frac s = false -> exists n, calc_density g s = Ok n /\ forall i, n i = 0) /\
  (s_frac s = true -> s_N s / shell_size (s_m s) (s_pol s) = - INR k -> exists n, calc_density g s = Ok n /\ forall i, n i = 0) /\
  (s_frac s = true -> s_N s / shell_size (s_m s) (s_pol s) <> - INR k -> (k <= c)%nat -> exists n, calc_density g s = Ok n /\
     forall i, n i = (s_N s + INR k * shell_size (s_m s) (s_pol s)) * (p (c - k)%nat i ^ 2 / integrate1 g (fun x => p (c - k)%nat x ^ 2))) /\
  (s_frac s = true -> s_N s / shell_size (s_m s) (s_pol s) <> - INR k -> (c < k)%nat -> calc_density g s = Err IndexError).
Proof. exact negative_density. Qed.
Print Assumptions C26_negative_electrons_refuted.
Lemma C26_negative_witness : calc_density g22 (w_solver true 0 (-3) 1 (fun _ => 0)) = Err IndexError /\
  exists n, calc_density g22 (w_solver true 0 (-3) 2 (fun _ => 0)) = Ok n /\ forall i, n i = 1 * (w_phi 0 i ^ 2 / integrate1 g22 (fun x => w_phi 0 x ^ 2)).
Proof.
  assert (X : forall c, - INR 2 <= s_N (w_solver true 0 (-3) c (fun _ => 0)) / shell_size 0 1 < - INR 2 + 1 /\ s_N (w_solver true 0 (-3) c (fun _ => 0)) / shell_size 0 1 <> - INR 2) by (intros c; cbn [w_solver s_N]; unfold shell_size; simpl; lra). split.
  - destruct (X 1%nat) as (X1 & X2). refine (proj2 (proj2 (proj2 (C26_negative_electrons_refuted g22 (w_solver true 0 (-3) 1 (fun _ => 0)) 1 w_phi 2 eq_refl _ X1))) eq_refl X2 _); [cbn; lra|lia].
  - destruct (X 2%nat) as (X1 & X2). destruct (proj1 (proj2 (proj2 (C26_negative_electrons_refuted g22 (w_solver true 0 (-3) 2 (fun _ => 0)) 2 w_phi 2 eq_refl ltac:(cbn; lra) X1))) eq_refl X2 (le_n 2)) as (n & E & V). exists n. split; [exact E|]. intros i. rewrite V. f_equal. cbn [w_solver s_N s_m s_pol]. unfold shell_size. simpl. ring.
Qed.
(** One column is not enough for three electrons with fractional occupation, two are. *)
Lemma C26_witness : calc_density g22 (w_solver true 0 3 1 (fun _ => 0)) = Err IndexError /\
  is_ok (calc_density g22 (w_solver true 0 3 2 (fun _ => 0))).
Proof.
  split.
  - refine (proj2 (C26_too_few_orbitals g22 (w_solver true 0 3 1 (fun _ => 0)) 1 w_phi _ eq_refl) _); [simpl; lra|].
    intros E. specialize (E 1%nat). destruct (w_fill (fun _ => 0)) as (_ & F & _).
    change (filling (w_solver true 0 3 1 (fun _ => 0)) 1) with (filling (w_solver true 0 3 2 (fun _ => 0)) 1) in E.
    rewrite F in E. specialize (E ltac:(lra)). lia.
  - refine (proj1 (C26_too_few_orbitals g22 (w_solver true 0 3 2 (fun _ => 0)) 2 w_phi _ eq_refl) _); [simpl; lra|apply w_enough].
Qed.

(** * C27 *)
Theorem C27_energy_split : forall (g : grid) (s : solver) c p e,
  0 <= s_N s -> s_phi s = Some (c, p) -> s_eig s = Some (c, e) -> enough s c ->
  exists n Vs Ts, calc_density g s = Ok n /\ calc_energy g s = Ok (textbook_band s c e, Vs, Ts, n) /\
    let V := integrate1 g (fun k => s_veff s k * n k) in
    Ts = Fin (textbook_band s c e - V) /\
    (Rabs V <= 10 ^ 5 -> Vs = Fin V) /\ (10 ^ 5 < Rabs V -> Vs = Fin 0).
Proof. exact energy_split. Qed.
Print Assumptions C27_energy_split.
(** The clean-up of Vs for every floating point value: (Vs, Ts) as left in the object. *)
Theorem C27_cleanup : forall eks,
  energy_tail eks NaN = (Fin 0, NaN) /\ energy_tail eks PInf = (PInf, NInf) /\ energy_tail eks NInf = (NInf, PInf) /\
  (forall v, Rabs v <= 10 ^ 5 -> energy_tail eks (Fin v) = (Fin v, Fin (eks - v))) /\
  (forall v, 10 ^ 5 < Rabs v -> energy_tail eks (Fin v) = (Fin 0, Fin (eks - v))).
Proof.
  intros eks. repeat split; intros; unfold energy_tail; auto; destruct Rlt_dec; auto; lra.
Qed.
Print Assumptions C27_cleanup.
(** eks = Ts + Vs fails for a constant potential of 10^5: three electrons. *)
Theorem C27_large_potential_refuted : exists eks Vs Ts n,
  calc_energy g22 (w_solver true 0 3 2 (fun _ => 10 ^ 5)) = Ok (eks, Fin Vs, Fin Ts, n) /\ eks <> Ts + Vs.
Proof.
  destruct (C27_energy_split g22 (w_solver true 0 3 2 (fun _ => 10 ^ 5)) 2 w_phi w_eig) as (n & Vs & Ts & E1 & E2 & E3 & _ & E4);
    [simpl; lra|reflexivity|reflexivity|apply w_enough|].
  assert (I : integrate1 g22 n = 3).
  { refine (proj1 (C24_density_integrates_to_N g22 (w_solver true 0 3 2 (fun _ => 10^5)) 2 w_phi n _ eq_refl _ E1) eq_refl); [simpl; lra|].
    intros. pose proof (w_norm i). lra. }
  assert (V : integrate1 g22 (fun k => s_veff (w_solver true 0 3 2 (fun _ => 10 ^ 5)) k * n k) = 3 * 10 ^ 5).
  { cbn [w_solver s_veff]. rewrite integrate1_scal, I. ring. }
  rewrite V in *. rewrite E4 in E2 by (rewrite Rabs_right; simpl; lra). rewrite E3 in E2.
  exists (textbook_band (w_solver true 0 3 2 (fun _ => 10 ^ 5)) 2 w_eig), 0, (textbook_band (w_solver true 0 3 2 (fun _ => 10 ^ 5)) 2 w_eig - 3 * 10 ^ 5), n.
  split; [exact E2|]. simpl. lra.
Qed.
Print Assumptions C27_large_potential_refuted.
(** Below the threshold the split is exact: a constant potential of 1. *)
Lemma C27_witness : exists eks Vs Ts n,
  calc_energy g22 (w_solver true 0 3 2 (fun _ => 1)) = Ok (eks, Fin Vs, Fin Ts, n) /\ eks = Ts + Vs /\ Vs = 3 /\ eks = 1.
Proof.
  destruct (C27_energy_split g22 (w_solver true 0 3 2 (fun _ => 1)) 2 w_phi w_eig) as (n & Vs & Ts & E1 & E2 & E3 & E4 & _);
    [simpl; lra|reflexivity|reflexivity|apply w_enough|].
  assert (I : integrate1 g22 n = 3).
  { refine (proj1 (C24_density_integrates_to_N g22 (w_solver true 0 3 2 (fun _ => 1)) 2 w_phi n _ eq_refl _ E1) eq_refl); [simpl; lra|].
    intros. pose proof (w_norm i). lra. }
  assert (V : integrate1 g22 (fun k => s_veff (w_solver true 0 3 2 (fun _ => 1)) k * n k) = 3).
  { cbn [w_solver s_veff]. rewrite integrate1_scal, I. ring. }
  rewrite V in *. rewrite E4 in E2 by (rewrite Rabs_right; simpl; lra). rewrite E3 in E2.
  assert (B : textbook_band (w_solver true 0 3 2 (fun _ => 1)) 2 w_eig = 1).
  { unfold textbook_band. cbn [sumR]. destruct (w_fill (fun _ => 1)) as (F0 & F1 & _). rewrite F0, F1.
    unfold shell_size, w_eig, w_solver. simpl. lra. }
  rewrite B in E2. exists 1, 3, (1 - 3), n. split; [exact E2|]. repeat split; lra.
Qed.

(** * C28 *)
Theorem C28_homo_is_highest_occupied : forall (s : solver) c e,
  0 <= s_N s -> s_eig s = Some (c, e) -> enough s c ->
  (s_frac s = true \/ full_shells s) -> (exists i, 0 < filling s i) ->
  (forall i j, (i <= j)%nat -> (j < c)%nat -> e i <= e j) ->
  exists i, 0 < filling s i /\ get_homo s = Ok (e i) /\ forall j, 0 < filling s j -> (j <= i)%nat /\ e j <= e i.
Proof. exact homo_max. Qed.
Print Assumptions C28_homo_is_highest_occupied.
Theorem C28_homo_no_electrons : forall (s : solver), s_N s = 0 -> get_homo s = Ok (- 2 ^ 52).
Proof.
  intros s H. rewrite homo_empty by auto. f_equal. unfold feps. field.
Qed.
Print Assumptions C28_homo_no_electrons.
(** With fractional occupation off and an incomplete shell, the first empty orbital is reported. *)
Theorem C28_homo_incomplete_shell_refuted : forall (s : solver) c e,
  0 <= s_N s -> s_eig s = Some (c, e) -> s_frac s = false -> ~ full_shells s ->
  exists i, filling s i = 0 /\ (forall j, 0 < filling s j <-> (j < i)%nat) /\
    ((i < c)%nat -> get_homo s = Ok (e i)) /\ ((c <= i)%nat -> get_homo s = Err IndexError).
Proof. exact homo_unoccupied. Qed.
Print Assumptions C28_homo_incomplete_shell_refuted.
Lemma C28_witness : get_homo (w_solver true 0 3 2 (fun _ => 0)) = Ok 1 /\
  get_homo (w_solver false 0 3 2 (fun _ => 0)) = Ok 1 /\ filling (w_solver false 0 3 2 (fun _ => 0)) 1 = 0.
Proof.
  split; [|split].
  - destruct (C28_homo_is_highest_occupied (w_solver true 0 3 2 (fun _ => 0)) 2 w_eig) as (i & A & E & B);
      [simpl; lra|reflexivity|apply w_enough|left; reflexivity| | |].
    + exists 0%nat. destruct (w_fill (fun _ => 0)) as (F0 & _). rewrite F0. lra.
    + intros. unfold w_eig. apply le_INR. auto.
    + rewrite E. assert (i < 2)%nat by (apply (w_enough true (fun _ => 0)); auto).
      destruct (B 1%nat) as (Q & _). { destruct (w_fill (fun _ => 0)) as (_ & F1 & _). rewrite F1. lra. }
      replace i with 1%nat by lia. reflexivity.
  - destruct (C28_homo_incomplete_shell_refuted (w_solver false 0 3 2 (fun _ => 0)) 2 w_eig) as (i & A & B & E & _);
      [simpl; lra|reflexivity|reflexivity|apply w_not_full|].
    destruct (w_fill (fun _ => 0)) as (_ & _ & F0 & F1).
    assert (0 < i)%nat by (apply B; rewrite F0; lra).
    assert (~ (1 < i)%nat) by (rewrite <- B, F1; lra).
    replace i with 1%nat in E by lia. rewrite E by lia. reflexivity.
  - apply (w_fill (fun _ => 0)).
Qed.

(** * C29 *)
Theorem C29_orbitals_even_or_odd : forall (g : grid) (s : solver) eigs asort e0 fuel e ph i v,
  s_sym s = true -> calc_orbitals g s eigs asort e0 fuel = Some (e, ph) -> (i < s_Nmo s)%nat -> ph i = Some v ->
  (even_col g v /\ sqrt (sumR (Nelem g) (fun k => v k ^ 2)) = 1) \/ odd_col g v.
Proof. exact calc_orbitals_parity. Qed.
Print Assumptions C29_orbitals_even_or_odd.
Theorem C29_sorted_and_attached : forall (g : grid) (s : solver) eigs asort e0 fuel ev pv,
  eigs e0 = Some (ev, pv) -> (forall xs, argsort_ok xs (asort xs)) ->
  exists perm e ph, calc_orbitals g s eigs asort e0 fuel = Some (e, ph) /\
    Permutation perm (seq 0 (s_Nmo s)) /\
    (forall i, e i = ev (nth i perm 0%nat)) /\
    (forall i j, (i <= j)%nat -> (j < s_Nmo s)%nat -> e i <= e j) /\
    (no_near (s_Nmo s) e ->
      (forall i, (i < s_Nmo s)%nat -> ph i <> None) /\
      (s_sym s = false -> forall i, ph i = Some (pv (nth i perm 0%nat)))).
Proof. exact calc_orbitals_sorted. Qed.
Print Assumptions C29_sorted_and_attached.
(** two orbitals delivered in the wrong order, the second one neither even nor odd *)
Lemma C29_witness : exists s eigs asort ev pv e ph, s_sym s = true /\ s_Nmo s = 2%nat /\ eigs (-20) = Some (ev, pv) /\ (forall xs, argsort_ok xs (asort xs)) /\
  calc_orbitals g22 s eigs asort (-20) 0 = Some (e, ph) /\ ev 1%nat < ev 0%nat /\ e 0%nat = -2 /\ no_near 2 e /\ forall i, (i < 2)%nat -> ph i <> None.
Proof. exact sorted_case. Qed.
(** Near-degenerate orbitals of equal parity: the second one is divided by a zero norm (NaN). *)
Theorem C29_no_nan_refuted : exists g s eigs asort e ph,
  grid_ok g /\ (forall xs, argsort_ok xs (asort xs)) /\ s_sym s = true /\ s_Nmo s = 2%nat /\
  (exists ev pv, eigs (-20) = Some (ev, pv)) /\
  calc_orbitals g s eigs asort (-20) 0 = Some (e, ph) /\ ph 1%nat = None.
Proof. exact orbitals_nan_refuted. Qed.
Print Assumptions C29_no_nan_refuted.
(** After an all-NaN answer the repeated call is not sorted. *)
Theorem C29_sorted_after_retry_refuted : forall g asort, exists s eigs e ph,
  s_Nmo s = 2%nat /\ eigs (-20) = None /\ calc_orbitals g s eigs asort (-20) 1 = Some (e, ph) /\ e 1%nat < e 0%nat.
Proof. exact orbitals_retry_refuted. Qed.
Print Assumptions C29_sorted_after_retry_refuted.

(** * C30 *)
Theorem C30_newton_update : forall (g : grid) (s : solver) lin tol phi eig, 0 <= tol ->
  let H := ks_ham g s in
  let start := fun j => if (j =? 0)%nat then phi j else normalize_col g (norm_occ s) (phi j) in
  let sol := fun q => lin (newton_C g H (eig q) (start q)) (newton_rhs g (res_col g H (eig q) (phi q))) in
  (1 <= s_Nmo s)%nat ->
  (forall j, (j < s_Nmo s)%nat -> 0 < norm2 g (phi j)) ->
  (forall q, (q < s_Nmo s)%nat -> unconverged g H tol (eig q) (phi q) ->
     solves (S (Nelem g)) (newton_C g H (eig q) (start q)) (newton_rhs g (res_col g H (eig q) (phi q))) (sol q)) ->
  (forall j q, (q <= j < s_Nmo s)%nat -> 0 < norm2 g (fun k => start j k - sol q k)) ->
  (unconverged g H tol (eig 0%nat) (phi 0%nat) -> exists st, iter_orbitals g s lin tol phi eig = Ok st /\
    forall j q, (q <= j < s_Nmo s)%nat -> unconverged g H tol (eig q) (phi q) ->
      (forall i, (q < i <= j)%nat -> ~ unconverged g H tol (eig i) (phi i)) ->
      exists u mu, newton_step g H (eig q) (phi q) (start q) u mu /\
        renormalised g (norm_occ s) (fun k => start j k - u k) (it_phi st j) /\ it_eig st j = eig j - mu) /\
  (~ unconverged g H tol (eig 0%nat) (phi 0%nat) -> iter_orbitals g s lin tol phi eig = Err UnboundLocalError).
Proof. exact iter_update. Qed.
Print Assumptions C30_newton_update.
(** two orbitals, the first not converged *)
Lemma C30_witness : let H := ks_ham g22 i_solver22 in
  let start := fun j => if (j =? 0)%nat then i_phi j else normalize_col g22 (norm_occ i_solver22) (i_phi j) in
  let sol := fun q => i_lin (newton_C g22 H (i_eig q) (start q)) (newton_rhs g22 (res_col g22 H (i_eig q) (i_phi q))) in
  s_Nmo i_solver22 = 2%nat /\ (forall j, (j < 2)%nat -> 0 < norm2 g22 (i_phi j)) /\
  (forall q, (q < 2)%nat -> unconverged g22 H 0 (i_eig q) (i_phi q) ->
     solves (S (Nelem g22)) (newton_C g22 H (i_eig q) (start q)) (newton_rhs g22 (res_col g22 H (i_eig q) (i_phi q))) (sol q)) /\
  (forall j q, (q <= j < 2)%nat -> 0 < norm2 g22 (fun k => start j k - sol q k)) /\ unconverged g22 H 0 (i_eig 0%nat) (i_phi 0%nat).
Proof. exact newton_case. Qed.
(** An exact eigenpair is moved by the stale correction of its predecessor. *)
Theorem C30_converged_unchanged_refuted : exists g s lin phi eig st,
  grid_ok g /\ s_Nmo s = 2%nat /\
  unconverged g (ks_ham g s) 0 (eig 0%nat) (phi 0%nat) /\
  eigenpair g (hamiltonian g (s_m s)) (s_veff s) (eig 1%nat) (phi 1%nat) /\
  solves (S (Nelem g)) (newton_C g (ks_ham g s) (eig 0%nat) (phi 0%nat))
    (newton_rhs g (res_col g (ks_ham g s) (eig 0%nat) (phi 0%nat)))
    (lin (newton_C g (ks_ham g s) (eig 0%nat) (phi 0%nat)) (newton_rhs g (res_col g (ks_ham g s) (eig 0%nat) (phi 0%nat)))) /\
  iter_orbitals g s lin 0 phi eig = Ok st /\ it_eig st 1%nat < eig 1%nat - 1.
Proof. exact iter_stale_refuted. Qed.
Print Assumptions C30_converged_unchanged_refuted.

(** * C31 *)
Theorem C31_normalize_orbitals : forall (g : grid) (s : solver) phi j,
  (s_pol s = 1 \/ s_pol s = 2)%nat -> (j < s_Nmo s)%nat -> 0 < integrate1 g (fun k => phi j k ^ 2) ->
  renormalised g (shell_size (s_m s) (s_pol s)) (phi j) (normalize_orbitals g s phi j) /\
  forall k, normalize_orbitals g s (normalize_orbitals g s phi) j k = normalize_orbitals g s phi j k.
Proof.
  intros g s phi j Hp Hj Hn. unfold normalize_orbitals. rewrite (ltb_true j (s_Nmo s) Hj). split.
  - rewrite <- norm_occ_shell by auto. apply normalize_renorm. exact Hn.
  - intros k. apply normalize_idem; auto. pose proof (norm_occ_pos s). lra.
Qed.
Print Assumptions C31_normalize_orbitals.
Lemma C31_witness : 0 < integrate1 g22 (fun k => w_phi 1 k ^ 2) /\
  integrate1 g22 (fun k => normalize_orbitals g22 (w_solver true 3 4 2 (fun _ => 0)) w_phi 1 k ^ 2) = 4.
Proof.
  split; [apply w_norm|].
  destruct (C31_normalize_orbitals g22 (w_solver true 3 4 2 (fun _ => 0)) w_phi 1) as ((E & _) & _); [left; reflexivity|simpl; lia|apply w_norm|].
  rewrite E. unfold shell_size. simpl. lra.
Qed.

(** * C32 *)
Theorem C32_ked_integrates_to_Ts : forall (g : grid) (s : solver) c p e,
  let H0 := hamiltonian g (s_m s) in
  grid_ok g -> 0 <= s_N s -> s_phi s = Some (c, p) -> s_eig s = Some (c, e) ->
  enough s c -> (s_frac s = false \/ full_shells s) ->
  (forall i, 0 < filling s i -> 0 < integrate1 g (fun k => p i k ^ 2) /\ eigenpair g H0 (s_veff s) (e i) (p i)) ->
  exists t eks Vs Ts n, calc_ked_WFI g H0 s = Ok t /\ calc_energy g s = Ok (eks, Vs, Ts, n) /\ Ts = Fin (integrate1 g t).
Proof. intros g s c p e H0. exact (ked_full g H0 s c p e). Qed.
Print Assumptions C32_ked_integrates_to_Ts.
(** Fractional occupation of an incomplete shell: which orbital and which norm are used, and when it fails. *)
Theorem C32_ked_fractional : forall (g : grid) (s : solver) c p,
  let H0 := hamiltonian g (s_m s) in
  0 <= s_N s -> s_phi s = Some (c, p) -> s_frac s = true -> ~ full_shells s ->
  exists n : nat, 0 < filling s n < 1 /\
  ((n = 0)%nat -> calc_ked_WFI g H0 s = Err UnboundLocalError) /\
  ((0 < n)%nat -> (c <= n + 1)%nat -> calc_ked_WFI g H0 s = Err IndexError) /\
  ((0 < n)%nat -> (n + 1 < c)%nat -> exists t, calc_ked_WFI g H0 s = Ok t /\
     forall k, t k = shell_size (s_m s) (s_pol s) * (sumR n (fun i => ked_term g H0 (p i) (integrate1 g (fun x => p i x ^ 2)) k)
        + filling s n * ked_term g H0 (p (n - 1)%nat) (integrate1 g (fun x => p (n + 1)%nat x ^ 2)) k)).
Proof. intros g s c p H0. exact (ked_frac g H0 s c p). Qed.
Print Assumptions C32_ked_fractional.
Theorem C32_ked_fractional_refuted : exists m c p e t eks Vs Ts n,
  let s := k_solver m in
  s_phi s = Some (c, p) /\ s_eig s = Some (c, e) /\ enough s c /\
  (forall i, 0 < integrate1 g22 (fun k => p i k ^ 2) /\ eigenpair g22 (hamiltonian g22 (s_m s)) (s_veff s) (e i) (p i)) /\
  calc_ked_WFI g22 (hamiltonian g22 (s_m s)) s = Ok t /\ calc_energy g22 s = Ok (eks, Vs, Ts, n) /\
  Ts <> Fin (integrate1 g22 t).
Proof. exact ked_frac_refuted. Qed.
Print Assumptions C32_ked_fractional_refuted.
Lemma C32_witness : grid_ok g22 /\ enough k_full 1 /\ full_shells k_full /\
  forall i, 0 < integrate1 g22 (fun k => k_phi i k ^ 2) /\ eigenpair g22 (hamiltonian g22 (s_m k_full)) (s_veff k_full) 0 (k_phi i).
Proof.
  split; [apply g22_ok|]. split; [apply k_full_enough|]. split; [apply k_full_shells|].
  intros. split; [apply k_norm|]. apply (k_eigen 2 i).
Qed.

(** * C33 *)
Theorem C33_response_conserves : forall (g : grid) sp (s : solver) c p e chi,
  0 <= s_N s -> s_phi s = Some (c, p) -> s_eig s = Some (c, e) ->
  let P := fun j k => p j k / sqrt (integrate1 g (fun x => p j x ^ 2)) in
  (forall j, 0 < filling s j -> nonsing (S (Nelem g)) (resp_A g (ks_ham g s) (e j) (P j)) /\
     forall q, (q < Nelem g)%nat -> solves (S (Nelem g)) (resp_A g (ks_ham g s) (e j) (P j)) (resp_rhs g (P j) q)
        (sp (resp_A g (ks_ham g s) (e j) (P j)) (resp_rhs g (P j) q))) ->
  enough s c -> (s_frac s = false \/ full_shells s) -> calc_response g sp s = Ok chi ->
  (forall r a, (r < Nelem g)%nat -> sumR (Nelem g) (fun q => chi r q * a) = 0) /\
  (forall q, (q < Nelem g)%nat -> sumR (Nelem g) (fun r => gw g r * chi r q) = 0).
Proof. exact response_conserves. Qed.
Print Assumptions C33_response_conserves.
Theorem C33_response_fractional_fails : forall (g : grid) sp (s : solver) c p e,
  0 <= s_N s -> s_phi s = Some (c, p) -> s_eig s = Some (c, e) ->
  s_frac s = true -> ~ full_shells s -> calc_response g sp s = Err IndexError.
Proof. exact response_frac. Qed.
Print Assumptions C33_response_fractional_fails.
Lemma C33_witness : forall m, exists N e sp chi, let s := r_solver m N e in
  let P := fun j k => r_phi j k / sqrt (integrate1 g22 (fun x => r_phi j x ^ 2)) in
  0 <= N /\ 0 < filling s 0 /\ full_shells s /\ enough s 1 /\
  (forall j, 0 < filling s j -> nonsing (S (Nelem g22)) (resp_A g22 (ks_ham g22 s) e (P j)) /\
     forall q, (q < Nelem g22)%nat -> solves (S (Nelem g22)) (resp_A g22 (ks_ham g22 s) e (P j)) (resp_rhs g22 (P j) q)
        (sp (resp_A g22 (ks_ham g22 s) e (P j)) (resp_rhs g22 (P j) q))) /\
  calc_response g22 sp s = Ok chi.
Proof. exact r_case. Qed.

(** * C34 *)
Theorem C34_hamiltonian : forall (g : grid) m f k, grid_ok g -> (k < Nelem g)%nat ->
  gapply g (hamiltonian g m) f k =
  - (1 / 2) * gapply g (if Z.even m then elap g else olap g) f k + gw g k * (IZR m ^ 2 / (2 * gY g k ^ 2)) * f k.
Proof. exact hamiltonian_apply. Qed.
Print Assumptions C34_hamiltonian.
Theorem C34_sign_of_m : forall g m i j, hamiltonian g (- m) i j = hamiltonian g m i j.
Proof. exact hamiltonian_sign. Qed.
Print Assumptions C34_sign_of_m.
Theorem C34_mirror : forall (g : grid) b m f k, grid_ok g -> fd_ok g b -> (b <= Na g)%nat -> (k < Nelem g)%nat ->
  gapply g (hamiltonian g m) (mirror1 g f) k = mirror1 g (gapply g (hamiltonian g m) f) k.
Proof. exact hamiltonian_mirror. Qed.
Print Assumptions C34_mirror.
Lemma C34_witness : grid_ok g_test /\ fd_ok g_test 4 /\ (4 <= Na g_test)%nat /\ (0 < Nelem g_test)%nat.
Proof. split; [apply g_test_ok|]. split; [apply g_test_fd|]. split; apply Nat.leb_le; reflexivity. Qed.

(** * C72 *)
Theorem C72_response_first_order : forall (g : grid) sp (s : solver) c p e chi,
  0 <= s_N s -> s_phi s = Some (c, p) -> s_eig s = Some (c, e) ->
  let P := fun j k => p j k / sqrt (integrate1 g (fun x => p j x ^ 2)) in
  (forall j, 0 < filling s j ->
     forall q, (q < Nelem g)%nat -> solves (S (Nelem g)) (resp_A g (ks_ham g s) (e j) (P j)) (resp_rhs g (P j) q)
        (sp (resp_A g (ks_ham g s) (e j) (P j)) (resp_rhs g (P j) q))) ->
  enough s c -> (s_frac s = false \/ full_shells s) -> calc_response g sp s = Ok chi ->
  forall dv, exists u mu, (forall j, 0 < filling s j -> first_order g (ks_ham g s) (e j) (P j) dv (u j) (mu j)) /\
    forall r, (if (s_m s =? 0)%Z then 1 else 2) * sumR (Nelem g) (fun q => chi r q * dv q)
      = sumR c (fun j => shell_size (s_m s) (s_pol s) * filling s j * (2 * P j r * u j r)).
Proof.
  intros g sp s c p e chi H Hp He P HS En Hf E dv.
  destruct (response_first_order g sp s c p e chi H Hp He HS En Hf E dv) as (u & mu & A & B).
  exists u, mu. split; auto. intros r. rewrite B. unfold shell_size.
  rewrite (sumR_ext c (fun j => (if (s_m s =? 0)%Z then 1 else 2) * (if (s_pol s =? 1)%nat then 2 else 1) * filling s j * (2 * P j r * u j r))
    (fun j => (if (s_m s =? 0)%Z then 1 else 2) * (if (s_pol s =? 1)%nat then 2 else 1) * (filling s j * (2 * P j r * u j r)))) by (intros; ring).
  rewrite sumR_scal. unfold P. ring.
Qed.
Print Assumptions C72_response_first_order.
(** [C33_witness]: a filled shell for every m; here with the conclusion for a potential change *)
Lemma C72_witness : exists N e sp chi, let s := r_solver 0 N e in let P := fun j k => r_phi j k / sqrt (integrate1 g22 (fun x => r_phi j x ^ 2)) in
  0 <= N /\ enough s 1 /\ full_shells s /\ calc_response g22 sp s = Ok chi /\ 0 < filling s 0 /\
  forall j, 0 < filling s j -> forall q, (q < Nelem g22)%nat -> solves (S (Nelem g22)) (resp_A g22 (ks_ham g22 s) e (P j)) (resp_rhs g22 (P j) q) (sp (resp_A g22 (ks_ham g22 s) e (P j)) (resp_rhs g22 (P j) q)).
Proof. destruct (r_case 0) as (N & e & sp & chi & A1 & A2 & A3 & A4 & A5 & A6). exists N, e, sp, chi. repeat (split; [assumption|]). intros j Hj. apply A5, Hj. Qed.
(** For m = 2 the response of one filled shell is not its first-order density change. *)
Theorem C72_pi_shell_response_refuted : exists N e sp chi dv r u mu, let s := r_solver 2 N e in
  let P := fun k => r_phi 0 k / sqrt (integrate1 g22 (fun x => r_phi 0 x ^ 2)) in
  full_shells s /\ enough s 1 /\ calc_response g22 sp s = Ok chi /\
  first_order g22 (ks_ham g22 s) e P dv u mu /\ (r < Nelem g22)%nat /\
  sumR (Nelem g22) (fun q => chi r q * dv q) <> shell_size (s_m s) (s_pol s) * (2 * P r * u r).
Proof.
  destruct (response_nonzero 2) as (N & e & sp & chi & dv & r & (u & mu & A & B) & H1 & H2 & H3 & H4 & H5 & H6).
  exists N, e, sp, chi, dv, r, u, mu. cbv zeta. repeat split; auto; try apply A.
  intro Q. apply H6. rewrite B in Q |- *. unfold shell_size in Q. cbn [r_solver s_m s_pol] in Q.
  simpl (2 =? 0)%Z in Q. simpl (1 =? 1)%nat in Q. cbv iota in Q. lra.
Qed.
Print Assumptions C72_pi_shell_response_refuted.
