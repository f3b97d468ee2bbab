(** Theorems in terms of SolverSpec, and concrete solver objects meeting their hypotheses. *)
From Coq Require Import Reals List Arith Lia Lra ZArith Bool FunctionalExtensionality Permutation.
From Verif Require Import Base BaseLemmas GridModel GridSpec GridProofs FDProofs OpProofs AxisProofs GridWitness GridMore HartreeSpec LinAlg
  SolverModel SolverSpec SolverProofs SolverThms SolverResp.
Import ListNotations.
Local Open Scope R_scope.
Local Opaque sinh cosh.

(** * Positive quadrature weights *)
Lemma g22_ok : grid_ok g22.
Proof. apply grid_of_ok; try lia; lra. Qed.
Lemma g22_gwi : forall k, (k < Nelem g22)%nat -> gwi g22 k = 9 / 16.
Proof.
  intros k Hk. destruct (pos_surj g22 k Hk) as (ia & ir & Hp & ->).
  rewrite gwi_pos by auto. destruct Hp as [Ha Hr]. change (Na g22) with 2%nat in Ha. change (Nr g22) with 2%nat in Hr.
  rewrite (proj1 (g22_w ia Ha)), (proj2 (g22_w ir Hr)). lra.
Qed.
Lemma ha_pos : forall g, 0 < ha g.
Proof.
  intros. unfold ha, xa0, linspace. replace (Na g + 1 - 1)%nat with (Na g) by lia.
  pose proof (lt_0_INR _ (Na_pos g)). pose proof PI_RGT_0. simpl INR.
  assert (0 < PI / INR (Na g)) by (apply Rdiv_lt_0_compat; auto). replace (PI - 0) with PI by ring. lra.
Qed.
Lemma hr_pos : forall g, 0 < gL g -> 0 < hr g.
Proof.
  intros. unfold hr, xr0, linspace. replace (Nr g + 1 - 1)%nat with (Nr g) by lia.
  pose proof (lt_0_INR _ (Nr_pos g)). simpl INR.
  assert (0 < gL g / INR (Nr g)) by (apply Rdiv_lt_0_compat; auto). replace (gL g - 0) with (gL g) by ring. lra.
Qed.
Lemma iprefac_pos : forall g, grid_ok g -> 0 < iprefac g.
Proof.
  intros g (_ & _ & _ & _ & H). unfold iprefac. pose proof PI_RGT_0. pose proof (ha_pos g). pose proof (hr_pos g H).
  apply Rmult_lt_0_compat; auto. apply Rmult_lt_0_compat; auto. lra.
Qed.
Lemma integrate1_pos : forall g f, grid_ok g -> (forall k, (k < Nelem g)%nat -> 0 < gwi g k) ->
  (forall k, (k < Nelem g)%nat -> 0 < f k) -> 0 < integrate1 g f.
Proof.
  intros g f Hg Hw Hf. unfold integrate1. apply Rmult_lt_0_compat; [apply iprefac_pos; auto|].
  apply sumR_pos.
  - unfold Nelem. apply Nat.mul_pos_pos; [apply Na_pos|apply Nr_pos].
  - intros. apply Rmult_lt_0_compat; auto. apply Rmult_lt_0_compat; auto. apply gw_pos; auto.
Qed.
Lemma g22_int_pos : forall f, (forall k, (k < Nelem g22)%nat -> 0 < f k) -> 0 < integrate1 g22 f.
Proof. intros. apply integrate1_pos; auto using g22_ok. intros. rewrite g22_gwi by auto. lra. Qed.

(** * API-form lemmas *)
Lemma density_count : forall g s c p n, 0 <= s_N s -> s_phi s = Some (c, p) ->
  (forall i, 0 < filling s i -> integrate1 g (fun x => p i x ^ 2) <> 0) ->
  calc_density g s = Ok n ->
  (s_frac s = true -> integrate1 g n = s_N s) /\
  (s_frac s = false -> exists q : nat, INR q * shell_size (s_m s) (s_pol s) <= s_N s < (INR q + 1) * shell_size (s_m s) (s_pol s)
     /\ integrate1 g n = INR q * shell_size (s_m s) (s_pol s)).
Proof.
  intros g s c p n H Hp Hn E.
  assert (En : enough s c).
  { apply enough_iff; auto. destruct (le_dec (nneed s) c); auto. exfalso.
    rewrite (calc_density_err g s c p) in E; auto; [discriminate|]. rewrite enough_iff; auto. }
  destruct (calc_density_ok g s c p H Hp En) as (n' & E' & F). rewrite E in E'. inversion E'; subst n'.
  assert (I : integrate1 g n = integrate1 g (textbook_density g s c p)) by (apply integrate1_ext; intros; apply F).
  rewrite I, textbook_integral by auto.
  pose proof (shell_size_pos (s_m s) (s_pol s)) as P. destruct (nfull_bounds s H) as (_ & A & B).
  assert (X : s_N s = shx s * shell_size (s_m s) (s_pol s)) by (unfold shx; field; lra).
  split; intros Hf; rewrite Hf.
  - rewrite X. ring.
  - exists (nfull s). rewrite X. split; [split|ring].
    + apply Rmult_le_compat_r; lra.
    + apply Rmult_lt_compat_r; lra.
Qed.
Lemma density_nonneg : forall g s c p n, 0 <= s_N s -> s_phi s = Some (c, p) ->
  (forall i, 0 < filling s i -> 0 < integrate1 g (fun x => p i x ^ 2)) ->
  calc_density g s = Ok n -> forall k, 0 <= n k.
Proof.
  intros g s c p n H Hp Hn E k.
  assert (En : enough s c).
  { apply enough_iff; auto. destruct (le_dec (nneed s) c); auto. exfalso.
    rewrite (calc_density_err g s c p) in E; auto; [discriminate|]. rewrite enough_iff; auto. }
  destruct (calc_density_ok g s c p H Hp En) as (n' & E' & F). rewrite E in E'. inversion E'; subst n'.
  rewrite F. apply sumR_nonneg. intros i Hi. pose proof (shell_size_pos (s_m s) (s_pol s)).
  destruct (filling_nonneg s i). destruct (Req_dec (filling s i) 0) as [Z|Z]; [rewrite Z; lra|].
  apply Rmult_le_pos; [apply Rmult_le_pos; lra|]. apply Rmult_le_pos; [apply pow2_ge_0|].
  left. apply Rinv_0_lt_compat, Hn. lra.
Qed.
Definition with_phi (s : solver) (ph : option (nat * (nat -> vec))) : solver :=
  mkSolver (s_m s) (s_pol s) (s_N s) (s_Nmo s) (s_frac s) (s_sym s) (s_veff s) ph (s_eig s).
Lemma density_rescale : forall g s c p (a : nat -> R) n, 0 <= s_N s -> s_phi s = Some (c, p) ->
  (forall i, 0 < filling s i -> integrate1 g (fun x => p i x ^ 2) <> 0) -> (forall i, a i <> 0) ->
  calc_density g s = Ok n ->
  exists n', calc_density g (with_phi s (Some (c, fun i k => a i * p i k))) = Ok n' /\ forall k, n' k = n k.
Proof.
  intros g s c p a n H Hp Hn Ha E.
  assert (En : enough s c).
  { apply enough_iff; auto. destruct (le_dec (nneed s) c); auto. exfalso.
    rewrite (calc_density_err g s c p) in E; auto; [discriminate|]. rewrite enough_iff; auto. }
  destruct (calc_density_ok g s c p H Hp En) as (n0 & E' & F). rewrite E in E'. inversion E'; subst n0.
  destruct (calc_density_ok g (with_phi s (Some (c, fun i k => a i * p i k))) c (fun i k => a i * p i k) H eq_refl En)
    as (n1 & E1 & F1).
  exists n1. split; auto. intros k. rewrite F1, F. unfold textbook_density. apply sumR_ext. intros i Hi.
  change (filling (with_phi s (Some (c, fun i k => a i * p i k))) i) with (filling s i). cbn [with_phi s_m s_pol].
  destruct (filling_nonneg s i). destruct (Req_dec (filling s i) 0) as [Z|Z]; [rewrite Z; ring|].
  f_equal. fold (norm2 g (fun x => a i * p i x)). rewrite norm2_scal. unfold norm2. field. split; auto.
  apply Hn. lra.
Qed.
Lemma energy_split : forall g s c p e, 0 <= s_N s -> s_phi s = Some (c, p) -> s_eig s = Some (c, e) -> enough s c ->
  exists n Vs Ts, calc_density g s = Ok n /\ calc_energy g s = Ok (textbook_band s c e, Vs, Ts, n) /\
    let V := integrate1 g (fun k => s_veff s k * n k) in
    Ts = Fin (textbook_band s c e - V) /\
    (Rabs V <= 10 ^ 5 -> Vs = Fin V) /\ (10 ^ 5 < Rabs V -> Vs = Fin 0).
Proof.
  intros g s c p e H Hp He En. destruct (calc_energy_ok g s c p e H Hp He En) as (n & E1 & E2). cbv zeta in E2.
  exists n. do 2 eexists. split; [exact E1|]. split; [exact E2|]. cbv zeta.
  unfold energy_tail. set (V := integrate1 g (fun k => s_veff s k * n k)).
  destruct (Rlt_dec (10 ^ 5) (Rabs V)); repeat split; intros; simpl; auto; try lra.
Qed.

Lemma above_iff : forall g H tol phi eig j, 0 <= tol ->
  (above g H tol phi eig j <-> unconverged g H tol (eig j) (phi j)).
Proof.
  intros g H tol phi eig j Ht. unfold above, unconverged.
  assert (E : forall n f, tol < maxabs n f <-> exists k, (k < n)%nat /\ tol < Rabs (f k)).
  { induction n; intros f; simpl.
    - split; [lra|intros (k & Hk & _); lia].
    - unfold Rmax. destruct Rle_dec as [L|L]; split.
      + intros Q. exists n. auto.
      + intros (k & Hk & Q). destruct (Nat.eq_dec k n); [subst; auto|].
        eapply Rlt_le_trans; [|exact L]. apply IHn. exists k. split; [lia|auto].
      + intros Q. apply IHn in Q. destruct Q as (k & Hk & Q). exists k. auto.
      + intros (k & Hk & Q). destruct (Nat.eq_dec k n); [subst; lra|]. apply IHn. exists k. split; [lia|auto]. }
  rewrite E. unfold res_col, gapply, matvec.
  split; intros (k & Hk & Q); exists k; split; auto;
    [replace (sumR (Nelem g) (fun j0 => H k j0 * phi j j0) - eig j * gw g k * phi j k)
      with (sumR (Nelem g) (fun j0 => H k j0 * phi j j0) - gw g k * (phi j k * eig j)) by ring
    |replace (sumR (Nelem g) (fun j0 => H k j0 * phi j j0) - gw g k * (phi j k * eig j))
      with (sumR (Nelem g) (fun j0 => H k j0 * phi j j0) - eig j * gw g k * phi j k) by ring]; auto.
Qed.
Lemma full_ham_ks : forall g s, full_ham g s = ks_ham g s.
Proof. intros. unfold full_ham, ks_ham, diagflat. extensionality i. extensionality j. destruct (Nat.eqb_spec i j); auto. Qed.
Lemma normalize_renorm : forall g s p, 0 < norm2 g p -> renormalised g (norm_occ s) p (normalize_col g (norm_occ s) p).
Proof.
  intros g s p H. pose proof (norm_occ_pos s). split.
  - apply (normalize_norm g (norm_occ s) p); auto; lra.
  - assert (0 < sqrt (norm2 g p)) by (apply sqrt_lt_R0; auto). assert (0 < sqrt (norm_occ s)) by (apply sqrt_lt_R0; lra).
    exists (sqrt (norm_occ s) / sqrt (norm2 g p)). split; [apply Rdiv_lt_0_compat; auto|].
    intros. unfold normalize_col, Rdiv. ring.
Qed.
(** Orbital j when the loop reaches it: as given for j = 0, renormalised otherwise. *)
Lemma iter_update : forall g s lin tol phi eig, 0 <= tol ->
  let H := ks_ham g s in
  let start := fun j => if (j =? 0)%nat then phi j else normalize_col g (norm_occ s) (phi j) in
  let sol := fun q => lin (newton_C g H (eig q) (start q)) (newton_rhs g (res_col g H (eig q) (phi q))) in
  (1 <= s_Nmo s)%nat ->
  (forall j, (j < s_Nmo s)%nat -> 0 < norm2 g (phi j)) ->
  (forall q, (q < s_Nmo s)%nat -> unconverged g H tol (eig q) (phi q) ->
     solves (S (Nelem g)) (newton_C g H (eig q) (start q)) (newton_rhs g (res_col g H (eig q) (phi q))) (sol q)) ->
  (forall j q, (q <= j < s_Nmo s)%nat -> 0 < norm2 g (fun k => start j k - sol q k)) ->
  (unconverged g H tol (eig 0%nat) (phi 0%nat) -> exists st, iter_orbitals g s lin tol phi eig = Ok st /\
    forall j q, (q <= j < s_Nmo s)%nat -> unconverged g H tol (eig q) (phi q) ->
      (forall i, (q < i <= j)%nat -> ~ unconverged g H tol (eig i) (phi i)) ->
      exists u mu, newton_step g H (eig q) (phi q) (start q) u mu /\
        renormalised g (norm_occ s) (fun k => start j k - u k) (it_phi st j) /\ it_eig st j = eig j - mu) /\
  (~ unconverged g H tol (eig 0%nat) (phi 0%nat) -> iter_orbitals g s lin tol phi eig = Err UnboundLocalError).
Proof.
  intros g s lin tol phi eig Ht H start sol HN Hin HS Hout.
  pose proof (iter_orbitals_ok g s lin tol phi eig) as OK. cbv zeta in OK. rewrite full_ham_ks in OK. fold H in OK.
  split.
  - intros H0.
    destruct OK as (st & E & F); auto.
    + apply above_iff; auto.
    + exists st. split; auto. intros j q Hj Hu Hn.
      destruct (F j q) as (F1 & F2); try lia.
      * apply above_iff; auto.
      * intros i A B. rewrite above_iff by auto. apply Hn. lia.
      * exists (sol q), (sol q (Nelem g)).
        destruct (newton_rows g _ _ _ _ _ (HS q ltac:(lia) Hu)) as (R1 & R2).
        split; [split|split].
        -- intros i Hi. specialize (R2 i Hi). unfold gapply, matvec, res_col, gapply, matvec in R2. lra.
        -- exact R1.
        -- replace (it_phi st j) with (normalize_col g (norm_occ s) (fun k => start j k - sol q k)).
           ++ apply normalize_renorm. apply Hout. lia.
           ++ extensionality k. symmetry. apply F1.
        -- exact F2.
  - intros H0. apply iter_orbitals_err; auto. rewrite full_ham_ks, above_iff; auto.
Qed.

(** * Response *)
Lemma response_conserves : forall g sp s c p e chi, 0 <= s_N s -> s_phi s = Some (c, p) -> s_eig s = Some (c, e) ->
  let P := fun j k => p j k / sqrt (integrate1 g (fun x => p j x ^ 2)) in
  (forall j, 0 < filling s j -> nonsing (S (Nelem g)) (resp_A g (ks_ham g s) (e j) (P j)) /\
     forall q, (q < Nelem g)%nat -> solves (S (Nelem g)) (resp_A g (ks_ham g s) (e j) (P j)) (resp_rhs g (P j) q)
        (sp (resp_A g (ks_ham g s) (e j) (P j)) (resp_rhs g (P j) q))) ->
  enough s c -> (s_frac s = false \/ full_shells s) -> calc_response g sp s = Ok chi ->
  (forall r a, (r < Nelem g)%nat -> sumR (Nelem g) (fun q => chi r q * a) = 0) /\
  (forall q, (q < Nelem g)%nat -> sumR (Nelem g) (fun r => gw g r * chi r q) = 0).
Proof.
  intros g sp s c p e chi H Hp He P HS En Hf E.
  destruct (response_ok g sp s c p e H Hp He En Hf) as (chi' & E' & F). rewrite E in E'. inversion E'; subst chi'.
  rewrite full_ham_ks in F.
  assert (PP : forall j, unit_orb g (p j) = P j) by reflexivity.
  split.
  - intros r a Hr. rewrite sumR_scal_r. apply Rmult_eq_0_compat_r.
    rewrite (sumR_ext _ _ (fun q => spin_factor s * sumR (nfull s) (fun j => 2 * P j r * sp (resp_A g (ks_ham g s) (e j) (P j)) (resp_rhs g (P j) q) r))).
    2: { intros. rewrite F. f_equal. apply sumR_ext. intros. rewrite PP. ring. }
    rewrite sumR_scal, sumR_swap. rewrite sumR_zero; [ring|]. intros j Hj. rewrite sumR_scal.
    destruct (HS j) as (N1 & N2); [rewrite filling_low by auto; lra|].
    rewrite (resp_sum_zero g (ks_ham g s) (e j) (P j)
      (fun q => sp (resp_A g (ks_ham g s) (e j) (P j)) (resp_rhs g (P j) q)) N1 N2 r Hr). ring.
  - intros q Hq.
    rewrite (sumR_ext _ _ (fun r => spin_factor s * sumR (nfull s) (fun j => 2 * (gw g r * P j r * sp (resp_A g (ks_ham g s) (e j) (P j)) (resp_rhs g (P j) q) r)))).
    2: { intros. rewrite F, <- Rmult_assoc, (Rmult_comm (gw g i)), Rmult_assoc. f_equal. rewrite <- sumR_scal. apply sumR_ext. intros. rewrite PP. ring. }
    rewrite sumR_scal, sumR_swap. rewrite sumR_zero; [ring|]. intros j Hj. rewrite sumR_scal.
    destruct (HS j) as (_ & N2); [rewrite filling_low by auto; lra|].
    rewrite (proj1 (resp_rows _ _ _ _ _ _ (N2 q Hq))). ring.
Qed.
Lemma response_first_order : forall g sp s c p e chi, 0 <= s_N s -> s_phi s = Some (c, p) -> s_eig s = Some (c, e) ->
  let P := fun j k => p j k / sqrt (integrate1 g (fun x => p j x ^ 2)) in
  (forall j, 0 < filling s j -> 
     forall q, (q < Nelem g)%nat -> solves (S (Nelem g)) (resp_A g (ks_ham g s) (e j) (P j)) (resp_rhs g (P j) q)
        (sp (resp_A g (ks_ham g s) (e j) (P j)) (resp_rhs g (P j) q))) ->
  enough s c -> (s_frac s = false \/ full_shells s) -> calc_response g sp s = Ok chi ->
  forall dv, exists u mu, (forall j, 0 < filling s j -> first_order g (ks_ham g s) (e j) (P j) dv (u j) (mu j)) /\
    forall r, sumR (Nelem g) (fun q => chi r q * dv q)
      = (if (s_pol s =? 1)%nat then 2 else 1) * sumR c (fun j => filling s j * (2 * P j r * u j r)).
Proof.
  intros g sp s c p e chi H Hp He P HS En Hf E dv.
  destruct (response_ok g sp s c p e H Hp He En Hf) as (chi' & E' & F). rewrite E in E'. inversion E'; subst chi'.
  rewrite full_ham_ks in F.
  assert (PP : forall j, unit_orb g (p j) = P j) by reflexivity.
  set (x := fun j q => sp (resp_A g (ks_ham g s) (e j) (P j)) (resp_rhs g (P j) q)) in *.
  exists (fun j r => sumR (Nelem g) (fun q => dv q * x j q r)), (fun j => sumR (Nelem g) (fun q => dv q * x j q (Nelem g))).
  split.
  - intros j Hj. destruct (sternheimer g (ks_ham g s) (e j) (P j) (x j) dv (HS j Hj)) as (S1 & S2). split; auto.
  - intros r. rewrite filled_sum by auto. rewrite (extra_false s H Hf), Rplus_0_r.
    fold (spin_factor s).
    rewrite (sumR_ext _ _ (fun q => spin_factor s * sumR (nfull s) (fun j => 2 * P j r * (dv q * x j q r)))).
    2: { intros. rewrite F, Rmult_assoc. f_equal. rewrite <- sumR_scal_r. apply sumR_ext. intros. rewrite PP. fold (x i0 i). ring. }
    rewrite sumR_scal, sumR_swap. f_equal. apply sumR_ext. intros. rewrite sumR_scal. reflexivity.
Qed.
Lemma response_frac : forall g sp s c p e, 0 <= s_N s -> s_phi s = Some (c, p) -> s_eig s = Some (c, e) ->
  s_frac s = true -> ~ full_shells s -> calc_response g sp s = Err IndexError.
Proof.
  intros g sp s c p e H Hp He Hf Hn. unfold calc_response. rewrite nocc_form. fold (nfull s) (extra s).
  assert (X : extra s = true).
  { unfold extra. destruct (nfull_bounds s H) as (Q & A & B). rewrite Hf, Q, <- INR_IZR_INZ. simpl. apply nonzero_spec.
    intro Z. apply Hn, full_shells_iff; auto. lra. }
  rewrite X, Hp.
  match goal with |- context [resp_loop g sp ?H s _] => assert (L : forall k, resp_loop g sp H s k = Err IndexError \/ is_ok (resp_loop g sp H s k)) end.
  { induction k; cbn [resp_loop]; [right; eexists; reflexivity|].
    destruct IHk as [->|(a & ->)]; [left; auto|]. cbn [bind].
    destruct (lt_dec k c).
    - rewrite (phi_col_ok s c p) by auto. cbn [bind]. rewrite (eig_at_ok s c e) by auto. right; eexists; reflexivity.
    - rewrite (phi_col_err s c p) by (auto; lia). left; reflexivity. }
  destruct (L (nfull s)) as [->|(a & ->)]; reflexivity.
Qed.

(** A shift low enough makes the bordered matrix non-singular. *)
Lemma lower_bound : forall n (f : vec), (forall k, (k < n)%nat -> 0 < f k) -> exists c, 0 < c /\ forall k, (k < n)%nat -> c <= f k.
Proof.
  induction n; intros f Hf; [exists 1; split; [lra|intros; lia]|].
  destruct (IHn f) as (c & Hc & H); [intros; apply Hf; lia|].
  exists (Rmin c (f n)). split; [apply Rmin_glb_lt; auto|]. intros k Hk.
  destruct (Nat.eq_dec k n); [subst; apply Rmin_r|]. eapply Rle_trans; [apply Rmin_l|]. apply H. lia.
Qed.
Lemma quad_bound : forall n (H : mat) x,
  Rabs (sumR n (fun i => x i * sumR n (fun j => H i j * x j))) <= sumR n (fun i => sumR n (fun j => Rabs (H i j))) * sumR n (fun i => x i ^ 2).
Proof.
  intros n H x. eapply Rle_trans; [apply sumR_abs_le|]. rewrite <- sumR_scal_r. apply sumR_le. intros i Hi.
  rewrite <- sumR_scal. eapply Rle_trans; [apply sumR_abs_le|]. rewrite <- sumR_scal_r. apply sumR_le. intros j Hj.
  rewrite (Rmult_comm (x i)), Rmult_assoc, Rabs_mult. apply Rmult_le_compat_l; [apply Rabs_pos|].
  assert (T : forall k, (k < n)%nat -> x k ^ 2 <= sumR n (fun i => x i ^ 2)).
  { clear. intros k Hk. rewrite (sumR_split_le n (S k)) by lia. rewrite sumR_S_last.
    assert (0 <= sumR k (fun i => x i ^ 2)) by (apply sumR_nonneg; intros; apply pow2_ge_0).
    assert (0 <= sumR (n - S k) (fun i => x (S k + i)%nat ^ 2)) by (apply sumR_nonneg; intros; apply pow2_ge_0). lra. }
  pose proof (T i Hi). pose proof (T j Hj). rewrite Rabs_mult.
  assert (Q : Rabs (x j) * Rabs (x i) <= (x i ^ 2 + x j ^ 2) / 2).
  { rewrite <- (pow2_abs (x i)), <- (pow2_abs (x j)). pose proof (pow2_ge_0 (Rabs (x i) - Rabs (x j))). simpl in *. lra. }
  lra.
Qed.
Lemma resp_nonsing : forall g H p k0, grid_ok g -> (k0 < Nelem g)%nat -> p k0 <> 0 -> exists e, nonsing (S (Nelem g)) (resp_A g H e p).
Proof.
  intros g H p k0 Hg Hk0 Hp.
  destruct (lower_bound (Nelem g) (gw g)) as (c & Hc & Hw); [intros; apply gw_pos; auto|].
  set (M := sumR (Nelem g) (fun i => sumR (Nelem g) (fun j => Rabs (H i j)))).
  exists (- (M + 1) / c). set (e := - (M + 1) / c).
  intros x Hx.
  assert (R0 : sumR (Nelem g) (fun j => gw g j * p j * x j) = 0).
  { specialize (Hx (Nelem g) ltac:(lia)). rewrite sumR_S_last in Hx. unfold resp_A in Hx. rewrite ltb_refl in Hx.
    rewrite (sumR_ext _ _ (fun j => gw g j * p j * x j)) in Hx by (intros; rewrite ltb_true by auto; reflexivity). lra. }
  assert (R1 : forall i, (i < Nelem g)%nat -> sumR (Nelem g) (fun j => H i j * x j) - e * gw g i * x i - gw g i * p i * x (Nelem g) = 0).
  { intros i Hi. specialize (Hx i ltac:(lia)). rewrite sumR_S_last in Hx. unfold resp_A in Hx.
    rewrite ltb_refl, ltb_true in Hx by auto.
    rewrite (sumR_ext _ _ (fun j => (-1) * (H i j * x j) + (if (i =? j)%nat then e * gw g i * x i else 0))) in Hx.
    2: { intros j Hj. rewrite ltb_true by auto. unfold diagflat. destruct (Nat.eqb_spec i j); [subst|]; ring. }
    rewrite sumR_plus, sumR_scal, (sumR_single (Nelem g) i (fun j => if (i =? j)%nat then e * gw g i * x i else 0)) in Hx; auto.
    2: { intros j Hj Hne. destruct (Nat.eqb_spec i j); [congruence|auto]. }
    rewrite Nat.eqb_refl in Hx. lra. }
  assert (Q : sumR (Nelem g) (fun i => x i * sumR (Nelem g) (fun j => H i j * x j)) = e * sumR (Nelem g) (fun i => gw g i * x i ^ 2)).
  { rewrite <- sumR_scal.
    assert (Z : sumR (Nelem g) (fun i => x i * sumR (Nelem g) (fun j => H i j * x j) - e * (gw g i * x i ^ 2)) = 0).
    { rewrite (sumR_ext _ _ (fun i => x (Nelem g) * (gw g i * p i * x i))).
      - rewrite sumR_scal, R0. ring.
      - intros i Hi. specialize (R1 i Hi).
        replace (sumR (Nelem g) (fun j => H i j * x j)) with (e * gw g i * x i + gw g i * p i * x (Nelem g)) by lra. ring. }
    rewrite sumR_minus in Z. lra. }
  pose proof (quad_bound (Nelem g) H x) as B. fold M in B. rewrite Q in B.
  set (S2 := sumR (Nelem g) (fun i => x i ^ 2)) in *.
  assert (S0 : 0 <= S2) by (apply sumR_nonneg; intros; apply pow2_ge_0).
  assert (M0 : 0 <= M) by (apply sumR_nonneg; intros; apply sumR_nonneg; intros; apply Rabs_pos).
  assert (WS : c * S2 <= sumR (Nelem g) (fun i => gw g i * x i ^ 2)).
  { unfold S2. rewrite <- sumR_scal. apply sumR_le. intros. apply Rmult_le_compat_r; [apply pow2_ge_0|auto]. }
  assert (EN : (M + 1) * S2 <= - (e * sumR (Nelem g) (fun i => gw g i * x i ^ 2))).
  { unfold e. replace (- (- (M + 1) / c * sumR (Nelem g) (fun i => gw g i * x i ^ 2))) with ((M + 1) / c * sumR (Nelem g) (fun i => gw g i * x i ^ 2)) by (field; lra).
    replace ((M + 1) * S2) with ((M + 1) / c * (c * S2)) by (field; lra).
    apply Rmult_le_compat_l; auto. apply Rmult_le_pos; [lra|]. left; apply Rinv_0_lt_compat; auto. }
  assert (B' : - (e * sumR (Nelem g) (fun i => gw g i * x i ^ 2)) <= M * S2).
  { eapply Rle_trans; [|exact B]. rewrite <- Rabs_Ropp. apply Rle_abs. }
  assert (SZ : S2 = 0) by lra.
  assert (XZ : forall i, (i < Nelem g)%nat -> x i = 0).
  { intros i Hi. assert (Z := sumR_sq_zero (Nelem g) (fun i => x i ^ 2) (fun i _ => pow2_ge_0 _) SZ i Hi). cbv beta in Z.
    apply Rsqr_0_uniq. rewrite Rsqr_pow2. auto. }
  intros i Hi. destruct (Nat.eq_dec i (Nelem g)) as [->|]; [|apply XZ; lia].
  specialize (R1 k0 Hk0). rewrite (XZ k0 Hk0) in R1.
  rewrite (sumR_zero (Nelem g) (fun j => H k0 j * x j)) in R1 by (intros; rewrite XZ by auto; ring).
  pose proof (gw_pos g k0 Hg Hk0).
  assert (gw g k0 * p k0 * x (Nelem g) = 0) by lra.
  apply Rmult_integral in H1. destruct H1 as [H1|H1]; auto. exfalso.
  apply Rmult_integral in H1. destruct H1; [lra|auto].
Qed.

(** * Concrete solvers *)
(** Three electrons, unpolarised, m = 0, two columns: one full orbital and half of the next. *)
Definition w_phi : nat -> vec := fun i k => INR (i + 1).
Definition w_eig : vec := fun i => INR i.
Definition w_solver (frac : bool) (m : Z) (N : R) (c : nat) (v : vec) : solver :=
  mkSolver m 1 N c frac true v (Some (c, w_phi)) (Some (c, w_eig)).
Lemma w_norm : forall i, 0 < integrate1 g22 (fun x => w_phi i x ^ 2).
Proof.
  intros. apply g22_int_pos. intros. unfold w_phi. apply pow_lt. apply lt_0_INR. lia.
Qed.
Lemma w_enough : forall frac v, enough (w_solver frac 0 3 2 v) 2.
Proof.
  intros frac v i Hi. unfold filling, aufbau, w_solver, shell_size in Hi. simpl in Hi.
  destruct (lt_dec i 2); auto. exfalso. assert (2 <= INR i) by (change 2 with (INR 2); apply le_INR; lia).
  destruct frac.
  - unfold Rmin, Rmax in Hi.
    destruct (Rle_dec 0 (3 / (1 * 2) - INR i)); [lra|]. destruct (Rle_dec 1 0); lra.
  - destruct (Rle_dec (INR i + 1) (3 / (1 * 2))); lra.
Qed.
Lemma w_not_full : forall frac v, ~ full_shells (w_solver frac 0 3 2 v).
Proof.
  intros frac v (n & H). unfold w_solver, shell_size in H. simpl in H.
  assert (E : INR 3 = INR (n * 2)) by (rewrite mult_INR; simpl; lra). apply INR_eq in E. lia.
Qed.
Lemma w_fill : forall v, filling (w_solver true 0 3 2 v) 0 = 1 /\ filling (w_solver true 0 3 2 v) 1 = / 2
  /\ filling (w_solver false 0 3 2 v) 0 = 1 /\ filling (w_solver false 0 3 2 v) 1 = 0.
Proof.
  intros v. unfold filling, aufbau, w_solver, shell_size. simpl. unfold Rmin, Rmax. repeat destruct Rle_dec; lra.
Qed.
(** A potential for which a nowhere vanishing p is an exact eigenvector with eigenvalue e. *)
Definition pot_for (g : grid) (H0 : mat) (e : R) (p : vec) : vec :=
  fun k => e - gapply g H0 p k / (gw g k * p k).
Lemma pot_for_eigen : forall g H0 e p, grid_ok g -> (forall k, (k < Nelem g)%nat -> p k <> 0) ->
  eigenpair g H0 (pot_for g H0 e p) e p.
Proof.
  intros g H0 e p Hg Hp k Hk. unfold pot_for, gapply, matvec. pose proof (gw_pos g k Hg Hk). specialize (Hp k Hk).
  field. split; lra.
Qed.
Lemma eigenpair_scal : forall g H0 v e p c, eigenpair g H0 v e p -> eigenpair g H0 v e (fun k => c * p k).
Proof.
  intros g H0 v e p c HE k Hk. specialize (HE k Hk).
  rewrite (sumR_ext _ _ (fun j => c * (H0 k j * p j))) by (intros; ring). rewrite sumR_scal.
  replace (sumR (Nelem g) (fun j => H0 k j * p j)) with (e * gw g k * p k - gw g k * v k * p k) by lra. ring.
Qed.
