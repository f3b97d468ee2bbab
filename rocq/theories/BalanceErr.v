(** The weight that makes the three-point Hamiltonian symmetric differs from one by the order of the squared spacings. *)
From Coq Require Import Reals List Arith Lia Lra ZArith Bool.
From Coquelicot Require Import Coquelicot.
From Verif Require Import Base BaseLemmas GridModel Poly GridSpec GridProofs FDProofs OpProofs AxisProofs LapCont GridWitness GridMore SolverModel SolverSpec SolverResp
  MaxPrinciple NCSigns AccuracyOp Convergence ZMatrix ZSym Ground GroundThms GroundSym.
Import ListNotations.
Local Open Scope R_scope.
Local Opaque sinh cosh.

(** * Elementary inequalities *)
Lemma quotient : forall A B T, 0 < A -> 0 <= B <= A * T -> T <= 1 / 2 -> 1 <= (A + B) / (A - B) <= exp (4 * T).
Proof.
  intros A B T HA [B0 B1] HT. assert (D : 0 < A - B) by nra. split.
  - apply Rmult_le_reg_r with (1 := D). unfold Rdiv. rewrite Rmult_assoc, Rinv_l, Rmult_1_r by lra. lra.
  - apply Rle_trans with (1 + 4 * T); [|apply exp_ineq1_le]. apply Rmult_le_reg_r with (1 := D). unfold Rdiv. rewrite Rmult_assoc, Rinv_l, Rmult_1_r by lra.
    assert (0 <= T) by nra. nra.
Qed.
Lemma quotient_down : forall A B T, 0 < A -> 0 <= B <= A * T -> T <= 1 / 2 -> exp (- (4 * T)) <= (A - B) / (A + B) <= 1.
Proof.
  intros A B T HA HB HT. destruct (quotient A B T HA HB HT) as [L U]. assert (D : 0 < A - B) by nra.
  assert (E : (A - B) / (A + B) = / ((A + B) / (A - B))) by (field; lra). rewrite E, exp_Ropp. split.
  - apply Rinv_le_contravar; [lra|exact U].
  - rewrite <- Rinv_1. apply Rinv_le_contravar; lra.
Qed.
Lemma exp_le : forall x y, x <= y -> exp x <= exp y.
Proof. intros x y [L| ->]; [left; apply exp_increasing, L|lra]. Qed.
(** Sum of reciprocals. *)
Lemma harmonic : forall n, sumR (S n) (fun i => / INR (S i)) <= 1 + ln (INR (S n)).
Proof.
  induction n as [|n IH].
  - cbn [sumR]. replace (INR 1) with 1 by reflexivity. rewrite ln_1. lra.
  - change (sumR (S (S n)) (fun i => / INR (S i))) with (sumR (S n) (fun i => / INR (S i)) + / INR (S (S n))).
    pose proof (lt_0_INR (S n) ltac:(lia)) as P. pose proof (lt_0_INR (S (S n)) ltac:(lia)) as P'.
    assert (X : / INR (S (S n)) <= ln (INR (S (S n))) - ln (INR (S n))); [|lra].
    rewrite <- ln_div by auto. set (z := INR (S n) / INR (S (S n))).
    assert (Z : 0 < z) by (apply Rdiv_lt_0_compat; auto).
    assert (Y : ln (INR (S (S n)) / INR (S n)) = - ln z).
    { unfold z. rewrite !ln_div by auto. ring. }
    rewrite Y. assert (L : ln z <= z - 1).
    { pose proof (exp_ineq1_le (ln z)) as E. rewrite exp_ln in E by auto. lra. }
    assert (V : z - 1 = - / INR (S (S n))). { unfold z. rewrite (S_INR (S n)). field. rewrite <- S_INR. lra. }
    lra.
Qed.
Lemma harmonic_le : forall n N, (n <= N)%nat -> (1 <= N)%nat -> sumR n (fun i => / INR (S i)) <= 1 + ln (INR N).
Proof.
  intros n N H L. destruct N as [|N]; [lia|]. apply Rle_trans with (2 := harmonic N).
  clear L. revert H. generalize (S N). intros M H. induction H as [|m H IH]; [lra|]. apply Rle_trans with (1 := IH). change (sumR (S m) (fun i => / INR (S i))) with (sumR m (fun i => / INR (S i)) + / INR (S m)). pose proof (Rinv_0_lt_compat (INR (S m)) (lt_0_INR (S m) ltac:(lia))). lra.
Qed.
Lemma ln_nonneg : forall n, (1 <= n)%nat -> 0 <= ln (INR n).
Proof. intros n H. rewrite <- ln_1. destruct (Nat.eq_dec n 1) as [->|D]; [simpl; lra|]. left. apply ln_increasing; [lra|]. apply lt_1_INR. lia. Qed.

(** Products of quotients between two exponentials. *)
Lemma ratios_up : forall r l t n, (forall i, (S i < n)%nat -> 0 < r i) -> (forall i, (S i < n)%nat -> 0 < l (S i)) -> (forall i, (S i < n)%nat -> r i / l (S i) <= exp (t i)) ->
  forall i, (i < n)%nat -> ratios r l i <= exp (sumR i t).
Proof.
  intros r l t n A B C. induction i; intros I0; cbn [ratios sumR]; [rewrite exp_0; lra|]. rewrite exp_plus.
  apply Rmult_le_compat; [left; apply (ratios_pos r l n); auto; lia|left; apply Rdiv_lt_0_compat; auto|apply IHi; lia|apply C, I0].
Qed.
Lemma ratios_down : forall r l t n, (forall i, (S i < n)%nat -> exp (t i) <= r i / l (S i)) -> forall i, (i < n)%nat -> exp (sumR i t) <= ratios r l i.
Proof.
  intros r l t n C. induction i; intros I0; cbn [ratios sumR]; [rewrite exp_0; lra|]. rewrite exp_plus.
  apply Rmult_le_compat; [left; apply exp_pos|left; apply exp_pos|apply IHi; lia|apply C, I0].
Qed.

(** * The radial quotients *)
Local Transparent sinh cosh.
Lemma sinh_plus : forall x y, sinh (x + y) = sinh x * cosh y + cosh x * sinh y.
Proof. intros x y. unfold sinh, cosh. replace (- (x + y)) with (- x + - y) by ring. rewrite !exp_plus. field. Qed.
Lemma cosh_plus : forall x y, cosh (x + y) = cosh x * cosh y + sinh x * sinh y.
Proof. intros x y. unfold sinh, cosh. replace (- (x + y)) with (- x + - y) by ring. rewrite !exp_plus. field. Qed.
Lemma sinh_opp : forall x, sinh (- x) = - sinh x.
Proof. intros x. unfold sinh. rewrite Ropp_involutive. field. Qed.
Lemma cosh_opp : forall x, cosh (- x) = cosh x.
Proof. intros x. unfold cosh. rewrite Ropp_involutive. field. Qed.
Local Opaque sinh cosh.
Lemma cosh_part : forall y, 0 < y -> 0 <= y * cosh y - sinh y <= y ^ 3 * cosh y.
Proof.
  intros y H. split; [pose proof (mcosh_ge y ltac:(lra)); lra|].
  destruct (MVT_cor2 (fun t => t * cosh t - sinh t) (fun t => t * sinh t) 0 y H) as (c & E & Hc).
  { intros c _. apply is_derive_Reals.
    pose proof (is_derive_mult (fun t : R => t) cosh c 1 (sinh c) (is_derive_id c) (is_derive_cosh c) Rmult_comm) as D1.
    pose proof (is_derive_minus _ _ _ _ _ D1 (is_derive_sinh c)) as D.
    replace (c * sinh c) with (minus (plus (mult 1 (cosh c)) (mult c (sinh c))) (cosh c)); [exact D|].
    unfold minus, plus, mult, opp. simpl. unfold plus, mult, opp; simpl. ring. }
  rewrite sinh_0 in E. pose proof (mcosh_ge y ltac:(lra)) as M. pose proof (cosh_ge_1 y) as C1.
  assert (S : sinh c <= sinh y).
  { destruct (MVT_cor2 sinh cosh c y ltac:(lra)) as (d & F & Hd); [intros d _; apply is_derive_Reals, is_derive_sinh|]. pose proof (cosh_ge_1 d). nra. }
  pose proof (sinh_le_cosh c ltac:(lra)) as [P _].
  assert (c * sinh c <= y * (y * cosh y)) by (apply Rmult_le_compat; lra). nra.
Qed.
Lemma radial_quotient : forall m h, 0 < h -> h <= 1 -> h <= m ->
  1 <= (sinh (m - h / 2) / h ^ 2 + cosh (m - h / 2) / (2 * h)) / (sinh (m + h / 2) / h ^ 2 - cosh (m + h / 2) / (2 * h)) <= exp (h ^ 3 * (1 + / m)).
Proof.
  intros m h H0 H1 Hm. set (y := h / 2). assert (Y : 0 < y <= 1 / 2) by (unfold y; lra).
  set (A := (cosh y - y * sinh y) * sinh m). set (B := (y * cosh y - sinh y) * cosh m).
  assert (EN : (sinh (m - y) / h ^ 2 + cosh (m - y) / (2 * h)) * h ^ 2 = A + B).
  { replace (m - y) with (m + - y) by ring. rewrite sinh_plus, cosh_plus, sinh_opp, cosh_opp. unfold A, B. replace h with (2 * y) by (unfold y; field). field. lra. }
  assert (ES : (sinh (m + y) / h ^ 2 - cosh (m + y) / (2 * h)) * h ^ 2 = A - B).
  { rewrite sinh_plus, cosh_plus. unfold A, B. replace h with (2 * y) by (unfold y; field). field. lra. }
  assert (Hp : 0 < h ^ 2) by (apply pow_lt, H0).
  pose proof (cosh_part y ltac:(lra)) as [D0 D1]. pose proof (cosh_ge_1 y) as C1. pose proof (mcosh_ge y ltac:(lra)) as M1. pose proof (sinh_le_cosh y ltac:(lra)) as [S0 _].
  assert (C2 : 3 / 4 * cosh y <= cosh y - y * sinh y).
  { assert (y * sinh y <= y * (y * cosh y)) by (apply Rmult_le_compat_l; lra). assert (y * y * cosh y <= 1 / 4 * cosh y) by (apply Rmult_le_compat_r; nra). lra. }
  pose proof (sinh_ge m ltac:(lra)) as SM. pose proof (cosh_ge_1 m) as CM. pose proof (mcosh_le m ltac:(lra)) as MC.
  set (T := h ^ 3 * (1 + / m) / 4).
  assert (I0 : 0 < / m <= / h) by (split; [apply Rinv_0_lt_compat; lra|apply Rinv_le_contravar; lra]).
  assert (HT : T <= 1 / 2).
  { unfold T. assert (h ^ 3 * (1 + / m) <= h ^ 3 * (1 + / h)) by (apply Rmult_le_compat_l; [left; apply pow_lt, H0|lra]).
    assert (h ^ 3 * (1 + / h) = h ^ 3 + h ^ 2) by (field; lra). assert (h ^ 2 <= 1) by nra. assert (h ^ 3 <= 1) by nra. lra. }
  assert (HA : 0 < A) by (unfold A; apply Rmult_lt_0_compat; lra).
  assert (HB : 0 <= B <= A * T).
  { split; [unfold B; apply Rmult_le_pos; lra|].
    assert (X : cosh m <= (1 + / m) * sinh m). { apply Rmult_le_reg_l with m; [lra|]. replace (m * ((1 + / m) * sinh m)) with ((1 + m) * sinh m) by (field; lra). exact MC. }
    apply Rle_trans with (y ^ 3 * cosh y * ((1 + / m) * sinh m)); [unfold B; apply Rmult_le_compat; lra|].
    unfold A, T. replace h with (2 * y) by (unfold y; field).
    replace ((cosh y - y * sinh y) * sinh m * ((2 * y) ^ 3 * (1 + / m) / 4)) with (2 * (cosh y - y * sinh y) * (y ^ 3 * ((1 + / m) * sinh m))) by (field; lra).
    replace (y ^ 3 * cosh y * ((1 + / m) * sinh m)) with (cosh y * (y ^ 3 * ((1 + / m) * sinh m))) by ring.
    apply Rmult_le_compat_r; [|lra]. apply Rmult_le_pos; [left; apply pow_lt; lra|apply Rmult_le_pos; lra]. }
  pose proof (quotient A B T HA HB HT) as Q. replace (4 * T) with (h ^ 3 * (1 + / m)) in Q by (unfold T; field; lra).
  replace ((A + B) / (A - B)) with ((sinh (m - y) / h ^ 2 + cosh (m - y) / (2 * h)) / (sinh (m + y) / h ^ 2 - cosh (m + y) / (2 * h))) in Q; [exact Q|].
  assert (P : 0 < A - B) by nra. rewrite <- EN, <- ES. rewrite <- ES in P. set (u := sinh (m + y) / h ^ 2 - cosh (m + y) / (2 * h)) in *.
  assert (0 < u) by (destruct (Rle_lt_dec u 0); auto; nra). field. lra.
Qed.

(** * The angular quotients *)
Lemma cos_low : forall y, 0 < y -> 1 - y ^ 2 / 2 <= cos y.
Proof.
  intros y H. replace (cos y) with (1 - 2 * sin (y / 2) * sin (y / 2)) by (rewrite <- cos_2a_sin; f_equal; field).
  pose proof (sin_lt_x (y / 2) ltac:(lra)) as A. assert (B : - (y / 2) <= sin (y / 2)).
  { destruct (Rle_dec (y / 2) PI) as [L|L]; [pose proof (sin_ge_0 (y / 2) ltac:(lra) L); lra|]. pose proof (SIN_bound (y / 2)). pose proof PI2_1. lra. }
  nra.
Qed.
Lemma angular_part : forall m k y, 0 < y -> y <= 1 -> k = 2 * y -> 0 < m -> k <= m -> m <= PI / 2 ->
  let d := sin y - y * cos y in let c := cos y + y * sin y in 0 <= d * cos m <= c * sin m * (k ^ 3 * / m / 8) /\ k ^ 3 * / m / 8 <= 1 / 2.
Proof.
  intros m k y Y0 Y1 -> M0 Mk Mp d c. pose proof PI2_1 as P1. pose proof (tan_ge y ltac:(lra)) as D0. pose proof (sin_lt_x y Y0) as S1. pose proof (cos_low y Y0) as C1.
  assert (S0 : 0 < sin y) by (apply sin_gt_0; lra). assert (y * y <= 1) by nra.
  assert (D1 : d <= y ^ 3 / 2) by (unfold d; nra). assert (Cc : 1 / 2 <= c) by (unfold c; nra). assert (Dd : 0 <= d) by (unfold d; lra).
  assert (CM : 0 <= cos m) by (apply cos_ge_0; lra). assert (SM : 0 < sin m) by (apply sin_gt_0; lra).
  assert (I0 : 0 < / m) by (apply Rinv_0_lt_compat; lra).
  assert (TG : cos m <= sin m * / m).
  { destruct Mp as [L|L]. - apply Rmult_le_reg_l with m; [lra|]. replace (m * (sin m * / m)) with (sin m) by (field; lra). apply tan_ge. lra.
    - rewrite L at 1. rewrite cos_PI2. left. apply Rmult_lt_0_compat; lra. }
  split; [split|].
  - apply Rmult_le_pos; lra.
  - apply Rle_trans with (y ^ 3 / 2 * (sin m * / m)); [apply Rmult_le_compat; lra|].
    replace (c * sin m * ((2 * y) ^ 3 * / m / 8)) with (c * (y ^ 3 * (sin m * / m))) by (field; lra). replace (y ^ 3 / 2 * (sin m * / m)) with (1 / 2 * (y ^ 3 * (sin m * / m))) by (field; lra).
    apply Rmult_le_compat_r; [|lra]. apply Rmult_le_pos; [left; apply pow_lt, Y0|apply Rmult_le_pos; lra].
  - assert (I1 : / m <= / (2 * y)) by (apply Rinv_le_contravar; lra). assert (E : (2 * y) ^ 3 * / (2 * y) / 8 = y ^ 2 / 2) by (field; lra).
    assert ((2 * y) ^ 3 * / m <= (2 * y) ^ 3 * / (2 * y)) by (apply Rmult_le_compat_l; [left; apply pow_lt; lra|exact I1]). nra.
Qed.
Lemma angular_quotient : forall m k, 0 < k -> k <= 2 -> k <= m -> k <= PI - m ->
  exp (- (k ^ 3 * / m / 2)) <= (sin (m - k / 2) / k ^ 2 + cos (m - k / 2) / (2 * k)) / (sin (m + k / 2) / k ^ 2 - cos (m + k / 2) / (2 * k)) <= exp (k ^ 3 * / (PI - m) / 2).
Proof.
  intros m k K0 K1 M0 M1. set (y := k / 2). assert (Y : 0 < y <= 1) by (unfold y; lra). assert (Ky : k = 2 * y) by (unfold y; lra).
  set (A := (cos y + y * sin y) * sin m). set (B := (sin y - y * cos y) * cos m).
  assert (EN : (sin (m - y) / k ^ 2 + cos (m - y) / (2 * k)) * k ^ 2 = A - B).
  { rewrite sin_minus, cos_minus. unfold A, B. rewrite Ky. field. lra. }
  assert (ES : (sin (m + y) / k ^ 2 - cos (m + y) / (2 * k)) * k ^ 2 = A + B).
  { rewrite sin_plus, cos_plus. unfold A, B. rewrite Ky. field. lra. }
  pose proof PI2_1 as P1. pose proof (cos_low y ltac:(lra)) as C1. assert (S0 : 0 < sin y) by (apply sin_gt_0; lra). assert (SM : 0 < sin m) by (apply sin_gt_0; lra).
  assert (HA : 0 < A). { unfold A. apply Rmult_lt_0_compat; [|exact SM]. nra. }
  assert (Q : 0 < A + B -> (sin (m - y) / k ^ 2 + cos (m - y) / (2 * k)) / (sin (m + y) / k ^ 2 - cos (m + y) / (2 * k)) = (A - B) / (A + B)).
  { intros P. rewrite <- EN, <- ES. rewrite <- ES in P. set (u := sin (m + y) / k ^ 2 - cos (m + y) / (2 * k)) in *. assert (Hp : 0 < k ^ 2) by (apply pow_lt, K0).
    assert (0 < u) by (destruct (Rle_lt_dec u 0); auto; nra). field. lra. }
  assert (E0 : forall x, 0 <= x -> exp (- x) <= 1 <= exp x).
  { intros x Hx. pose proof (exp_ineq1_le x) as X. split; [|lra]. rewrite exp_Ropp, <- Rinv_1. apply Rinv_le_contravar; lra. }
  assert (KP : 0 < k ^ 3) by (apply pow_lt, K0).
  destruct (Rle_lt_dec m (PI / 2)) as [L|L].
  - destruct (angular_part m k y ltac:(lra) ltac:(lra) Ky ltac:(lra) M0 L) as [HB HT]. fold A in HB. fold B in HB.
    destruct (quotient_down A B _ HA HB HT) as [U V]. rewrite Q by lra. replace (- (k ^ 3 * / m / 2)) with (- (4 * (k ^ 3 * / m / 8))) by (field; lra). split; [exact U|].
    apply Rle_trans with (1 := V). apply E0. pose proof (Rinv_0_lt_compat (PI - m) ltac:(lra)). apply Rmult_le_pos; [apply Rmult_le_pos; lra|lra].
  - destruct (angular_part (PI - m) k y ltac:(lra) ltac:(lra) Ky ltac:(lra) M1 ltac:(lra)) as [HB HT].
    assert (EC : cos (PI - m) = - cos m) by (rewrite cos_minus, cos_PI, sin_PI; ring). assert (ES2 : sin (PI - m) = sin m) by (rewrite sin_minus, cos_PI, sin_PI; ring).
    rewrite EC, ES2 in HB. fold A in HB. replace ((sin y - y * cos y) * - cos m) with (- B) in HB by (unfold B; ring).
    destruct (quotient A (- B) _ HA HB HT) as [U V]. assert (0 < A + B) by nra. rewrite Q by auto. replace (A + - B) with (A - B) in U, V by ring. replace (A - - B) with (A + B) in U, V by ring.
    replace (k ^ 3 * / (PI - m) / 2) with (4 * (k ^ 3 * / (PI - m) / 8)) by (field; lra). split; [|exact V].
    apply Rle_trans with (2 := U). apply E0. pose proof (Rinv_0_lt_compat m ltac:(lra)). apply Rmult_le_pos; [apply Rmult_le_pos; lra|lra].
Qed.

(** * The weight *)
Definition slack_a (g : grid) : R := (PI / INR (Na g)) ^ 2 / 2 * (1 + ln (INR (Na g))).
Definition slack_r (g : grid) : R := (gL g / INR (Nr g)) ^ 2 * (gL g + 1 + ln (INR (Nr g))).
Section S.
Variable g : grid.
Hypothesis T : three_point g.
Let Hg : grid_ok g. Proof. apply T. Qed.
Let Hh : gL g / INR (Nr g) <= 1. Proof. apply T. Qed.
Let LP : 0 < gL g. Proof. apply Hg. Qed.
Let h := gL g / INR (Nr g).
Let k := PI / INR (Na g).
Let NrP : 0 < INR (Nr g). Proof. apply lt_0_INR, Nr_pos. Qed.
Let NaP : 0 < INR (Na g). Proof. apply lt_0_INR, Na_pos. Qed.
Let hP : 0 < h. Proof. apply Rdiv_lt_0_compat; auto. Qed.
Let kP : 0 < k. Proof. apply Rdiv_lt_0_compat; auto. apply PI_RGT_0. Qed.
Lemma slacks : 0 <= slack_a g /\ 0 <= slack_r g.
Proof.
  pose proof (ln_nonneg (Na g) (Na_pos g)). pose proof (ln_nonneg (Nr g) (Nr_pos g)). unfold slack_a, slack_r.
  split; apply Rmult_le_pos; try lra; [|apply pow2_ge_0]. pose proof (pow2_ge_0 (PI / INR (Na g))). lra.
Qed.
Lemma radial_step : forall i, (S i < Nr g)%nat -> 1 <= rN g i / rS g (S i) <= exp (h ^ 3 + h ^ 2 * / INR (S i)).
Proof.
    intros i I0. pose proof (lt_0_INR (S i) ltac:(lia)) as P. assert (I1 : 1 <= INR (S i)) by (rewrite S_INR; pose proof (pos_INR i); lra).
    pose proof (radial_quotient (INR (S i) * h) h hP Hh ltac:(nra)) as X. unfold rN, rS. rewrite !node_eq. fold h.
    replace ((INR i + 1 / 2) * h) with (INR (S i) * h - h / 2) by (rewrite (S_INR i); field). replace ((INR (S i) + 1 / 2) * h) with (INR (S i) * h + h / 2) by field.
    replace (h ^ 3 + h ^ 2 * / INR (S i)) with (h ^ 3 * (1 + / (INR (S i) * h))) by (field; lra). exact X.
Qed.
Lemma radial_weight : forall i, (i < Nr g)%nat -> 1 <= ratios (rN g) (rS g) i <= exp (slack_r g).
Proof.
  pose proof radial_step as Q.
  intros i I0. split.
  - pose proof (ratios_down (rN g) (rS g) (fun _ => 0) (Nr g) (fun j J => eq_ind_r (fun z => z <= rN g j / rS g (S j)) (proj1 (Q j J)) exp_0) i I0) as X. rewrite sumR_zero in X by auto. rewrite exp_0 in X. exact X.
  - apply Rle_trans with (1 := ratios_up (rN g) (rS g) _ (Nr g) (rN_pos g T) (rS_pos g T) (fun j J => proj2 (Q j J)) i I0).
    apply exp_le. rewrite sumR_plus, sumR_scal, sumR_const. unfold slack_r. fold h. pose proof (harmonic_le i (Nr g) ltac:(lia) (Nr_pos g)) as H.
    assert (X : INR i * h ^ 3 <= h ^ 2 * gL g).
    { replace (gL g) with (INR (Nr g) * h) by (unfold h; field; lra). pose proof (lt_INR _ _ I0). pose proof (pow_lt h 3 hP). replace (h ^ 2 * (INR (Nr g) * h)) with (INR (Nr g) * h ^ 3) by ring. apply Rmult_le_compat_r; lra. }
    pose proof (Rmult_le_compat_l (h ^ 2) _ _ (pow2_ge_0 h) H). lra.
Qed.
Lemma angular_weight : forall i, (i < Na g)%nat -> exp (- slack_a g) <= ratios (aE g) (aW g) i <= exp (slack_a g).
Proof.
  assert (Q : forall i, (S i < Na g)%nat -> exp (- (k ^ 2 / 2) * / INR (S i)) <= aE g i / aW g (S i) <= exp (k ^ 2 / 2 * / INR (Na g - 1 - i))).
  { intros i I0. pose proof (lt_0_INR (S i) ltac:(lia)) as P. assert (I1 : 1 <= INR (S i)) by (rewrite S_INR; pose proof (pos_INR i); lra).
    assert (N2 : 2 <= INR (Na g)) by (apply (le_INR 2); lia). assert (I2 : INR (Na g - 1 - i) = INR (Na g) - INR (S i)) by (rewrite <- minus_INR by lia; f_equal; lia).
    assert (I3 : 1 <= INR (Na g) - INR (S i)) by (rewrite <- I2; apply (le_INR 1); lia).
    assert (PK : PI = INR (Na g) * k) by (unfold k; field; lra).
    assert (K2 : k <= 2) by (pose proof PI_4; nra).
    pose proof (angular_quotient (INR (S i) * k) k kP K2 ltac:(nra) ltac:(nra)) as X. unfold aE, aW. rewrite !node_eq. fold k.
    replace ((INR i + 1 / 2) * k) with (INR (S i) * k - k / 2) by (rewrite (S_INR i); field). replace ((INR (S i) + 1 / 2) * k) with (INR (S i) * k + k / 2) by field.
    rewrite I2. replace (- (k ^ 2 / 2) * / INR (S i)) with (- (k ^ 3 * / (INR (S i) * k) / 2)) by (field; lra).
    replace (k ^ 2 / 2 * / (INR (Na g) - INR (S i))) with (k ^ 3 * / (PI - INR (S i) * k) / 2); [exact X|]. replace (PI - INR (S i) * k) with ((INR (Na g) - INR (S i)) * k) by (rewrite PK; ring). field. lra. }
  intros i I0. assert (K0 : 0 <= k ^ 2 / 2) by (pose proof (pow2_ge_0 k); lra). split.
  - apply Rle_trans with (2 := ratios_down (aE g) (aW g) _ (Na g) (fun j J => proj1 (Q j J)) i I0).
    apply exp_le. rewrite sumR_scal. unfold slack_a. fold k. pose proof (Rmult_le_compat_l _ _ _ K0 (harmonic_le i (Na g) ltac:(lia) (Na_pos g))). lra.
  - apply Rle_trans with (1 := ratios_up (aE g) (aW g) _ (Na g) (aE_pos g T) (aW_pos g T) (fun j J => proj2 (Q j J)) i I0).
    apply exp_le. rewrite sumR_scal. unfold slack_a. fold k. apply Rmult_le_compat_l; [exact K0|].
    apply Rle_trans with (sumR (Na g - 1) (fun j => / INR (Na g - 1 - j))).
    { assert (forall m, (i <= m)%nat -> (m <= Na g - 1)%nat -> sumR i (fun j => / INR (Na g - 1 - j)) <= sumR m (fun j => / INR (Na g - 1 - j))) as M; [|apply M; lia].
      intros m I1. induction I1 as [|m I1 IH]; intros I2; [lra|]. apply Rle_trans with (1 := IH ltac:(lia)). cbn [sumR]. pose proof (Rinv_0_lt_compat (INR (Na g - 1 - m)) (lt_0_INR (Na g - 1 - m) ltac:(lia))). lra. }
    rewrite <- (sumR_rev (Na g - 1)). rewrite (sumR_ext _ _ (fun j => / INR (S j))) by (intros j J; f_equal; f_equal; lia). apply harmonic_le; [lia|apply Na_pos].
Qed.
Lemma balance_near : forall q, (q < Nelem g)%nat -> exp (- slack_a g) <= balance g q <= exp (slack_a g + slack_r g).
Proof.
  intros q H. destruct (pos_surj g q H) as (ia & ir & Hp & ->). rewrite (balance_at g) by auto. destruct Hp as [Ha Hr].
  destruct (angular_weight ia Ha) as [A1 A2]. destruct (radial_weight ir Hr) as [R1 R2]. pose proof (exp_pos (- slack_a g)). rewrite exp_plus. split.
  - replace (exp (- slack_a g)) with (exp (- slack_a g) * 1) by ring. apply Rmult_le_compat; lra.
  - apply Rmult_le_compat; lra.
Qed.
Lemma balance_dist : forall q, (q < Nelem g)%nat -> Rabs (balance g q - 1) <= exp (slack_a g + slack_r g) - 1.
Proof.
  intros q H. destruct (balance_near q H) as [A B]. destruct slacks as [S1 S2]. apply Rabs_le. split; [|lra].
  set (u := slack_a g) in *. set (v := slack_r g) in *. pose proof (exp_ineq1_le (- u)) as E1. pose proof (exp_ineq1_le (u + v)) as E2. lra.
Qed.

Lemma balance_radial : forall i j ia, (ia < Na g)%nat -> (i <= j)%nat -> (j < Nr g)%nat -> balance g (pos g ia i) <= balance g (pos g ia j).
Proof.
  intros i j ia A L. induction L as [|j L IH]; intros J; [lra|]. apply Rle_trans with (1 := IH ltac:(lia)).
  rewrite !(balance_at g) by (split; lia). cbn [ratios]. pose proof (angular_weight ia A) as [A1 _]. pose proof (exp_pos (- slack_a g)). pose proof (radial_weight j ltac:(lia)) as [R1 _].
  pose proof (proj1 (radial_step j J)). apply Rmult_le_compat_l; [lra|]. set (z := rN g j / rS g (S j)) in *. nra.
Qed.

(** * What follows for the levels *)
(** Orbitals of different levels are nearly orthogonal for the plain volume element. *)
Lemma near_orthogonal : forall m v e e' p q, eigenpair g (hamiltonian g m) v e p -> eigenpair g (hamiltonian g m) v e' q -> e <> e' ->
  2 * Rabs (sumR (Nelem g) (fun x => gw g x * (p x * q x))) <=
  (exp (slack_a g + slack_r g) - 1) * (sumR (Nelem g) (fun x => gw g x * (p x * p x)) + sumR (Nelem g) (fun x => gw g x * (q x * q x))).
Proof.
  intros m v e e' p q P Q N. pose proof (levels_orthogonal g T m v e e' p q P Q N) as O1. unfold wdot in O1.
  replace (sumR (Nelem g) (fun x => gw g x * (p x * q x))) with (sumR (Nelem g) (fun x => (1 - balance g x) * (gw g x * (p x * q x)))).
  2: { rewrite <- (Rminus_0_r (sumR (Nelem g) (fun x => gw g x * (p x * q x)))), <- O1, <- sumR_minus. apply sumR_ext. intros; ring. }
  rewrite <- sumR_plus, <- sumR_scal. rewrite <- (Rabs_pos_eq 2) by lra. rewrite <- Rabs_mult, <- sumR_scal. apply Rle_trans with (1 := sumR_abs_le _ _). apply sumR_le. intros x X.
  pose proof (balance_dist x X) as D. pose proof (gw_pos g x Hg X) as W. rewrite !Rabs_mult, (Rabs_pos_eq 2), (Rabs_pos_eq (gw g x)) by lra. rewrite (Rabs_minus_sym 1).
  assert (Y : 2 * (Rabs (p x) * Rabs (q x)) <= p x * p x + q x * q x).
  { pose proof (pow2_ge_0 (Rabs (p x) - Rabs (q x))) as Z. pose proof (pow2_abs (p x)). pose proof (pow2_abs (q x)). nra. }
  apply Rle_trans with (Rabs (balance g x - 1) * (gw g x * (p x * p x + q x * q x))).
  - replace (2 * (Rabs (balance g x - 1) * (gw g x * (Rabs (p x) * Rabs (q x))))) with (Rabs (balance g x - 1) * (gw g x * (2 * (Rabs (p x) * Rabs (q x))))) by ring.
    apply Rmult_le_compat_l; [apply Rabs_pos|]. apply Rmult_le_compat_l; lra.
  - replace (gw g x * (p x * p x) + gw g x * (q x * q x)) with (gw g x * (p x * p x + q x * q x)) by ring. apply Rmult_le_compat_r; [|exact D]. apply Rmult_le_pos; [lra|nra].
Qed.
(** The change of the lowest level under a rising potential: the density of the lowest orbital decides up to a factor. *)
Lemma near_first_order : forall m v v' a a' u u', ground g m v a u -> ground g m v' a' u' -> (forall x, (x < Nelem g)%nat -> v x <= v' x) ->
  0 <= a' - a <= exp (2 * slack_a g + slack_r g) * (sumR (Nelem g) (fun x => gw g x * ((v' x - v x) * (u x * u x))) / sumR (Nelem g) (fun x => gw g x * (u x * u x))).
Proof.
  intros m v v' a a' u u' G G' V. split.
  - destruct (ground_potential g T m v v' a a' u u' G G') as [(q & Kq & X) _]. pose proof (V q Kq). lra.
  - pose proof (first_order g T m v v' a a' u u' G G') as F. unfold wdot in F. cbv beta in F.
    set (n := sumR (Nelem g) (fun q => balance g q * gw g q * ((v' q - v q) * u q * u q))) in F. set (b := sumR (Nelem g) (fun q => balance g q * gw g q * (u q * u q))) in F.
    set (N := sumR (Nelem g) (fun x => gw g x * ((v' x - v x) * (u x * u x)))). set (B := sumR (Nelem g) (fun x => gw g x * (u x * u x))).
    assert (U : forall x, (x < Nelem g)%nat -> 0 < gw g x * (u x * u x)). { intros x X. pose proof (gw_pos g x Hg X). pose proof (proj1 G x X). apply Rmult_lt_0_compat; [lra|]. apply Rmult_lt_0_compat; lra. }
    assert (BP : 0 < B). { apply Rlt_le_trans with (gw g 0%nat * (u 0%nat * u 0%nat)); [apply U, Nelem_pos|]. apply (term_le (Nelem g) (fun x => gw g x * (u x * u x)) 0%nat (Nelem_pos g)). intros x X. left. apply U, X. }
    assert (N1 : n <= exp (slack_a g + slack_r g) * N).
    { unfold n, N. rewrite <- sumR_scal. apply sumR_le. intros x X. pose proof (balance_near x X) as [_ BB]. pose proof (U x X). pose proof (V x X).
      replace (balance g x * gw g x * ((v' x - v x) * u x * u x)) with (balance g x * (gw g x * (u x * u x) * (v' x - v x))) by ring. replace (gw g x * ((v' x - v x) * (u x * u x))) with (gw g x * (u x * u x) * (v' x - v x)) by ring.
      apply Rmult_le_compat_r; [apply Rmult_le_pos; lra|exact BB]. }
    assert (B1 : exp (- slack_a g) * B <= b).
    { unfold b, B. rewrite <- sumR_scal. apply sumR_le. intros x X. pose proof (balance_near x X) as [BB _]. pose proof (U x X).
      replace (balance g x * gw g x * (u x * u x)) with (balance g x * (gw g x * (u x * u x))) by ring. apply Rmult_le_compat_r; lra. }
    assert (N0 : 0 <= N). { unfold N. apply sumR_nonneg. intros x X. replace (gw g x * ((v' x - v x) * (u x * u x))) with (gw g x * (u x * u x) * (v' x - v x)) by ring. pose proof (U x X). pose proof (V x X). apply Rmult_le_pos; lra. }
    pose proof (exp_pos (- slack_a g)) as E1. assert (b0 : 0 < b) by nra. apply Rle_trans with (n / b); [lra|].
    replace (2 * slack_a g + slack_r g) with (slack_a g + slack_r g + - - slack_a g) by ring. rewrite (exp_plus _ (- - slack_a g)), (exp_Ropp (- slack_a g)).
    replace (exp (slack_a g + slack_r g) * / exp (- slack_a g) * (N / B)) with (exp (slack_a g + slack_r g) * N * / (exp (- slack_a g) * B)) by (field; lra).
    unfold Rdiv. pose proof (exp_pos (slack_a g + slack_r g)). assert (0 < exp (- slack_a g) * B) by (apply Rmult_lt_0_compat; assumption).
    apply Rle_trans with (exp (slack_a g + slack_r g) * N * / b).
    + apply Rmult_le_compat_r; [left; apply Rinv_0_lt_compat, b0|exact N1].
    + apply Rmult_le_compat_l; [apply Rmult_le_pos; lra|]. apply Rinv_le_contravar; lra.
Qed.
End S.
