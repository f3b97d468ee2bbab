(** The multipole values on the ghost points against the Coulomb potential of the charge on the grid points. *)
From Coq Require Import Reals List Arith Lia Lra ZArith Bool.
From Coquelicot Require Import Coquelicot.
From Verif Require Import Base BaseLemmas GridModel Poly GridSpec GridProofs GridWitness GridMore OpProofs
  HartreeModel HartreeSpec HartreeProofs LinAlg MaxPrinciple HartreeThms Legendre.
Local Open Scope R_scope.
Local Opaque sinh cosh legendre.

(** Mean of the inverse distance from (z, y) to the circle through (z', y') around the axis. *)
Definition ring (z y z' y' : R) : R :=
  RInt (fun p => / sqrt ((z - z') ^ 2 + y ^ 2 + y' ^ 2 - 2 * y * y' * cos p)) 0 PI / PI.
(** Charge that grid point k contributes to the integral of the density n. *)
Definition share (g : grid) (n : vec) (k : nat) : R := iprefac g * (gwi g k * gw g k * n k).
(** Coulomb potential at (z, y) of these charges, each spread over its circle. *)
Definition coulomb_sum (g : grid) (n : vec) (z y : R) : R :=
  sumR (Nelem g) (fun k => share g n k * ring z y (gZ g k) (gY g k)).
(** Sum of the magnitudes of these charges. *)
Definition abs_charge (g : grid) (n : vec) : R := sumR (Nelem g) (fun k => Rabs (share g n k)).
(** All charge lies within the distance rho of the mid-point. *)
Definition inside (g : grid) (n : vec) (rho : R) : Prop :=
  forall k, (k < Nelem g)%nat -> n k = 0 \/ rad (gZ g k) (gY g k) <= rho.

(** ** One circle *)
Lemma rad_sq : forall z y, rad z y ^ 2 = z ^ 2 + y ^ 2.
Proof. intros. unfold rad. replace (sqrt (z * z + y * y) ^ 2) with (Rsqr (sqrt (z * z + y * y))) by (unfold Rsqr; ring).
  rewrite Rsqr_sqrt; [ring|nra]. Qed.
Lemma rad_nonneg : forall z y, 0 <= rad z y.
Proof. intros. apply sqrt_pos. Qed.
Lemma direction : forall z y, 0 < rad z y -> (y / rad z y) ^ 2 = 1 - (z / rad z y) ^ 2.
Proof. intros z y H. pose proof (rad_sq z y) as E. assert (y ^ 2 = rad z y ^ 2 - z ^ 2) as E2 by lra.
  unfold Rdiv. rewrite !Rpow_mult_distr, E2. rewrite pow_inv. field. lra. Qed.

Section Pair.
Variables z y z' y' : R.
Let r := rad z y.
Let r' := rad z' y'.
Hypothesis Hr' : 0 < r'.
Hypothesis Hr : r' < r.
Let t := r' / r.
Let u := between (z / r) (z' / r') (y / r) (y' / r').
Lemma t_range : 0 <= t < 1.
Proof. unfold t. split; [apply Rlt_le, Rdiv_lt_0_compat; lra|]. apply (Rmult_lt_reg_r r); [lra|]. unfold Rdiv. rewrite Rmult_assoc, Rinv_l by lra. lra. Qed.
Lemma u_range : forall p, -1 <= u p <= 1.
Proof. intros p. unfold u. apply between_range; apply direction; unfold r, r' in *; lra. Qed.
Lemma distance_split : forall p, (z - z') ^ 2 + y ^ 2 + y' ^ 2 - 2 * y * y' * cos p = r ^ 2 * (1 - 2 * u p * t + t ^ 2).
Proof.
  intros p. unfold u, between, t.
  replace (r ^ 2 * (1 - 2 * (z / r * (z' / r') + y / r * (y' / r') * cos p) * (r' / r) + (r' / r) ^ 2))
    with (r ^ 2 + r' ^ 2 - 2 * (z * z' + y * y' * cos p)) by (field; lra).
  unfold r, r'. rewrite !rad_sq. ring.
Qed.
Lemma quad_u : forall p, 0 < 1 - 2 * u p * t + t ^ 2.
Proof. intros p. pose proof t_range. pose proof (quad_pos (u p) t (u_range p) H). assert (0 < (1 - t) ^ 2) by (apply pow_lt; lra). lra. Qed.
Lemma inverse_distance : forall p, / sqrt ((z - z') ^ 2 + y ^ 2 + y' ^ 2 - 2 * y * y' * cos p) = / r * / sqrt (1 - 2 * u p * t + t ^ 2).
Proof.
  intros p. rewrite distance_split. rewrite sqrt_mult by (try apply pow2_ge_0; apply Rlt_le, quad_u).
  replace (sqrt (r ^ 2)) with r by (symmetry; apply sqrt_pow2; lra). rewrite Rinv_mult. reflexivity.
Qed.
Lemma inverse_cont : everywhere (fun p => / sqrt ((z - z') ^ 2 + y ^ 2 + y' ^ 2 - 2 * y * y' * cos p)).
Proof.
  intros p. apply (ex_derive_continuous (fun p : R => / sqrt ((z - z') ^ 2 + y ^ 2 + y' ^ 2 - 2 * y * y' * cos p))).
  assert (Q : 0 < (z - z') ^ 2 + y ^ 2 + y' ^ 2 - 2 * y * y' * cos p).
  { rewrite distance_split. apply Rmult_lt_0_compat; [apply pow_lt; lra|apply quad_u]. }
  auto_derive. simpl in Q. split; [lra|]. split; auto. apply Rgt_not_eq, sqrt_lt_R0. lra.
Qed.

Definition terms (L : nat) : R :=
  sumR (S L) (fun l => r' ^ l * legendre l (z' / r') / r ^ (l + 1) * legendre l (z / r)).
Lemma terms_mean : forall L, PI * terms L = / r * around (fun p => part_sum (u p) t L).
Proof.
  intros L. unfold terms, part_sum. pose proof t_range as T.
  assert (EV : forall n, everywhere (fun p => sumR n (fun l => legendre l (u p) * t ^ l))).
  { induction n as [|n IH]; [intros p; apply continuous_const|]. simpl sumR. apply ev_plus; [exact IH|].
    apply ev_mult; [|intros p; apply continuous_const]. apply ev_P. }
  induction (S L) as [|n IH].
  - simpl. unfold around. rewrite RInt_const. unfold scal; simpl; unfold mult; simpl. ring.
  - simpl sumR. rewrite (around_plus (fun p => sumR n (fun l => legendre l (u p) * t ^ l)) (fun p => legendre n (u p) * t ^ n)).
    2: apply EV. 2:{ apply ev_mult; [apply ev_P|intros p; apply continuous_const]. }
    rewrite !Rmult_plus_distr_l, IH. f_equal.
    rewrite (around_ext (fun p => legendre n (u p) * t ^ n) (fun p => t ^ n * legendre n (u p))) by (intros; ring).
    rewrite around_scal by apply ev_P.
    assert (A : around (fun p => legendre n (u p)) = PI * (legendre n (z / r) * legendre n (z' / r'))).
    { apply (addition (z / r) (z' / r') (y / r) (y' / r') (direction z y ltac:(unfold r, r' in *; lra)) (direction z' y' Hr') n). }
    rewrite A. unfold t. rewrite pow_add. unfold Rdiv. rewrite Rpow_mult_distr, pow_inv. field. split; [apply pow_nonzero|]; lra.
Qed.
Lemma ring_error : forall L, Rabs (terms L - ring z y z' y') <= t ^ S L / (r - r').
Proof.
  intros L. pose proof PI_RGT_0 as Pp. pose proof t_range as T.
  assert (EV : everywhere (fun p => part_sum (u p) t L)).
  { unfold part_sum. induction (S L) as [|n IH]; [intros p; apply continuous_const|]. simpl sumR. apply ev_plus; [exact IH|].
    apply ev_mult; [|intros p; apply continuous_const]. apply ev_P. }
  assert (E : PI * (terms L - ring z y z' y') = around (fun p => / r * part_sum (u p) t L
     + -1 * / sqrt ((z - z') ^ 2 + y ^ 2 + y' ^ 2 - 2 * y * y' * cos p))).
  { rewrite (around_plus (fun p => / r * part_sum (u p) t L)) by (apply ev_scal; first [exact EV|apply inverse_cont]).
    rewrite (around_scal (/ r) _ EV), (around_scal (-1) _ inverse_cont), <- terms_mean. unfold ring, around. field. lra. }
  apply (Rmult_le_reg_l PI); [exact Pp|]. rewrite <- (Rabs_right PI) at 1 by lra. rewrite <- Rabs_mult, E.
  apply around_bound; [apply ev_plus; apply ev_scal; first [exact EV|apply inverse_cont]|].
  intros p. rewrite inverse_distance.
  replace (/ r * part_sum (u p) t L + -1 * (/ r * / sqrt (1 - 2 * u p * t + t ^ 2)))
    with (- / r * (/ sqrt (1 - 2 * u p * t + t ^ 2) - part_sum (u p) t L)) by (cbn; ring).
  rewrite Rabs_mult, Rabs_Ropp, (Rabs_right (/ r)) by (apply Rle_ge, Rlt_le, Rinv_0_lt_compat; lra).
  replace (t ^ S L / (r - r')) with (/ r * (t ^ S L / (1 - t))).
  - apply Rmult_le_compat_l; [apply Rlt_le, Rinv_0_lt_compat; lra|]. apply generating; [apply u_range|exact T].
  - replace (r - r') with (r * (1 - t)) by (unfold t; field; lra). field. split; lra.
Qed.
Lemma tail_terms : forall L, Rabs (terms L - / r) <= t / (r - r').
Proof.
  intros L. pose proof t_range as T.
  assert (B : forall n, Rabs (sumR (S n) (fun l => r' ^ l * legendre l (z' / r') / r ^ (l + 1) * legendre l (z / r)) - / r)
     <= / r * (t * (1 - t ^ n) / (1 - t))).
  { induction n as [|n IH].
    - simpl. rewrite !legendre_0. match goal with |- Rabs ?e <= _ => replace e with 0 by (field; lra) end.
      rewrite Rabs_R0. simpl. right. field. split; lra.
    - set (f := fun l => r' ^ l * legendre l (z' / r') / r ^ (l + 1) * legendre l (z / r)) in *.
      change (sumR (S (S n)) f) with (sumR (S n) f + f (S n)).
      replace (sumR (S n) f + f (S n) - / r) with ((sumR (S n) f - / r) + f (S n)) by ring.
      eapply Rle_trans; [apply Rabs_triang|].
      assert (Fn : Rabs (f (S n)) <= / r * t ^ S n).
      { unfold f. replace (r' ^ S n * legendre (S n) (z' / r') / r ^ (S n + 1) * legendre (S n) (z / r))
          with ((/ r * t ^ S n) * (legendre (S n) (z' / r') * legendre (S n) (z / r))).
        - rewrite Rabs_mult, (Rabs_right (/ r * t ^ S n)).
          + rewrite <- (Rmult_1_r (/ r * t ^ S n)) at 2. apply Rmult_le_compat_l.
            * apply Rmult_le_pos; [apply Rlt_le, Rinv_0_lt_compat; lra|apply pow_le; lra].
            * rewrite Rabs_mult.
              assert (X : forall a b, 0 < rad a b -> -1 <= a / rad a b <= 1).
              { intros a b Hab. pose proof (direction a b Hab). pose proof (pow2_ge_0 (b / rad a b)). split; nra. }
              pose proof (legendre_bound (S n) (z' / r') (X z' y' ltac:(unfold r' in *; lra))).
              pose proof (legendre_bound (S n) (z / r) (X z y ltac:(unfold r, r' in *; lra))).
              pose proof (Rabs_pos (legendre (S n) (z' / r'))). pose proof (Rabs_pos (legendre (S n) (z / r))). nra.
          + apply Rle_ge, Rmult_le_pos; [apply Rlt_le, Rinv_0_lt_compat; lra|apply pow_le; lra].
        - unfold t. rewrite pow_add. unfold Rdiv. rewrite Rpow_mult_distr, pow_inv. field. try split; try apply pow_nonzero; lra. }
      replace (/ r * (t * (1 - t ^ S n) / (1 - t))) with (/ r * (t * (1 - t ^ n) / (1 - t)) + / r * t ^ S n) by (simpl; field; split; lra).
      lra. }
  unfold terms. eapply Rle_trans; [apply B|].
  replace (t / (r - r')) with (/ r * (t / (1 - t))).
  - apply Rmult_le_compat_l; [apply Rlt_le, Rinv_0_lt_compat; lra|]. unfold Rdiv. apply Rmult_le_compat_r; [apply Rlt_le, Rinv_0_lt_compat; lra|].
    assert (0 <= t ^ L) by (apply pow_le; lra). nra.
  - replace (r - r') with (r * (1 - t)) by (unfold t; field; lra). field. split; lra.
Qed.
End Pair.

(** ** All circles *)
Lemma multipole_terms : forall g n z y, multipole g n z y
  = sumR (Nelem g) (fun k => share g n k * terms z y (gZ g k) (gY g k) 7).
Proof.
  intros g n z y. unfold multipole, integrate1, terms, share.
  rewrite (sumR_ext 8 _ (fun l => sumR (Nelem g) (fun k => iprefac g * (gwi g k * gw g k * n k)
    * (rad (gZ g k) (gY g k) ^ l * legendre l (gZ g k / rad (gZ g k) (gY g k)) / rad z y ^ (l + 1) * legendre l (z / rad z y))))).
  - rewrite sumR_swap. apply sumR_ext. intros k Hk. rewrite sumR_scal. reflexivity.
  - intros l Hl. rewrite <- sumR_scal. unfold Rdiv. rewrite <- !sumR_scal_r. apply sumR_ext. intros k Hk. ring.
Qed.

Lemma share_zero : forall g n k, n k = 0 -> share g n k = 0.
Proof. intros g n k H. unfold share. rewrite H. ring. Qed.
Lemma pow_div_le : forall a b R k, 0 <= a <= b -> b < R -> (a / R) ^ k / (R - a) <= (b / R) ^ k / (R - b).
Proof.
  intros a b R k Ha Hb. unfold Rdiv. apply Rmult_le_compat.
  - apply pow_le. apply Rmult_le_pos; [lra|apply Rlt_le, Rinv_0_lt_compat; lra].
  - apply Rlt_le, Rinv_0_lt_compat; lra.
  - apply pow_incr. split; [apply Rmult_le_pos; [lra|apply Rlt_le, Rinv_0_lt_compat; lra]|].
    apply Rmult_le_compat_r; [apply Rlt_le, Rinv_0_lt_compat; lra|lra].
  - apply Rinv_le_contravar; lra.
Qed.
Lemma sum_shares : forall g n (f : vec) c, (forall k, (k < Nelem g)%nat -> n k = 0 \/ Rabs (f k) <= c) ->
  Rabs (sumR (Nelem g) (fun k => share g n k * f k)) <= c * abs_charge g n.
Proof.
  intros g n f c H. eapply Rle_trans; [apply sumR_abs_le|]. unfold abs_charge. rewrite <- sumR_scal. apply sumR_le. intros k Hk.
  rewrite Rabs_mult. destruct (H k Hk) as [Z|Q].
  - rewrite (share_zero g n k Z), Rabs_R0. lra.
  - rewrite Rmult_comm. apply Rmult_le_compat_r; [apply Rabs_pos|exact Q].
Qed.

Theorem truncation : forall g n z y rho, grid_ok g -> inside g n rho -> rho < rad z y ->
  Rabs (multipole g n z y - coulomb_sum g n z y) <= (rho / rad z y) ^ 8 / (rad z y - rho) * abs_charge g n.
Proof.
  intros g n z y rho Hg Hi Hr. rewrite multipole_terms. unfold coulomb_sum.
  rewrite <- sumR_minus. rewrite (sumR_ext _ _ (fun k => share g n k * (terms z y (gZ g k) (gY g k) 7 - ring z y (gZ g k) (gY g k)))) by (intros; ring).
  apply sum_shares. intros k Hk. destruct (Hi k Hk) as [Z|Q]; [left; exact Z|right].
  assert (P : 0 < rad (gZ g k) (gY g k)) by (apply rad_pos; apply gY_pos; auto).
  eapply Rle_trans; [apply ring_error; lra|]. apply pow_div_le; lra.
Qed.
Theorem far_field : forall g n z y rho, grid_ok g -> inside g n rho -> rho < rad z y ->
  Rabs (multipole g n z y - integrate1 g n / rad z y) <= (rho / rad z y) / (rad z y - rho) * abs_charge g n.
Proof.
  intros g n z y rho Hg Hi Hr. rewrite multipole_terms.
  assert (E : integrate1 g n / rad z y = sumR (Nelem g) (fun k => share g n k * / rad z y)).
  { unfold integrate1, share, Rdiv. rewrite <- sumR_scal, <- sumR_scal_r. reflexivity. }
  rewrite E, <- sumR_minus.
  rewrite (sumR_ext _ _ (fun k => share g n k * (terms z y (gZ g k) (gY g k) 7 - / rad z y))) by (intros; ring).
  apply sum_shares. intros k Hk. destruct (Hi k Hk) as [Z|Q]; [left; exact Z|right].
  assert (P : 0 < rad (gZ g k) (gY g k)) by (apply rad_pos; apply gY_pos; auto).
  eapply Rle_trans; [apply tail_terms; lra|]. pose proof (pow_div_le (rad (gZ g k) (gY g k)) rho (rad z y) 1 ltac:(lra) Hr) as B.
  rewrite !pow_1 in B. exact B.
Qed.
Theorem size : forall g n z y rho, grid_ok g -> inside g n rho -> 0 <= rho < rad z y ->
  Rabs (multipole g n z y) <= abs_charge g n / (rad z y - rho).
Proof.
  intros g n z y rho Hg Hi Hr. pose proof (far_field g n z y rho Hg Hi (proj2 Hr)) as F.
  assert (Q : Rabs (integrate1 g n / rad z y) <= abs_charge g n / rad z y).
  { unfold Rdiv. rewrite Rabs_mult, (Rabs_right (/ rad z y)) by (apply Rle_ge, Rlt_le, Rinv_0_lt_compat; lra).
    apply Rmult_le_compat_r; [apply Rlt_le, Rinv_0_lt_compat; lra|]. unfold integrate1. rewrite <- sumR_scal. apply sumR_abs_le. }
  replace (abs_charge g n / (rad z y - rho)) with ((rho / rad z y) / (rad z y - rho) * abs_charge g n + abs_charge g n / rad z y) by (field; lra).
  replace (multipole g n z y) with ((multipole g n z y - integrate1 g n / rad z y) + integrate1 g n / rad z y) by ring.
  eapply Rle_trans; [apply Rabs_triang|]. lra.
Qed.
Lemma abs_charge_nonneg : forall g n, grid_ok g -> (forall k, (k < Nelem g)%nat -> 0 <= gwi g k * n k) -> abs_charge g n = integrate1 g n.
Proof.
  intros g n Hg H. unfold abs_charge, integrate1. rewrite <- sumR_scal. apply sumR_ext. intros k Hk. apply Rabs_right, Rle_ge.
  unfold share. apply Rmult_le_pos; [apply Rlt_le, iprefac_pos; auto|]. pose proof (gw_pos g k Hg Hk). specialize (H k Hk). nra.
Qed.
Theorem positive : forall g n z y rho, grid_ok g -> inside g n rho -> 0 <= rho -> 0 < rad z y -> 2 * rho <= rad z y ->
  (forall k, (k < Nelem g)%nat -> 0 <= gwi g k * n k) -> 0 <= multipole g n z y.
Proof.
  intros g n z y rho Hg Hi H0 HR H2 Hn. pose proof (far_field g n z y rho Hg Hi ltac:(lra)) as F.
  rewrite abs_charge_nonneg in F by auto.
  assert (Q : 0 <= integrate1 g n) by (rewrite <- abs_charge_nonneg by auto; apply sumR_nonneg; intros; apply Rabs_pos).
  assert (C : rho / rad z y / (rad z y - rho) <= / rad z y).
  { unfold Rdiv. rewrite (Rmult_comm rho), Rmult_assoc. rewrite <- (Rmult_1_r (/ rad z y)) at 2.
    apply Rmult_le_compat_l; [apply Rlt_le, Rinv_0_lt_compat; lra|]. apply (Rmult_le_reg_r (rad z y - rho)); [lra|].
    rewrite Rmult_assoc, Rinv_l by lra. lra. }
  assert (B : rho / rad z y / (rad z y - rho) * integrate1 g n <= integrate1 g n / rad z y).
  { unfold Rdiv at 3. rewrite (Rmult_comm (integrate1 g n)). apply Rmult_le_compat_r; auto. }
  apply Rabs_le_between in F. lra.
Qed.

(** ** When every grid point is nearer to the mid-point than every ghost point *)
Lemma rad_prolate : forall a m t, 0 < a -> rad (a * cosh m * cos t) (a * sinh m * sin t) ^ 2 = a ^ 2 * (sinh m ^ 2 + cos t ^ 2).
Proof.
  intros a m t Ha. rewrite rad_sq. pose proof (cosh2_sinh2 m) as C. pose proof (sin2_cos2 t) as T. unfold Rsqr in T.
  replace ((a * cosh m * cos t) ^ 2 + (a * sinh m * sin t) ^ 2) with (a ^ 2 * (cosh m ^ 2 * (cos t * cos t) + sinh m ^ 2 * (sin t * sin t))) by ring.
  replace (sin t * sin t) with (1 - cos t * cos t) by lra. replace (cosh m ^ 2) with (1 + sinh m ^ 2) by lra. ring.
Qed.
Lemma sinh_sq_gap : forall p q, sinh p ^ 2 - sinh q ^ 2 = sinh (p + q) * sinh (p - q).
Proof.
  intros. Local Transparent sinh. unfold sinh. Local Opaque sinh.
  replace (- (p + q)) with (- p + - q) by ring. replace (- (p - q)) with (- p + q) by ring. unfold Rminus. rewrite !exp_plus.
  pose proof (exp_plus p (- p)) as A. rewrite Rplus_opp_r, exp_0 in A. pose proof (exp_plus q (- q)) as B. rewrite Rplus_opp_r, exp_0 in B.
  apply (Rmult_eq_reg_l 4); [|lra].
  replace (4 * ((exp p * exp q + - (exp (- p) * exp (- q))) / 2 * ((exp p * exp (- q) + - (exp (- p) * exp q)) / 2)))
    with (exp p ^ 2 * (exp q * exp (- q)) - exp p * exp (- p) * exp q ^ 2 - exp p * exp (- p) * exp (- q) ^ 2 + exp (- p) ^ 2 * (exp q * exp (- q))) by field.
  rewrite <- A, <- B.
  replace (4 * (((exp p + - exp (- p)) / 2) ^ 2 + - ((exp q + - exp (- q)) / 2) ^ 2))
    with (exp p ^ 2 + exp (- p) ^ 2 - exp q ^ 2 - exp (- q) ^ 2 - 2 * (exp p * exp (- p)) + 2 * (exp q * exp (- q))) by field.
  rewrite <- A, <- B. ring.
Qed.
