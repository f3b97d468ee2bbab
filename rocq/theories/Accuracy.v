(** Order of accuracy of the finite-difference stencils on smooth functions. *)
From Coq Require Import Reals List Lia Lra ZArith.
From Coquelicot Require Import Coquelicot.
From Verif Require Import Base BaseLemmas GridModel Poly GridSpec GridProofs FDProofs.
Import ListNotations.
Local Open Scope R_scope.

(** f has derivatives up to order n everywhere. *)
Definition smooth (n : nat) (f : R -> R) : Prop := forall k t, (k <= n)%nat -> ex_derive_n f k t.

Lemma smooth_le : forall n m f, (m <= n)%nat -> smooth n f -> smooth m f.
Proof. intros n m f H Sf k t Hk. apply Sf. lia. Qed.

Lemma sum_f_sumR : forall n F, sum_f_R0 F n = sumR (S n) F.
Proof. induction n; intros F; simpl; [lra|]. rewrite IHn. simpl. lra. Qed.

(** Taylor polynomial of degree n around x. *)
Definition taylor (f : R -> R) (n : nat) (x y : R) : R :=
  sumR (S n) (fun k => (y - x) ^ k / INR (fact k) * Derive_n f k x).

Lemma taylor_point : forall f n x, taylor f n x x = f x.
Proof.
  intros f n x. unfold taylor. rewrite sumR_first. rewrite sumR_zero.
  - simpl. field.
  - intros i _. rewrite Rminus_diag_eq by auto. simpl. unfold Rdiv. ring.
Qed.

Lemma taylor_right : forall f n x y, x < y -> smooth (S n) f ->
  exists z, x < z < y /\ f y - taylor f n x y = (y - x) ^ S n / INR (fact (S n)) * Derive_n f (S n) z.
Proof.
  intros f n x y H Sf. destruct (Taylor_Lagrange f n x y H (fun t _ k Hk => Sf k t Hk)) as (z & Hz & E).
  exists z. split; [exact Hz|]. rewrite E. unfold taylor. rewrite sum_f_sumR. lra.
Qed.

Lemma smooth_opp : forall n f, smooth n f -> smooth n (fun t => f (- t)).
Proof.
  intros n f Sf k t Hk. apply ex_derive_n_comp_opp. apply filter_forall. intros y j Hj. apply Sf. lia.
Qed.
Lemma Derive_opp_n : forall n f k t, smooth n f -> (k <= n)%nat ->
  Derive_n (fun s => f (- s)) k t = (-1) ^ k * Derive_n f k (- t).
Proof.
  intros n f k t Sf Hk. apply Derive_n_comp_opp. apply filter_forall. intros y j Hj. apply Sf. lia.
Qed.

Lemma taylor_left : forall f n x y, y < x -> smooth (S n) f ->
  exists z, y < z < x /\ f y - taylor f n x y = (y - x) ^ S n / INR (fact (S n)) * Derive_n f (S n) z.
Proof.
  intros f n x y H Sf.
  destruct (taylor_right (fun t => f (- t)) n (- x) (- y) ltac:(lra) (smooth_opp _ _ Sf)) as (z & Hz & E).
  exists (- z). split; [lra|]. rewrite Ropp_involutive in E.
  assert (Q : forall k, (- y - - x) ^ k * (-1) ^ k = (y - x) ^ k)
    by (intros k; rewrite <- Rpow_mult_distr; f_equal; ring).
  rewrite (Derive_opp_n (S n)) in E by auto.
  assert (T : taylor (fun t => f (- t)) n (- x) (- y) = taylor f n x y).
  { unfold taylor. apply sumR_ext. intros k Hk. rewrite (Derive_opp_n (S n)) by (auto; lia).
    rewrite Ropp_involutive, <- (Q k). unfold Rdiv. ring. }
  rewrite T in E. rewrite E, <- (Q (S n)). unfold Rdiv. ring.
Qed.

Lemma taylor_bound : forall f n x y M, smooth (S n) f ->
  (forall t, Rmin x y <= t <= Rmax x y -> Rabs (Derive_n f (S n) t) <= M) ->
  Rabs (f y - taylor f n x y) <= M * (Rabs (y - x) ^ S n / INR (fact (S n))).
Proof.
  intros f n x y M Sf B.
  assert (F : 0 < INR (fact (S n))) by apply INR_fact_lt_0.
  destruct (Rtotal_order x y) as [H|[H|H]].
  - destruct (taylor_right f n x y H Sf) as (z & Hz & ->).
    rewrite Rabs_mult, Rmult_comm. unfold Rdiv. rewrite Rabs_mult, <- RPow_abs, (Rabs_right (/ _)).
    2:{ apply Rle_ge, Rlt_le, Rinv_0_lt_compat, F. }
    apply Rmult_le_compat_r; [|apply B; rewrite Rmin_left, Rmax_right; lra].
    apply Rmult_le_pos; [apply pow_le, Rabs_pos|apply Rlt_le, Rinv_0_lt_compat, F].
  - subst y. rewrite taylor_point, Rminus_diag_eq, Rabs_R0, Rminus_diag_eq, Rabs_R0 by auto.
    rewrite pow_i by lia. unfold Rdiv. rewrite Rmult_0_l, Rmult_0_r. lra.
  - destruct (taylor_left f n x y H Sf) as (z & Hz & ->).
    rewrite Rabs_mult, Rmult_comm. unfold Rdiv. rewrite Rabs_mult, <- RPow_abs, (Rabs_right (/ _)).
    2:{ apply Rle_ge, Rlt_le, Rinv_0_lt_compat, F. }
    apply Rmult_le_compat_r; [|apply B; rewrite Rmin_right, Rmax_left; lra].
    apply Rmult_le_pos; [apply pow_le, Rabs_pos|apply Rlt_le, Rinv_0_lt_compat, F].
Qed.

(** A rule with moments up to order n: error on a smooth function. *)
Definition rule_const (m n : nat) (c x : vec) : R :=
  sumR m (fun j => Rabs (c j) * Rabs (x j) ^ n) / INR (fact n).

Lemma rule_error : forall m n d (c x : vec) f t h M, (d < S n)%nat -> 0 < h ->
  (forall k, (k < S n)%nat -> sumR m (fun j => x j ^ k * c j) = if (k =? d)%nat then INR (fact k) else 0) ->
  smooth (S n) f ->
  (forall j s, (j < m)%nat -> Rmin t (t + x j * h) <= s <= Rmax t (t + x j * h) -> Rabs (Derive_n f (S n) s) <= M) ->
  Rabs (sumR m (fun j => c j * f (t + x j * h)) / h ^ d - Derive_n f d t)
  <= rule_const m (S n) c x * M * h ^ (S n - d).
Proof.
  intros m n d c x f t h M Hd Hh Hm Sf B.
  assert (F : 0 < INR (fact (S n))) by apply INR_fact_lt_0.
  assert (P : 0 < h ^ d) by (apply pow_lt; auto).
  assert (T : sumR m (fun j => c j * taylor f n t (t + x j * h)) = h ^ d * Derive_n f d t).
  { unfold taylor.
    rewrite (sumR_ext m _ (fun j => sumR (S n) (fun k => h ^ k / INR (fact k) * Derive_n f k t * (x j ^ k * c j)))).
    2:{ intros j Hj. rewrite <- sumR_scal. apply sumR_ext. intros k Hk.
        replace (t + x j * h - t) with (x j * h) by ring. rewrite Rpow_mult_distr. unfold Rdiv. ring. }
    rewrite sumR_swap. rewrite (sumR_ext _ _ (fun k => h ^ k / INR (fact k) * Derive_n f k t * (if (k =? d)%nat then INR (fact k) else 0))).
    2:{ intros k Hk. rewrite sumR_scal, Hm by lia. reflexivity. }
    rewrite (sumR_single _ d); [| lia |].
    - rewrite Nat.eqb_refl. field. apply INR_fact_neq_0.
    - intros k Hk Hne. destruct (Nat.eqb_spec k d); [lia|ring]. }
  replace (sumR m (fun j => c j * f (t + x j * h)) / h ^ d - Derive_n f d t)
    with (sumR m (fun j => c j * (f (t + x j * h) - taylor f n t (t + x j * h))) / h ^ d).
  2:{ rewrite (sumR_ext m (fun j => c j * (f (t + x j * h) - taylor f n t (t + x j * h)))
        (fun j => c j * f (t + x j * h) - c j * taylor f n t (t + x j * h))) by (intros; ring).
      rewrite sumR_minus, T. field. lra. }
  unfold Rdiv at 1. rewrite Rabs_mult, (Rabs_right (/ _)) by (apply Rle_ge, Rlt_le, Rinv_0_lt_compat, P).
  apply Rmult_le_reg_r with (h ^ d); [exact P|]. rewrite Rmult_assoc, Rinv_l, Rmult_1_r by lra.
  rewrite Rmult_assoc, <- pow_add. replace (S n - d + d)%nat with (S n) by lia.
  eapply Rle_trans; [apply sumR_abs_le|].
  eapply Rle_trans; [apply sumR_le with (g := fun j => Rabs (c j) * Rabs (x j) ^ (S n) * (/ INR (fact (S n)) * M * h ^ (S n)))|].
  - intros j Hj. rewrite Rabs_mult, Rmult_assoc. apply Rmult_le_compat_l; [apply Rabs_pos|].
    eapply Rle_trans; [apply (taylor_bound f n t (t + x j * h) M Sf); intros s Hs; apply (B j s Hj Hs)|].
    replace (t + x j * h - t) with (x j * h) by ring. rewrite Rabs_mult, Rpow_mult_distr, (Rabs_right h) by lra.
    unfold Rdiv. apply Req_le. ring.
  - rewrite sumR_scal_r. unfold rule_const. apply Req_le. unfold Rdiv. ring.
Qed.

(** * The stencils of the code *)
(** Coefficients that CADMium/common/finite_difference_coefficients.py:50-56 does not set to zero. *)
Definition unflushed (b : nat) (raw : vec) : Prop :=
  forall j, (j < 2 * b + 1)%nat -> raw j = 0 \/ / 10 ^ 10 <= Rabs (raw j).
(** Distance of stencil point j from the centre, in steps. *)
Definition offset (b j : nat) : R := INR j - INR b.
(** Constant in the error of a stencil -b..b with coefficients c, against derivative n. *)
Definition fd_const (b n : nat) (c : vec) : R := rule_const (2 * b + 1) n c (offset b).

Lemma sym_moments : forall b d raw, unflushed b raw ->
  solves (length (sym_stencil b)) (transp (fd_table (sym_stencil b))) (fd_rhs d) raw ->
  forall k, (k < 2 * b + 1)%nat ->
  sumR (2 * b + 1) (fun j => offset b j ^ k * fd_coef raw j) = if (k =? d)%nat then INR (fact k) else 0.
Proof.
  intros b d raw U H k Hk. rewrite <- (fd_moments _ _ _ H k) by (rewrite sym_stencil_length; auto).
  rewrite sym_stencil_length. apply sumR_ext. intros j Hj. rewrite sym_fd_x by auto.
  unfold fd_coef. rewrite fd_flush_id by auto. reflexivity.
Qed.

Lemma d1_moments : forall g b, fd_ok g b -> unflushed b (ls_fd1 g) -> forall k, (k < 2 * b + 1)%nat ->
  sumR (2 * b + 1) (fun j => offset b j ^ k * d1 g j) = if (k =? 1)%nat then INR (fact k) else 0.
Proof. intros g b (E & _ & H & _) U. rewrite E in H. apply sym_moments; auto. Qed.

Lemma odd_moment : forall b (c : vec) k, (forall j, (j < 2 * b + 1)%nat -> c (2 * b + 1 - 1 - j)%nat = c j) ->
  sumR (2 * b + 1) (fun j => offset b j ^ (2 * k + 1) * c j) = 0.
Proof.
  intros b c k P.
  assert (Q : sumR (2 * b + 1) (fun j => offset b j ^ (2 * k + 1) * c j)
    = - sumR (2 * b + 1) (fun j => offset b j ^ (2 * k + 1) * c j)).
  { rewrite <- (sumR_rev (2 * b + 1)) at 1. rewrite <- sumR_opp. apply sumR_ext. intros j Hj.
    rewrite P by auto. replace (offset b (2 * b + 1 - 1 - j)) with (- offset b j).
    - rewrite !Nat.add_1_r. rewrite <- !tech_pow_Rmult, !pow_mult. replace ((- offset b j) ^ 2) with (offset b j ^ 2) by ring. ring.
    - unfold offset. rewrite !minus_INR by lia. rewrite plus_INR, mult_INR. simpl INR. lra. }
  lra.
Qed.

Lemma d2_moments : forall g b, fd_ok g b -> unflushed b (ls_fd2 g) -> forall k, (k < 2 * b + 2)%nat ->
  sumR (2 * b + 1) (fun j => offset b j ^ k * d2 g j) = if (k =? 2)%nat then INR (fact k) else 0.
Proof.
  intros g b H U k Hk. destruct (Nat.eq_dec k (2 * b + 1)) as [->|N].
  - rewrite odd_moment by (intros; rewrite (d2_parity g b) by auto; ring).
    destruct H as (_ & Hb & _). destruct (Nat.eqb_spec (2 * b + 1) 2); [lia|reflexivity].
  - destruct H as (E & _ & _ & H). rewrite E in H. apply sym_moments; auto. lia.
Qed.

(** Data on the integers that samples f with step h: index p + (j - b) is the point t + (j - b) h. *)
Definition samples (b : nat) (u : Z -> R) (p : nat) (f : R -> R) (t h : R) : Prop :=
  forall j, (j < 2 * b + 1)%nat -> u (Z.of_nat p + (Z.of_nat j - Z.of_nat b))%Z = f (t + offset b j * h).

Lemma offset_abs : forall b j, (j < 2 * b + 1)%nat -> Rabs (offset b j) <= INR b.
Proof.
  intros b j Hj. unfold offset. apply Rabs_le. pose proof (pos_INR j). split; [lra|].
  assert (INR j <= INR (2 * b)) by (apply le_INR; lia). rewrite mult_INR in *. simpl INR in *. lra.
Qed.

Lemma near : forall b j t h s, 0 < h -> (j < 2 * b + 1)%nat ->
  Rmin t (t + offset b j * h) <= s <= Rmax t (t + offset b j * h) -> Rabs (s - t) <= INR b * h.
Proof.
  intros b j t h s Hh Hj H. pose proof (offset_abs b j Hj) as O. apply Rabs_le_between in O.
  assert (- (INR b * h) <= offset b j * h <= INR b * h).
  { split; [rewrite <- Ropp_mult_distr_l_reverse|]; apply Rmult_le_compat_r; lra. }
  apply Rabs_le. unfold Rmin, Rmax in H. destruct (Rle_dec _ _) in H; lra.
Qed.

Lemma stencil1_error : forall g b u p f t h M, fd_ok g b -> unflushed b (ls_fd1 g) -> 0 < h ->
  samples b u p f t h -> smooth (2 * b + 1) f ->
  (forall s, Rabs (s - t) <= INR b * h -> Rabs (Derive_n f (2 * b + 1) s) <= M) ->
  Rabs (stencil b (d1 g) u p / h - Derive_n f 1 t) <= fd_const b (2 * b + 1) (d1 g) * M * h ^ (2 * b).
Proof.
  intros g b u p f t h M H U Hh Sm Sf B. pose proof (d1_moments g b H U) as Q. destruct H as (_ & Hb & _).
  unfold stencil. rewrite (sumR_ext _ _ (fun j => d1 g j * f (t + offset b j * h))) by (intros; rewrite Sm; auto).
  rewrite Nat.add_1_r in *.
  pose proof (rule_error (S (2 * b)) (2 * b) 1 (d1 g) (offset b) f t h M ltac:(lia) Hh) as E.
  rewrite pow_1 in E. replace (S (2 * b) - 1)%nat with (2 * b)%nat in E by lia.
  unfold fd_const. rewrite Nat.add_1_r. apply E; auto.
  intros j s Hj Hs. apply B. apply (near b j t h s Hh); auto. lia.
Qed.

Lemma stencil2_error : forall g b u p f t h M, fd_ok g b -> unflushed b (ls_fd2 g) -> 0 < h ->
  samples b u p f t h -> smooth (2 * b + 2) f ->
  (forall s, Rabs (s - t) <= INR b * h -> Rabs (Derive_n f (2 * b + 2) s) <= M) ->
  Rabs (stencil b (d2 g) u p / h ^ 2 - Derive_n f 2 t) <= fd_const b (2 * b + 2) (d2 g) * M * h ^ (2 * b).
Proof.
  intros g b u p f t h M H U Hh Sm Sf B. pose proof (d2_moments g b H U) as Q. destruct H as (_ & Hb & _).
  unfold stencil. rewrite (sumR_ext _ _ (fun j => d2 g j * f (t + offset b j * h))) by (intros; rewrite Sm; auto).
  replace (2 * b + 2)%nat with (S (2 * b + 1)) in * by lia.
  pose proof (rule_error (2 * b + 1) (2 * b + 1) 2 (d2 g) (offset b) f t h M ltac:(lia) Hh) as E.
  replace (S (2 * b + 1) - 2)%nat with (2 * b)%nat in E by lia.
  unfold fd_const. apply E; auto.
  intros j s Hj Hs. apply B. apply (near b j t h s Hh Hj); auto.
Qed.

(** Values on the nodes, continued beyond the ends of an interval by the parity of f. *)
Lemma reflect_samples : forall n len sg f b p, (0 < n)%nat -> (b <= n)%nat -> (p < n)%nat ->
  (forall s, f (- s) = sg * f s) -> (forall s, f (2 * len - s) = sg * f s) ->
  samples b (reflect n sg (fun i => f (node n len i))) p f (node n len p) (len / INR n).
Proof.
  intros n len sg f b p Hn Hb Hp P0 P1 j Hj. unfold reflect.
  assert (N : INR n <> 0) by (apply not_0_INR; lia).
  assert (Q : forall z, INR p + offset b j = IZR z -> node n len p + offset b j * (len / INR n) = (IZR z + 1 / 2) * len / INR n).
  { intros z <-. unfold node. field. auto. }
  assert (W : INR p + offset b j = IZR (Z.of_nat p + (Z.of_nat j - Z.of_nat b))).
  { rewrite plus_IZR, minus_IZR, <- !INR_IZR_INZ. reflexivity. }
  set (z := (Z.of_nat p + (Z.of_nat j - Z.of_nat b))%Z) in *. rewrite (Q z W).
  destruct (Z.ltb_spec z 0); [|destruct (Z.ltb_spec z (Z.of_nat n))].
  - rewrite <- P0. f_equal. unfold node. rewrite INR_IZR_INZ, Z2Nat.id by lia. rewrite minus_IZR. simpl IZR. field. auto.
  - f_equal. unfold node. rewrite INR_IZR_INZ, Z2Nat.id by lia. field. auto.
  - rewrite <- P1. f_equal. unfold node. rewrite INR_IZR_INZ, Z2Nat.id by lia.
    rewrite !minus_IZR, mult_IZR, <- (INR_IZR_INZ n). simpl IZR. field. auto.
Qed.

Lemma inner_samples : forall n len sg f out b p, (0 < n)%nat -> (b <= n)%nat -> (p < n)%nat ->
  (forall s, f (- s) = sg * f s) -> (forall q, (q < b)%nat -> (n <= p + q + 1)%nat -> out (p + q + 1 - n)%nat = f (node n len (p + q + 1)%nat)) ->
  samples b (reflect_inner n sg (fun i => f (node n len i)) out) p f (node n len p) (len / INR n).
Proof.
  intros n len sg f out b p Hn Hb Hp P0 P1 j Hj. unfold reflect_inner.
  assert (N : INR n <> 0) by (apply not_0_INR; lia).
  assert (Q : forall z, INR p + offset b j = IZR z -> node n len p + offset b j * (len / INR n) = (IZR z + 1 / 2) * len / INR n).
  { intros z <-. unfold node. field. auto. }
  assert (W : INR p + offset b j = IZR (Z.of_nat p + (Z.of_nat j - Z.of_nat b))).
  { rewrite plus_IZR, minus_IZR, <- !INR_IZR_INZ. reflexivity. }
  remember (Z.of_nat p + (Z.of_nat j - Z.of_nat b))%Z as z eqn:Ez. rewrite (Q z W).
  destruct (Z.ltb_spec z 0); [|destruct (Z.ltb_spec z (Z.of_nat n))].
  - rewrite <- P0. f_equal. unfold node. rewrite INR_IZR_INZ, Z2Nat.id by lia. rewrite minus_IZR. simpl IZR. field. auto.
  - f_equal. unfold node. rewrite INR_IZR_INZ, Z2Nat.id by lia. field. auto.
  - specialize (P1 (j - b - 1)%nat ltac:(lia) ltac:(lia)).
    replace (p + (j - b - 1) + 1 - n)%nat with (Z.to_nat (z - Z.of_nat n)) in P1 by lia. rewrite P1.
    f_equal. unfold node. rewrite (INR_IZR_INZ (p + _ + _)).
    replace (Z.of_nat (p + (j - b - 1) + 1)) with z by lia. field. auto.
Qed.
