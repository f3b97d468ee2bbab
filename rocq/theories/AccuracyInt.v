(** Error of the composite quadrature weights on smooth functions, and of volume integrals. *)
From Coq Require Import Reals List Lia Lra ZArith.
From Coquelicot Require Import Coquelicot.
From Verif Require Import Base BaseLemmas GridModel Poly GridSpec GridProofs NCProofs GridMore Accuracy AccuracyOp.
Import ListNotations.
Local Open Scope R_scope.
Local Opaque sinh cosh.

(** Taylor polynomials are polynomials. *)
Definition tpoly (f : R -> R) (n : nat) (c : R) : list R :=
  pcomp (map (fun k => Derive_n f k c / INR (fact k)) (seq 0 (S n))) 1 (- c).
Lemma tpoly_length : forall f n c, (length (tpoly f n c) <= S n)%nat.
Proof. intros. unfold tpoly. eapply Nat.le_trans; [apply length_pcomp|]. rewrite map_length, seq_length. lia. Qed.
Lemma tpoly_eval : forall f n c y, peval (tpoly f n c) y = taylor f n c y.
Proof.
  intros f n c y. unfold tpoly. rewrite peval_pcomp. rewrite (peval_sum _ _ (S n)) by (rewrite map_length, seq_length; lia).
  unfold taylor. apply sumR_ext. intros k Hk.
  rewrite (nth_indep _ 0 ((fun k => Derive_n f k c / INR (fact k)) 0%nat)) by (rewrite map_length, seq_length; lia).
  rewrite (map_nth (fun k => Derive_n f k c / INR (fact k))), seq_nth by lia.
  replace (1 * y + - c) with (y - c) by ring. rewrite Nat.add_0_l. unfold Rdiv. ring.
Qed.

Lemma smooth_continuous : forall n f t, (1 <= n)%nat -> smooth n f -> continuous f t.
Proof. intros n f t Hn Sf. apply (@ex_derive_continuous R_AbsRing R_NormedModule f t). exact (Sf 1%nat t Hn). Qed.
Lemma smooth_ex_RInt : forall n f a b, (1 <= n)%nat -> smooth n f -> ex_RInt f a b.
Proof. intros n f a b Hn Sf. apply (@ex_RInt_continuous R_CompleteNormedModule f a b). intros z _. apply (smooth_continuous n); auto. Qed.
Lemma peval_ex_RInt : forall p a b, ex_RInt (peval p) a b.
Proof. intros. eexists. apply (RInt_peval (length p)). lia. Qed.

(** Error of a rule with k nodes x and weights w for the integral from A to B, exact on polynomials with n
    coefficients; expansion around c, within D of every point of [A, B]. *)
Definition quad_const (k n : nat) (w x : vec) (c len D : R) : R :=
  (sumR k (fun j => Rabs (w j) * Rabs (x j - c) ^ n) + len * D ^ n) / INR (fact n).

Lemma quad_rule : forall k n (w x : vec) lo hi A B c D f M,
  (forall p, (length p <= S n)%nat -> sumR k (fun j => w j * peval p (x j)) = RInt (peval p) A B) ->
  lo <= c <= hi -> lo <= A -> A <= B -> B <= hi -> (forall j, (j < k)%nat -> lo <= x j <= hi) ->
  (forall y, A <= y <= B -> Rabs (y - c) <= D) ->
  smooth (S n) f -> (forall s, lo <= s <= hi -> Rabs (Derive_n f (S n) s) <= M) ->
  Rabs (sumR k (fun j => w j * f (x j)) - RInt f A B) <= M * quad_const k (S n) w x c (B - A) D.
Proof.
  intros k n w x lo hi A B c D f M Hex Hc HA HAB HB Hx HD Sf HM.
  set (p := tpoly f n c). pose proof (Hex p (tpoly_length f n c)) as E.
  assert (F : 0 < / INR (fact (S n))) by (apply Rinv_0_lt_compat, INR_fact_lt_0).
  assert (M0 : 0 <= M) by (eapply Rle_trans; [apply Rabs_pos|apply (HM c Hc)]).
  assert (T : forall y, lo <= y <= hi -> Rabs (f y - peval p y) <= M * (Rabs (y - c) ^ S n / INR (fact (S n)))).
  { intros y Hy. unfold p. rewrite tpoly_eval. apply taylor_bound; auto. intros s Hs. apply HM.
    unfold Rmin, Rmax in Hs. destruct (Rle_dec c y); lra. }
  replace (sumR k (fun j => w j * f (x j)) - RInt f A B)
    with (sumR k (fun j => w j * (f (x j) - peval p (x j))) - RInt (fun y => f y - peval p y) A B).
  2:{ rewrite (sumR_ext k (fun j => w j * (f (x j) - peval p (x j))) (fun j => w j * f (x j) - w j * peval p (x j))) by (intros; ring).
      rewrite sumR_minus, E.
      assert (Q : RInt (fun y => f y - peval p y) A B = RInt f A B - RInt (peval p) A B).
      { apply (RInt_minus f (peval p)); [apply (smooth_ex_RInt (S n)); auto; lia|apply peval_ex_RInt]. }
      rewrite Q. lra. }
  unfold Rminus at 1. eapply Rle_trans; [apply Rabs_triang|]. rewrite Rabs_Ropp. unfold quad_const, Rdiv.
  rewrite Rmult_plus_distr_r, Rmult_plus_distr_l. apply Rplus_le_compat.
  - eapply Rle_trans; [apply sumR_abs_le|]. rewrite <- sumR_scal_r, <- sumR_scal. apply sumR_le. intros j Hj.
    rewrite Rabs_mult. eapply Rle_trans; [apply Rmult_le_compat_l; [apply Rabs_pos|apply (T _ (Hx j Hj))]|].
    apply Req_le. unfold Rdiv. ring.
  - eapply Rle_trans; [apply (abs_RInt_le_const _ A B (M * (D ^ S n / INR (fact (S n)))) HAB)|].
    + apply (ex_RInt_minus f (peval p)); [apply (smooth_ex_RInt (S n)); auto; lia|apply peval_ex_RInt].
    + intros y Hy. eapply Rle_trans; [apply T; lra|]. apply Rmult_le_compat_l; [exact M0|].
      unfold Rdiv. apply Rmult_le_compat_r; [lra|]. apply pow_incr. split; [apply Rabs_pos|apply HD, Hy].
    + apply Req_le. unfold Rdiv. ring.
Qed.

Lemma nc_end_moments : forall N sol1, (1 <= N)%nat -> solves N nc_A1 nc_b1 sol1 ->
  forall p, (length p <= N)%nat -> sumR N (fun j => sol1 j * peval p (nc_x1 j)) = RInt (peval p) 0 (/ 2).
Proof.
  intros N sol1 HN Hs p Hl. rewrite (moments_poly N sol1 nc_x1 nc_b1 Hs p Hl).
  rewrite (is_RInt_unique _ _ _ _ (RInt_peval N p 0 (/ 2) Hl)).
  unfold pint. rewrite (sumR_zero N (fun k => nth k p 0 * (0 ^ (k + 1) / (INR k + 1)))).
  2:{ intros. rewrite Nat.add_1_r. simpl. lra. }
  rewrite Rminus_0_r. apply sumR_ext. intros k Hk. unfold nc_b1. f_equal. unfold Rdiv. ring.
Qed.
Lemma nc_end_moments_right : forall N sol1 e, (1 <= N)%nat -> solves N nc_A1 nc_b1 sol1 ->
  forall p, (length p <= N)%nat -> sumR N (fun j => sol1 j * peval p (e - nc_x1 j)) = RInt (peval p) (e - / 2) e.
Proof.
  intros N sol1 e HN Hs p Hl.
  set (q := pcomp p (-1) e).
  assert (Hq : (length q <= N)%nat) by (pose proof (length_pcomp p (-1) e); unfold q; lia).
  assert (Eq : forall x, peval q x = peval p (-1 * x + e)) by (intros; apply peval_pcomp).
  rewrite (sumR_ext N _ (fun j => sol1 j * peval q (nc_x1 j))).
  2:{ intros. rewrite Eq. f_equal. f_equal. ring. }
  rewrite (nc_end_moments N sol1 HN Hs q Hq).
  assert (E : RInt (fun y => scal (-1) (peval p (-1 * y + e))) 0 (/ 2) = RInt (peval p) e (e - / 2)).
  { pose proof (RInt_comp_lin (peval p) (-1) e 0 (/ 2) (peval_ex_RInt _ _ _)) as E0.
    replace (-1 * 0 + e) with e in E0 by ring.
    replace (-1 * / 2 + e) with (e - / 2) in E0 by ring. exact E0. }
  rewrite <- (opp_RInt_swap (peval p) (e - / 2) e (peval_ex_RInt _ _ _)) in E.
  pose proof (RInt_scal (peval q) 0 (/ 2) (-1) (peval_ex_RInt _ _ _)) as E3.
  assert (E4 : RInt (fun y => scal (-1) (peval p (-1 * y + e))) 0 (/ 2) = scal (-1) (RInt (peval q) 0 (/ 2))).
  { etransitivity; [|exact E3]. apply RInt_ext. intros. rewrite Eq. reflexivity. }
  rewrite E4 in E. unfold scal, opp in E; simpl in E. unfold mult in E; simpl in E. lra.
Qed.

(** Constants of one block and of one end. *)
Definition block_const (N : nat) (w : vec) : R := quad_const N N w INR 0 (INR (N - 1)) (INR (N - 1)).
Definition end_const (N : nat) (sol1 : vec) : R := quad_const N N sol1 nc_x1 0 (/ 2) (/ 2).

Lemma sum_blocks : forall N Nm f c, (2 <= N)%nat -> (forall a b, ex_RInt f a b) ->
  sumR Nm (fun i => RInt f (INR ((N - 1) * i) + c) (INR ((N - 1) * S i) + c)) = RInt f c (INR ((N - 1) * Nm) + c).
Proof.
  intros N Nm f c HN X. induction Nm.
  - simpl. rewrite Nat.mul_0_r. simpl. rewrite Rplus_0_l, RInt_point. reflexivity.
  - simpl sumR. rewrite IHNm. apply (RInt_Chasles f); apply X.
Qed.

Lemma nc_x1_range : forall j, 0 <= nc_x1 j <= INR j.
Proof.
  intros j. unfold nc_x1. destruct (Nat.eqb_spec j 0) as [->|H]; [simpl; lra|].
  assert (1 <= INR j) by (apply (le_INR 1); lia). lra.
Qed.

(** Composite rule with unit spacing. *)
Lemma nc_error : forall N Nm w sol1 f M, (2 <= N)%nat -> (2 * (N - 1) <= nc_NP N Nm)%nat ->
  solves N nc_A (nc_b N) w -> solves N nc_A1 nc_b1 sol1 -> smooth N f ->
  let e := INR (nc_NP N Nm) in
  (forall s, 0 <= s <= e -> Rabs (Derive_n f N s) <= M) ->
  Rabs (sumR (nc_NP N Nm) (fun t => nc_weights N Nm w sol1 t * f (INR t + / 2)) - RInt f 0 e)
  <= M * (INR Nm * block_const N w + 2 * end_const N sol1) + Rabs (sol1 0%nat) * (Rabs (f 0) + Rabs (f e)).
Proof.
  intros N Nm w sol1 f M HN Hd Hw Hs Sf e HM.
  assert (X : forall a b, ex_RInt f a b) by (intros; apply (smooth_ex_RInt N); auto; lia).
  destruct N as [|n0]; [lia|]. assert (EN : (S n0 - 1 = n0)%nat) by lia.
  rewrite EN in *. fold e.
  assert (Ee : e = INR (n0 * Nm) + 1) by (unfold e, nc_NP; rewrite EN, plus_INR; reflexivity).
  assert (e2 : 2 * INR n0 <= e) by (unfold e; replace (2 * INR n0) with (INR (2 * n0)) by (rewrite mult_INR; reflexivity); apply le_INR; auto).
  assert (n1 : 1 <= INR n0) by (apply (le_INR 1); lia).
  unfold nc_weights.
  rewrite (nc_loop_sum (S n0) w Nm _ (fun t => f (INR t + / 2))) by (auto; unfold nc_NP; lia).
  rewrite (nc_ends_sum (S n0) Nm _ (fun t => f (INR t + / 2))) by (auto; rewrite EN; auto). rewrite !EN.
  (* left end *)
  assert (L : sumR n0 (fun j => nc_w1 sol1 j * f (INR j + / 2)) = sumR (S n0) (fun j => sol1 j * f (nc_x1 j)) - sol1 0%nat * f 0).
  { rewrite sumR_first. change (nc_x1 0) with 0.
    rewrite (sumR_ext n0 (fun i => sol1 (S i) * f (nc_x1 (S i))) (fun j => nc_w1 sol1 j * f (INR j + / 2))); [ring|].
    intros i Hi. unfold nc_w1. rewrite Nat.add_1_r. f_equal. f_equal. unfold nc_x1. cbn [Nat.eqb]. rewrite S_INR. lra. }
  assert (Rt : sumR n0 (fun j => nc_w1 sol1 j * f (INR (nc_NP (S n0) Nm - 1 - j) + / 2)) = sumR (S n0) (fun j => sol1 j * f (e - nc_x1 j)) - sol1 0%nat * f e).
  { rewrite sumR_first. change (nc_x1 0) with 0. rewrite Rminus_0_r.
    rewrite (sumR_ext n0 (fun i => sol1 (S i) * f (e - nc_x1 (S i))) (fun j => nc_w1 sol1 j * f (INR (nc_NP (S n0) Nm - 1 - j) + / 2))); [ring|].
    intros i Hi. unfold nc_w1. rewrite Nat.add_1_r. f_equal. f_equal. unfold nc_x1. cbn [Nat.eqb]. rewrite S_INR, !minus_INR by lia.
    unfold e. simpl INR. lra. }
  rewrite L, Rt. clear L Rt.
  (* errors *)
  assert (XN : forall j, (j < S n0)%nat -> 0 <= nc_x1 j <= INR n0).
  { intros j Hj. pose proof (nc_x1_range j). assert (INR j <= INR n0) by (apply le_INR; lia). lra. }
  assert (BL : Rabs (sumR (S n0) (fun j => sol1 j * f (nc_x1 j)) - RInt f 0 (/ 2)) <= M * end_const (S n0) sol1).
  { unfold end_const. replace (/ 2) with (/ 2 - 0) at 2 by lra.
    apply (quad_rule (S n0) n0 sol1 nc_x1 0 e); auto; try lra.
    - intros p Hp. apply nc_end_moments; auto; lia.
    - intros j Hj. specialize (XN j ltac:(lia)). lra.
    - intros y Hy. rewrite Rminus_0_r, Rabs_right; lra. }
  assert (BR : Rabs (sumR (S n0) (fun j => sol1 j * f (e - nc_x1 j)) - RInt f (e - / 2) e) <= M * end_const (S n0) sol1).
  { replace (end_const (S n0) sol1) with (quad_const (S n0) (S n0) sol1 (fun j => e - nc_x1 j) e (e - (e - / 2)) (/ 2)).
    2:{ unfold end_const, quad_const. f_equal. f_equal; [|f_equal; lra]. apply sumR_ext. intros j Hj. f_equal. f_equal.
        replace (e - nc_x1 j - e) with (- nc_x1 j) by ring. rewrite Rabs_Ropp, Rminus_0_r. reflexivity. }
    apply (quad_rule (S n0) n0 sol1 (fun j => e - nc_x1 j) 0 e); auto; try lra.
    - intros p Hp. apply nc_end_moments_right; auto; lia.
    - intros j Hj. specialize (XN j ltac:(lia)). lra.
    - intros y Hy. apply Rabs_le. lra. }
  assert (BM : Rabs (sumR Nm (fun i => sumR (S n0) (fun j => w j * f (INR (n0 * i + j) + / 2)))
                     - RInt f (/ 2) (INR (n0 * Nm) + / 2)) <= M * (INR Nm * block_const (S n0) w)).
  { pose proof (sum_blocks (S n0) Nm f (/ 2) HN X) as SB. rewrite EN in SB. rewrite <- SB. rewrite <- sumR_minus. eapply Rle_trans; [apply sumR_abs_le|].
    replace (M * (INR Nm * block_const (S n0) w)) with (sumR Nm (fun _ => M * block_const (S n0) w)) by (rewrite sumR_const; ring).
    apply sumR_le. intros i Hi. set (c := INR (n0 * i) + / 2).
    replace (INR (n0 * S i) + / 2) with (INR n0 + c) by (unfold c; rewrite Nat.mul_succ_r, plus_INR; ring).
    rewrite (sumR_ext (S n0) _ (fun j => w j * f (INR j + c))) by (intros j Hj; f_equal; f_equal; unfold c; rewrite plus_INR; ring).
    replace (block_const (S n0) w) with (quad_const (S n0) (S n0) w (fun j => INR j + c) c (INR n0 + c - c) (INR n0)).
    2:{ unfold block_const, quad_const. rewrite EN. f_equal. f_equal; [|f_equal; lra]. apply sumR_ext. intros j Hj. f_equal. f_equal. f_equal. ring. }
    assert (C0 : 0 <= c) by (unfold c; pose proof (pos_INR (n0 * i)); lra).
    assert (C1 : INR n0 + c <= e).
    { rewrite Ee. unfold c. assert (INR (n0 * i) + INR n0 <= INR (n0 * Nm)).
      { rewrite <- plus_INR. apply le_INR. rewrite <- Nat.mul_succ_r. apply Nat.mul_le_mono_l. lia. }
      lra. }
    apply (quad_rule (S n0) n0 w (fun j => INR j + c) 0 e); auto; try lra.
    - intros p Hp. rewrite (nc_block_exact (S n0)), EN by (auto; lia). reflexivity.
    - intros j Hj. assert (INR j <= INR n0) by (apply le_INR; lia). pose proof (pos_INR j). lra.
    - intros y Hy. apply Rabs_le. lra. }
  assert (Ch : RInt f 0 e = RInt f 0 (/ 2) + RInt f (/ 2) (INR (n0 * Nm) + / 2) + RInt f (e - / 2) e).
  { replace (INR (n0 * Nm) + / 2) with (e - / 2) by lra.
    rewrite <- (RInt_Chasles f 0 (/ 2) e) by apply X.
    rewrite <- (RInt_Chasles f (/ 2) (e - / 2) e) by apply X. unfold plus; simpl. ring. }
  rewrite Ch.
  match goal with |- Rabs (?a - ?b * ?fa + (?d - ?b * ?fb) + ?m - (?ia + ?im + ?ib)) <= _ =>
    replace (a - b * fa + (d - b * fb) + m - (ia + im + ib)) with ((a - ia) + (d - ib) + (m - im) + (- (b * fa) + - (b * fb))) by ring end.
  eapply Rle_trans; [apply Rabs_triang|]. eapply Rle_trans; [apply Rplus_le_compat; [apply Rabs_triang|apply Rabs_triang]|].
  eapply Rle_trans; [apply Rplus_le_compat_r, Rplus_le_compat_r, Rabs_triang|].
  rewrite !Rabs_Ropp, !Rabs_mult. lra.
Qed.

Lemma smooth_scal : forall n f h, smooth n f -> smooth n (fun t => f (h * t)).
Proof.
  intros n f h Sf k t Hk. apply ex_derive_n_comp_scal. apply filter_forall. intros y j Hj. apply Sf. lia.
Qed.
Lemma Derive_scal_n : forall n f h k t, smooth n f -> (k <= n)%nat ->
  Derive_n (fun s => f (h * s)) k t = h ^ k * Derive_n f k (h * t).
Proof.
  intros n f h k t Sf Hk. apply Derive_n_comp_scal. apply filter_forall. intros y j Hj. apply Sf. lia.
Qed.

(** Error of the composite rule with n = (N-1) Nm + 1 nodes on [0, len] for derivatives bounded by M. *)
Definition quad_error (N Nm : nat) (w sol1 : vec) (len M : R) : R :=
  let h := len / INR (nc_NP N Nm) in
  M * h ^ N * (len * block_const N w + 2 * h * end_const N sol1).

Lemma quad_const_nonneg : forall k n w x c len D, 0 <= len -> 0 <= D -> 0 <= quad_const k n w x c len D.
Proof.
  intros. unfold quad_const, Rdiv. apply Rmult_le_pos; [|apply Rlt_le, Rinv_0_lt_compat, INR_fact_lt_0].
  apply Rplus_le_le_0_compat; [|apply Rmult_le_pos; [auto|apply pow_le; auto]].
  apply sumR_nonneg. intros. apply Rmult_le_pos; [apply Rabs_pos|apply pow_le, Rabs_pos].
Qed.

Lemma node_error : forall N Nm w sol1 len f M, (2 <= N)%nat -> (2 * (N - 1) <= nc_NP N Nm)%nat -> 0 < len ->
  solves N nc_A (nc_b N) w -> solves N nc_A1 nc_b1 sol1 -> smooth N f ->
  (forall s, 0 <= s <= len -> Rabs (Derive_n f N s) <= M) ->
  let n := nc_NP N Nm in let h := len / INR n in
  Rabs (h * sumR n (fun i => nc_weights N Nm w sol1 i * f (node n len i)) - RInt f 0 len)
  <= quad_error N Nm w sol1 len M + h * Rabs (sol1 0%nat) * (Rabs (f 0) + Rabs (f len)).
Proof.
  intros N Nm w sol1 len f M HN Hd HL Hw Hs Sf HM n h.
  assert (n0 : 0 < INR n) by (apply lt_0_INR; unfold n, nc_NP; rewrite Nat.add_1_r; apply Nat.lt_0_succ).
  assert (h0 : 0 < h) by (apply Rdiv_lt_0_compat; auto).
  assert (hn : h * INR n = len) by (unfold h; field; lra).
  assert (M0 : 0 <= M) by (eapply Rle_trans; [apply Rabs_pos|apply (HM 0); lra]).
  pose proof (nc_error N Nm w sol1 (fun t => f (h * t)) (h ^ N * M) HN Hd Hw Hs (smooth_scal N f h Sf)) as E.
  fold n in E. cbv zeta in E.
  assert (B : forall s, 0 <= s <= INR n -> Rabs (Derive_n (fun t => f (h * t)) N s) <= h ^ N * M).
  { intros s Hs'. rewrite (Derive_scal_n N) by auto. rewrite Rabs_mult, (Rabs_right (h ^ N)) by (apply Rle_ge, pow_le; lra).
    apply Rmult_le_compat_l; [apply pow_le; lra|]. apply HM. split; [nra|]. rewrite <- hn. apply Rmult_le_compat_l; lra. }
  specialize (E B). cbv beta in E. rewrite Rmult_0_r, hn in E.
  assert (I : RInt (fun t => f (h * t)) 0 (INR n) = / h * RInt f 0 len).
  { assert (X : ex_RInt f (h * 0 + 0) (h * INR n + 0)) by (apply (smooth_ex_RInt N); auto; lia).
    pose proof (RInt_comp_lin f h 0 0 (INR n) X) as Q. rewrite Rmult_0_r, !Rplus_0_r, hn in Q. rewrite <- Q.
    rewrite <- (RInt_scal (fun y => scal h (f (h * y + 0)))).
    - apply RInt_ext. intros x _. unfold scal; simpl. unfold mult; simpl. rewrite Rplus_0_r. field. lra.
    - apply (ex_RInt_ext (fun y => h * f (h * y))); [intros; rewrite Rplus_0_r; reflexivity|].
      apply (ex_RInt_scal (fun y => f (h * y))). apply (smooth_ex_RInt N); [lia|apply smooth_scal; auto]. }
  rewrite I in E.
  rewrite (sumR_ext n _ (fun i => nc_weights N Nm w sol1 i * f (h * (INR i + / 2)))).
  2:{ intros i Hi. f_equal. f_equal. unfold node, h. field. lra. }
  set (Q := sumR n _) in *.
  replace (h * Q - RInt f 0 len) with (h * (Q - / h * RInt f 0 len)) by (field; lra).
  rewrite Rabs_mult, (Rabs_right h) by lra.
  eapply Rle_trans; [apply Rmult_le_compat_l; [lra|exact E]|].
  unfold quad_error. fold n h. rewrite Rmult_plus_distr_l. apply Rplus_le_compat; [|apply Req_le; ring].
  replace (h * (h ^ N * M * (INR Nm * block_const N w + 2 * end_const N sol1)))
    with (M * h ^ N * (h * INR Nm * block_const N w + 2 * h * end_const N sol1)) by ring.
  apply Rmult_le_compat_l; [apply Rmult_le_pos; [auto|apply pow_le; lra]|].
  apply Rplus_le_compat_r. apply Rmult_le_compat_r; [apply quad_const_nonneg; apply pos_INR|].
  rewrite <- hn. apply Rmult_le_compat_l; [lra|]. unfold n, nc_NP. apply le_INR.
  assert (1 * Nm <= (N - 1) * Nm)%nat by (apply Nat.mul_le_mono_r; lia). lia.
Qed.

(** Sum of the sizes of the weights. *)
Lemma weights_abs : forall N Nm w sol1, (2 <= N)%nat -> (2 * (N - 1) <= nc_NP N Nm)%nat ->
  sumR (nc_NP N Nm) (fun i => Rabs (nc_weights N Nm w sol1 i))
  <= INR Nm * sumR N (fun j => Rabs (w j)) + 2 * sumR (N - 1) (fun j => Rabs (nc_w1 sol1 j)).
Proof.
  intros N Nm w sol1 HN Hd.
  apply Rle_trans with (sumR (nc_NP N Nm) (fun t => nc_loop N (fun j => Rabs (w j)) Nm (nc_ends N Nm (fun j => Rabs (nc_w1 sol1 j))) t * 1)).
  - apply sumR_le. intros t Ht. rewrite Rmult_1_r. unfold nc_weights. rewrite !nc_loop_val.
    eapply Rle_trans; [apply Rabs_triang|]. apply Rplus_le_compat.
    + unfold nc_ends. repeat match goal with |- context [if ?c then _ else _] => destruct c end; try lra; rewrite Rabs_R0; lra.
    + eapply Rle_trans; [apply sumR_abs_le|]. apply sumR_le. intros i Hi.
      destruct ((_ <=? t)%nat && _)%bool; [lra|rewrite Rabs_R0; lra].
  - rewrite (nc_loop_sum N _ Nm _ (fun _ => 1)) by (auto; unfold nc_NP; lia).
    rewrite (nc_ends_sum N Nm _ (fun _ => 1)) by auto.
    rewrite (sumR_ext (N - 1) _ (fun j => Rabs (nc_w1 sol1 j))) by (intros; ring).
    rewrite (sumR_ext Nm _ (fun _ => sumR N (fun j => Rabs (w j)))) by (intros; apply sumR_ext; intros; ring).
    rewrite sumR_const. lra.
Qed.

(** * Two dimensions *)
Definition cont2 (G : R -> R -> R) : Prop := forall x y, continuity_2d_pt G x y.

Lemma cont2_line : forall G t m, cont2 G -> continuous (fun m => G t m) m.
Proof.
  intros G t m H. apply continuity_pt_filterlim. intros e He. destruct (H t m (mkposreal e He)) as [d Hd].
  exists d. split; [apply cond_pos|]. intros y [_ Hy]. apply (Hd t y); [rewrite Rminus_diag_eq, Rabs_R0 by auto; apply cond_pos|exact Hy].
Qed.

Lemma cont2_param : forall G A B t, A <= B -> cont2 G -> continuous (fun t => RInt (fun m => G t m) A B) t.
Proof.
  intros G A B t HAB H. apply continuity_pt_filterlim. intros e He.
  assert (X : forall s, ex_RInt (fun m => G s m) A B).
  { intros s. apply (@ex_RInt_continuous R_CompleteNormedModule). intros z _. apply cont2_line, H. }
  assert (e1 : 0 < e / (2 * (B - A + 1))) by (apply Rdiv_lt_0_compat; lra).
  destruct (uniform_continuity_2d G (t - 1) (t + 1) A B (fun x y _ _ => H x y) (mkposreal _ e1)) as [d Hd]. simpl in Hd.
  exists (Rmin d 1). split; [apply Rmin_pos; [apply cond_pos|lra]|].
  intros s [_ Hs]. unfold dist in *; simpl in *. unfold R_dist in *.
  assert (Q : RInt (fun m => G s m) A B - RInt (fun m => G t m) A B = RInt (fun m => G s m - G t m) A B).
  { symmetry. apply (RInt_minus (fun m => G s m) (fun m => G t m)); apply X. }
  rewrite Q. pose proof (Rmin_l d 1). pose proof (Rmin_r d 1).
  assert (s1 : t - 1 <= s <= t + 1) by (assert (Rabs (s - t) < 1) by lra; apply Rabs_lt_between in H2; lra).
  apply Rle_lt_trans with ((B - A) * (e / (2 * (B - A + 1)))).
  - apply abs_RInt_le_const; [auto|apply (ex_RInt_minus (fun m => G s m) (fun m => G t m)); apply X|].
    intros m Hm. left. apply Hd; auto; try lra. rewrite Rminus_diag_eq, Rabs_R0 by auto. apply cond_pos.
  - apply Rmult_lt_reg_r with (2 * (B - A + 1)); [lra|]. replace ((B - A) * (e / (2 * (B - A + 1))) * (2 * (B - A + 1))) with ((B - A) * e) by (field; lra). nra.
Qed.

Lemma RInt_sumR : forall n (c : vec) (f : nat -> R -> R) A B, (forall i, (i < n)%nat -> ex_RInt (f i) A B) ->
  ex_RInt (fun t => sumR n (fun i => c i * f i t)) A B /\
  RInt (fun t => sumR n (fun i => c i * f i t)) A B = sumR n (fun i => c i * RInt (f i) A B).
Proof.
  induction n; intros c f A B H; simpl.
  - split; [apply ex_RInt_const|]. rewrite RInt_const. unfold scal; simpl. unfold mult; simpl. ring.
  - destruct (IHn c f A B (fun i Hi => H i ltac:(lia))) as [X E].
    assert (Y : ex_RInt (fun t => c n * f n t) A B) by (apply (ex_RInt_scal (f n)), H; lia).
    assert (Z : RInt (fun t => c n * f n t) A B = c n * RInt (f n) A B) by (apply (RInt_scal (f n)), H; lia).
    first [split; [apply (ex_RInt_plus (fun t => sumR n (fun i => c i * f i t)) (fun t => c n * f n t)); auto|];
           rewrite (RInt_plus (fun t => sumR n (fun i => c i * f i t)) (fun t => c n * f n t)) by auto; rewrite E, Z; reflexivity].
Qed.

(** Volume element of prolate spheroidal coordinates. *)
Definition vol (a t m : R) : R := a ^ 3 * sin t * sinh m * (sin t ^ 2 + sinh m ^ 2).
(** Integral over the cylinder-symmetric volume, 2 pi from the angle around the axis. *)
Definition volume_integral (a L : R) (F : R -> R -> R) : R :=
  2 * PI * RInt (fun t => RInt (fun m => vol a t m * F t m) 0 L) 0 PI.
(** Sum of weight sizes, with the step. *)
Definition weight_sum (g : grid) : R :=
  let N := gNP g in let hr := gL g / INR (Nr g) in
  gL g * sumR N (fun j => Rabs (ls_nc g j)) + 2 * hr * sumR (N - 1) (fun j => Rabs (nc_w1 (ls_nc1 g) j)).
(** Error of the volume integral: N-th order in both steps, plus what the integrand leaves on the outer boundary. *)
Definition volume_error (g : grid) (Ma Mr Mo : R) : R :=
  let N := gNP g in
  2 * PI * (weight_sum g * quad_error N (gNMa g) (ls_nc g) (ls_nc1 g) PI Ma
    + PI * (quad_error N (gNMr g) (ls_nc g) (ls_nc1 g) (gL g) Mr + gL g / INR (Nr g) * Rabs (ls_nc1 g 0%nat) * Mo)).

Lemma integrate_error : forall g F f Ma Mr Mo, grid_ok g -> lstsq_ok g -> gNMa g = gNMr g -> (2 <= gNMa g)%nat ->
  let G := fun t m => vol (ga g) t m * F t m in
  sampled g F f -> cont2 G ->
  (forall m, smooth (gNP g) (fun t => G t m)) -> (forall t, smooth (gNP g) (fun m => G t m)) ->
  (forall t m, 0 <= t <= PI -> 0 <= m <= gL g ->
     Rabs (Derive_n (fun t => G t m) (gNP g) t) <= Ma /\ Rabs (Derive_n (fun m => G t m) (gNP g) m) <= Mr) ->
  (forall t, 0 <= t <= PI -> Rabs (G t (gL g)) <= Mo) ->
  Rabs (integrate1 g f - volume_integral (ga g) (gL g) F) <= volume_error g Ma Mr Mo.
Proof.
  intros g F f Ma Mr Mo Hok Hls Hb H2 G Hf HG St Sm HM Ho.
  assert (HN : (2 <= gNP g)%nat) by apply Hok.
  destruct Hok as (_ & _ & _ & Ha & HL). destruct Hls as (Hw & Hs & _).
  pose proof (nc_NP_ge (gNP g) (gNMa g) HN H2) as HdA. assert (HdR := HdA). rewrite Hb in HdR.
  assert (PP := PI_RGT_0).
  rewrite integrate1_ideal by auto. unfold ideal_integral, volume_integral, volume_error.
  change (Na g) with (nc_NP (gNP g) (gNMa g)). change (Nr g) with (nc_NP (gNP g) (gNMr g)).
  set (ha := PI / INR (nc_NP (gNP g) (gNMa g))). set (hr := gL g / INR (nc_NP (gNP g) (gNMr g))).
  set (EA := quad_error (gNP g) (gNMa g) (ls_nc g) (ls_nc1 g) PI Ma).
  set (ER := quad_error (gNP g) (gNMr g) (ls_nc g) (ls_nc1 g) (gL g) Mr + hr * Rabs (ls_nc1 g 0%nat) * Mo).
  assert (ha0 : 0 < ha) by (apply Rdiv_lt_0_compat; [auto|apply lt_0_INR, (Na_pos g)]).
  assert (hr0 : 0 < hr) by (apply Rdiv_lt_0_compat; [auto|apply lt_0_INR, (Nr_pos g)]).
  set (tn := node (nc_NP (gNP g) (gNMa g)) PI). set (mn := node (nc_NP (gNP g) (gNMr g)) (gL g)).
  assert (mnr : forall i, (i < nc_NP (gNP g) (gNMr g))%nat -> 0 <= mn i <= gL g).
  { intros i Hi. unfold mn, node. pose proof (pos_INR i).
    assert (INR i + 1 <= INR (nc_NP (gNP g) (gNMr g))) by (rewrite <- S_INR; apply le_INR; lia).
    split; [apply Rdiv_le_0_compat; nra|]. apply Rmult_le_reg_r with (INR (nc_NP (gNP g) (gNMr g))); [lra|].
    unfold Rdiv. rewrite Rmult_assoc, Rinv_l by lra. nra. }
  (* the sum *)
  rewrite (sumR_ext (nc_NP (gNP g) (gNMr g)) _ (fun ir => wr g ir * sumR (nc_NP (gNP g) (gNMa g)) (fun ia => wa g ia * G (tn ia) (mn ir)))).
  2:{ intros ir Hr. rewrite <- sumR_scal. apply sumR_ext. intros ia Hia.
      assert (Hp : is_point g ia ir) by (split; auto).
      rewrite (Hf ia ir Hp). rewrite gw_val, !Xa_pos, !Xr_pos, xa_node, xr_node by (auto; apply pos_lt, Hp).
      unfold G, vol. change (tn ia) with (node (Na g) PI ia). change (mn ir) with (node (Nr g) (gL g) ir). ring. }
  set (nR := nc_NP (gNP g) (gNMr g)) in *. set (nA := nc_NP (gNP g) (gNMa g)) in *.
  (* angular *)
  assert (EAb : forall i, (i < nR)%nat -> Rabs (ha * sumR nA (fun ia => wa g ia * G (tn ia) (mn i)) - RInt (fun t => G t (mn i)) 0 PI) <= EA).
  { intros i Hi.
    pose proof (node_error (gNP g) (gNMa g) (ls_nc g) (ls_nc1 g) PI (fun t => G t (mn i)) Ma HN HdA PP Hw Hs (St _)) as E.
    eapply Rle_trans; [apply E; intros s Hs'; apply (HM s (mn i) Hs' (mnr i Hi))|].
    unfold G, vol. rewrite sin_0, sin_PI, !Rmult_0_r, !Rmult_0_l, Rabs_R0. fold EA. lra. }
  (* radial *)
  assert (ERb : forall t, 0 <= t <= PI -> Rabs (hr * sumR nR (fun i => wr g i * G t (mn i)) - RInt (fun m => G t m) 0 (gL g)) <= ER).
  { intros t Ht.
    pose proof (node_error (gNP g) (gNMr g) (ls_nc g) (ls_nc1 g) (gL g) (fun m => G t m) Mr HN HdR HL Hw Hs (Sm _)) as E.
    eapply Rle_trans; [apply E; intros s Hs'; apply (HM t s Ht Hs')|].
    unfold ER. apply Rplus_le_compat_l. fold nR hr. apply Rmult_le_compat_l; [apply Rmult_le_pos; [lra|apply Rabs_pos]|].
    replace (G t 0) with 0 by (unfold G, vol; rewrite sinh_0; ring). rewrite Rabs_R0, Rplus_0_l. apply Ho, Ht. }
  destruct (RInt_sumR nR (fun i => hr * wr g i) (fun i t => G t (mn i)) 0 PI) as [X1 I1].
  { intros i Hi. apply (smooth_ex_RInt (gNP g)); [lia|apply St]. }
  assert (X2 : ex_RInt (fun t => RInt (fun m => G t m) 0 (gL g)) 0 PI).
  { apply (@ex_RInt_continuous R_CompleteNormedModule). intros z _. apply cont2_param; [lra|exact HG]. }
  assert (D2 : Rabs (sumR nR (fun i => hr * wr g i * RInt (fun t => G t (mn i)) 0 PI) - RInt (fun t => RInt (fun m => G t m) 0 (gL g)) 0 PI) <= PI * ER).
  { rewrite <- I1.
    assert (Q : RInt (fun t => sumR nR (fun i => hr * wr g i * G t (mn i)) - RInt (fun m => G t m) 0 (gL g)) 0 PI
      = RInt (fun t => sumR nR (fun i => hr * wr g i * G t (mn i))) 0 PI - RInt (fun t => RInt (fun m => G t m) 0 (gL g)) 0 PI).
    { apply (RInt_minus (fun t => sumR nR (fun i => hr * wr g i * G t (mn i))) (fun t => RInt (fun m => G t m) 0 (gL g))); auto. }
    rewrite <- Q. replace PI with (PI - 0) at 2 by ring. apply abs_RInt_le_const; [lra| |].
    - apply (ex_RInt_minus (fun t => sumR nR (fun i => hr * wr g i * G t (mn i))) (fun t => RInt (fun m => G t m) 0 (gL g))); auto.
    - intros t Ht. eapply Rle_trans; [|apply (ERb t Ht)]. apply Req_le. f_equal. f_equal. rewrite <- sumR_scal. apply sumR_ext. intros; ring. }
  assert (D1 : Rabs (sumR nR (fun i => hr * wr g i * (ha * sumR nA (fun ia => wa g ia * G (tn ia) (mn i))))
                     - sumR nR (fun i => hr * wr g i * RInt (fun t => G t (mn i)) 0 PI)) <= weight_sum g * EA).
  { rewrite <- sumR_minus. eapply Rle_trans; [apply sumR_abs_le|].
    assert (EA0 : 0 <= EA) by (eapply Rle_trans; [apply Rabs_pos|apply (EAb 0%nat), (Nr_pos g)]).
    apply Rle_trans with (sumR nR (fun i => hr * Rabs (wr g i) * EA)).
    - apply sumR_le. intros i Hi. rewrite <- Rmult_minus_distr_l, !Rabs_mult, (Rabs_right hr) by lra.
      apply Rmult_le_compat_l; [apply Rmult_le_pos; [lra|apply Rabs_pos]|apply EAb, Hi].
    - rewrite sumR_scal_r. apply Rmult_le_compat_r; [exact EA0|]. rewrite sumR_scal.
      eapply Rle_trans; [apply Rmult_le_compat_l; [lra|apply (weights_abs (gNP g) (gNMr g) (ls_nc g) (ls_nc1 g) HN HdR)]|].
      unfold weight_sum. change (Nr g) with nR. fold hr. rewrite Rmult_plus_distr_l. apply Rplus_le_compat; [|apply Req_le; ring].
      rewrite <- Rmult_assoc. apply Rmult_le_compat_r; [apply sumR_nonneg; intros; apply Rabs_pos|].
      assert (nR0 : 0 < INR nR) by (apply lt_0_INR, (Nr_pos g)).
      replace (gL g) with (hr * INR nR) by (unfold hr; field; lra). apply Rmult_le_compat_l; [lra|].
      unfold nR, nc_NP. apply le_INR. assert (1 * gNMr g <= (gNP g - 1) * gNMr g)%nat by (apply Nat.mul_le_mono_r; lia). lia. }
  replace (2 * PI * hr * ha * sumR nR (fun ir => wr g ir * sumR nA (fun ia => wa g ia * G (tn ia) (mn ir))))
    with (2 * PI * sumR nR (fun i => hr * wr g i * (ha * sumR nA (fun ia => wa g ia * G (tn ia) (mn i))))).
  2:{ rewrite !Rmult_assoc. f_equal. f_equal. rewrite <- !sumR_scal. apply sumR_ext. intros; ring. }
  rewrite <- Rmult_minus_distr_l, Rabs_mult, (Rabs_right (2 * PI)) by lra. apply Rmult_le_compat_l; [lra|].
  change (RInt (fun t => RInt (fun m => vol (ga g) t m * F t m) 0 (gL g)) 0 PI) with (RInt (fun t => RInt (fun m => G t m) 0 (gL g)) 0 PI).
  set (s1 := sumR nR (fun i => hr * wr g i * (ha * _))) in *. set (s2 := sumR nR (fun i => hr * wr g i * RInt _ _ _)) in *.
  set (s3 := RInt (fun t => RInt (fun m => G t m) 0 (gL g)) 0 PI) in *.
  replace (s1 - s3) with ((s1 - s2) + (s2 - s3)) by ring. eapply Rle_trans; [apply Rabs_triang|]. lra.
Qed.
