(** Quadrature weights (CADMium/common/NC.py). *)
From Coq Require Import Reals List Arith Lia Lra ZArith Bool.
From Coquelicot Require Import Coquelicot.
From Verif Require Import Base BaseLemmas GridModel Poly GridSpec.
Import ListNotations.
Local Open Scope R_scope.

Lemma sum_window : forall n lo N (a w F : vec), (lo + N <= n)%nat ->
  sumR n (fun t => (if (lo <=? t)%nat && (t <? lo + N)%nat then a t + w (t - lo)%nat else a t) * F t)
  = sumR n (fun t => a t * F t) + sumR N (fun j => w j * F (lo + j)%nat).
Proof.
  intros n lo N a w F H.
  rewrite (sumR_ext n _ (fun t => a t * F t +
     (if (lo <=? t)%nat && (t <? lo + N)%nat then w (t - lo)%nat * F t else 0))).
  2:{ intros. destruct ((lo <=? i)%nat && (i <? lo + N)%nat); ring. }
  rewrite sumR_plus. f_equal.
  replace n with (lo + (N + (n - lo - N)))%nat by lia.
  rewrite sumR_app, sumR_app.
  rewrite (sumR_zero lo).
  2:{ intros. destruct (Nat.leb_spec lo i); [lia|reflexivity]. }
  rewrite (sumR_zero (n - lo - N)).
  2:{ intros. destruct (Nat.leb_spec lo (lo + (N + i))); [|lia].
      destruct (Nat.ltb_spec (lo + (N + i)) (lo + N)); [lia|reflexivity]. }
  rewrite Rplus_0_l, Rplus_0_r. apply sumR_ext. intros j Hj.
  destruct (Nat.leb_spec lo (lo + j)); [|lia].
  destruct (Nat.ltb_spec (lo + j) (lo + N)); [|lia]. simpl.
  replace (lo + j - lo)%nat with j by lia. reflexivity.
Qed.

Lemma nc_loop_sum : forall N w k wi F n, (2 <= N)%nat -> ((N - 1) * k + 1 <= n)%nat ->
  sumR n (fun t => nc_loop N w k wi t * F t)
  = sumR n (fun t => wi t * F t)
    + sumR k (fun i => sumR N (fun j => w j * F ((N - 1) * i + j)%nat)).
Proof.
  induction k; intros wi F n HN Hn; simpl.
  - lra.
  - rewrite Nat.mul_succ_r in Hn.
    rewrite sum_window by lia. rewrite IHk by lia. lra.
Qed.

Lemma nc_NP_ge : forall N Nm, (2 <= N)%nat -> (2 <= Nm)%nat -> (2 * (N - 1) <= nc_NP N Nm)%nat.
Proof.
  intros. unfold nc_NP.
  assert ((N - 1) * 2 <= (N - 1) * Nm)%nat by (apply Nat.mul_le_mono_l; auto). lia.
Qed.

Lemma nc_ends_sum : forall N Nm w1 F, (2 <= N)%nat -> (2 * (N - 1) <= nc_NP N Nm)%nat ->
  sumR (nc_NP N Nm) (fun t => nc_ends N Nm w1 t * F t)
  = sumR (N - 1) (fun j => w1 j * F j) + sumR (N - 1) (fun j => w1 j * F (nc_NP N Nm - 1 - j)%nat).
Proof.
  intros N Nm w1 F HN H. set (n := nc_NP N Nm) in *.
  rewrite (sumR_ext n _ (fun t => (if (n - (N - 1) <=? t)%nat && (t <? n - (N - 1) + (N - 1))%nat
      then (if (t <? N - 1)%nat then w1 t else 0) + w1 (N - 1 - 1 - (t - (n - (N - 1))))%nat
      else (if (t <? N - 1)%nat then w1 t else 0)) * F t)).
  2:{ intros t Ht. unfold nc_ends. fold n. f_equal.
      replace (n - (N - 1) + (N - 1))%nat with n by lia.
      destruct (Nat.leb_spec (n - (N - 1)) t); destruct (Nat.ltb_spec t n); simpl; try reflexivity.
      destruct (Nat.ltb_spec t (N - 1)); [lia|lra]. }
  rewrite (sum_window n (n - (N - 1)) (N - 1) (fun t => if (t <? N - 1)%nat then w1 t else 0)
             (fun t => w1 (N - 1 - 1 - t)%nat) F) by lia.
  f_equal.
  - replace n with ((N - 1) + (n - (N - 1)))%nat by lia. rewrite sumR_app.
    rewrite (sumR_zero (n - (N - 1))).
    2:{ intros. destruct (Nat.ltb_spec (N - 1 + i) (N - 1)); [lia|ring]. }
    rewrite Rplus_0_r. apply sumR_ext. intros. destruct (Nat.ltb_spec i (N - 1)); [ring|lia].
  - rewrite <- (sumR_rev (N - 1) (fun j => w1 j * F (n - 1 - j)%nat)). apply sumR_ext.
    intros j Hj. f_equal. f_equal. lia.
Qed.

Lemma nc_block_exact : forall N w, (1 <= N)%nat -> solves N nc_A (nc_b N) w ->
  forall p c, (length p <= N)%nat ->
  sumR N (fun j => w j * peval p (INR j + c)) = RInt (peval p) c (INR (N - 1) + c).
Proof.
  intros N w HN Hs p c Hl.
  set (q := pcomp p 1 c).
  assert (Hq : (length q <= N)%nat) by (pose proof (length_pcomp p 1 c); unfold q; lia).
  assert (Eq : forall x, peval q x = peval p (x + c)).
  { intros. unfold q. rewrite peval_pcomp. f_equal. ring. }
  rewrite (sumR_ext N _ (fun j => w j * peval q (nc_x j))) by (intros; rewrite Eq; reflexivity).
  rewrite (moments_poly N w nc_x (nc_b N) Hs q Hq).
  assert (E : RInt (peval p) c (INR (N - 1) + c) = RInt (peval q) 0 (INR (N - 1))).
  { assert (X : ex_RInt (peval p) (1 * 0 + c) (1 * INR (N - 1) + c))
      by (eexists; apply (RInt_peval N); auto).
    pose proof (RInt_comp_lin (peval p) 1 c 0 (INR (N - 1)) X) as E0.
    replace (1 * 0 + c) with c in E0 by ring.
    replace (1 * INR (N - 1) + c) with (INR (N - 1) + c) in E0 by ring.
    rewrite <- E0. apply RInt_ext. intros. rewrite Eq. unfold scal; simpl. unfold mult; simpl.
    rewrite !Rmult_1_l. reflexivity. }
  rewrite E. rewrite (is_RInt_unique _ _ _ _ (RInt_peval N q 0 (INR (N - 1)) Hq)).
  unfold pint. rewrite (sumR_zero N (fun k => nth k q 0 * (0 ^ (k + 1) / (INR k + 1)))).
  2:{ intros. rewrite Nat.add_1_r. simpl. lra. }
  rewrite Rminus_0_r. apply sumR_ext. intros k Hk. unfold nc_b. f_equal. unfold Rdiv. ring.
Qed.

Lemma nc_end_exact : forall N sol1, (2 <= N)%nat -> solves N nc_A1 nc_b1 sol1 ->
  forall p, (length p <= N)%nat -> peval p 0 = 0 ->
  sumR (N - 1) (fun j => nc_w1 sol1 j * peval p (INR j + / 2)) = RInt (peval p) 0 (/ 2).
Proof.
  intros N sol1 HN Hs p Hl H0.
  pose proof (moments_poly N sol1 nc_x1 nc_b1 Hs p Hl) as E.
  replace N with (S (N - 1)) in E at 1 by lia. rewrite sumR_first in E.
  assert (X0 : nc_x1 0 = 0) by reflexivity.
  rewrite X0, H0, Rmult_0_r, Rplus_0_l in E.
  rewrite (sumR_ext (N - 1) _ (fun i => sol1 (S i) * peval p (nc_x1 (S i)))).
  2:{ intros. unfold nc_w1. rewrite Nat.add_1_r. f_equal. f_equal. unfold nc_x1.
      cbn [Nat.eqb]. rewrite S_INR. lra. }
  rewrite E. rewrite (is_RInt_unique _ _ _ _ (RInt_peval N p 0 (/ 2) Hl)).
  unfold pint. rewrite (sumR_zero N (fun k => nth k p 0 * (0 ^ (k + 1) / (INR k + 1)))).
  2:{ intros. rewrite Nat.add_1_r. simpl. lra. }
  rewrite Rminus_0_r. apply sumR_ext. intros k Hk. unfold nc_b1. f_equal. unfold Rdiv. ring.
Qed.

Lemma nc_end_exact_right : forall N sol1, (2 <= N)%nat -> solves N nc_A1 nc_b1 sol1 ->
  forall p e, (length p <= N)%nat -> peval p e = 0 ->
  sumR (N - 1) (fun j => nc_w1 sol1 j * peval p (e - INR j - / 2)) = RInt (peval p) (e - / 2) e.
Proof.
  intros N sol1 HN Hs p e Hl H0.
  set (q := pcomp p (-1) e).
  assert (Hq : (length q <= N)%nat) by (pose proof (length_pcomp p (-1) e); unfold q; lia).
  assert (Eq : forall x, peval q x = peval p (-1 * x + e)) by (intros; apply peval_pcomp).
  rewrite (sumR_ext (N - 1) _ (fun j => nc_w1 sol1 j * peval q (INR j + / 2))).
  2:{ intros. rewrite Eq. f_equal. f_equal. ring. }
  rewrite (nc_end_exact N sol1 HN Hs q Hq).
  2:{ rewrite Eq. rewrite Rmult_0_r, Rplus_0_l. auto. }
  assert (E : RInt (fun y => scal (-1) (peval p (-1 * y + e))) 0 (/ 2) = RInt (peval p) e (e - / 2)).
  { assert (X0 : ex_RInt (peval p) (-1 * 0 + e) (-1 * / 2 + e))
      by (eexists; apply (RInt_peval N); auto).
    pose proof (RInt_comp_lin (peval p) (-1) e 0 (/ 2) X0) as E0.
    replace (-1 * 0 + e) with e in E0 by ring.
    replace (-1 * / 2 + e) with (e - / 2) in E0 by ring. exact E0. }
  assert (X : ex_RInt (peval p) (e - / 2) e) by (eexists; apply (RInt_peval N); auto).
  assert (X' : ex_RInt (peval q) 0 (/ 2)) by (eexists; apply (RInt_peval N); auto).
  rewrite <- (opp_RInt_swap (peval p) (e - / 2) e X) in E.
  pose proof (RInt_scal (peval q) 0 (/ 2) (-1) X') as E3.
  assert (E4 : RInt (fun y => scal (-1) (peval p (-1 * y + e))) 0 (/ 2)
             = scal (-1) (RInt (peval q) 0 (/ 2))).
  { etransitivity; [|exact E3]. apply RInt_ext. intros. rewrite Eq. reflexivity. }
  rewrite E4 in E.
  unfold scal, opp in E; simpl in E. unfold mult in E; simpl in E. lra.
Qed.

Lemma nc_sum_blocks : forall N Nm p c, (2 <= N)%nat ->
  sumR Nm (fun i => RInt (peval p) (INR ((N - 1) * i) + c) (INR ((N - 1) * S i) + c))
  = RInt (peval p) c (INR ((N - 1) * Nm) + c).
Proof.
  intros N Nm p c HN. induction Nm.
  - simpl. rewrite Nat.mul_0_r. simpl. rewrite Rplus_0_l, RInt_point. reflexivity.
  - simpl sumR. rewrite IHNm.
    assert (X : forall a b, ex_RInt (peval p) a b) by (intros; eexists; apply (RInt_peval (length p)); auto).
    apply (RInt_Chasles (peval p)); apply X.
Qed.

Theorem nc_exact : forall N Nm w sol1, (2 <= N)%nat -> (2 * (N - 1) <= nc_NP N Nm)%nat ->
  solves N nc_A (nc_b N) w -> solves N nc_A1 nc_b1 sol1 ->
  forall p, (length p <= N)%nat -> peval p 0 = 0 -> peval p (INR (nc_NP N Nm)) = 0 ->
  sumR (nc_NP N Nm) (fun t => nc_weights N Nm w sol1 t * peval p (INR t + / 2))
  = RInt (peval p) 0 (INR (nc_NP N Nm)).
Proof.
  intros N Nm w sol1 HN Hd Hw Hs p Hl H0 He.
  unfold nc_weights.
  rewrite (nc_loop_sum N w Nm _ (fun t => peval p (INR t + / 2))) by (auto; unfold nc_NP; lia).
  rewrite (nc_ends_sum N Nm _ (fun t => peval p (INR t + / 2))) by auto.
  rewrite (nc_end_exact N sol1) by auto.
  rewrite (sumR_ext (N - 1) (fun j => _ * peval p (INR (nc_NP N Nm - 1 - j) + / 2))
             (fun j => nc_w1 sol1 j * peval p (INR (nc_NP N Nm) - INR j - / 2))).
  2:{ intros j Hj. f_equal. f_equal. rewrite !minus_INR by lia. simpl INR. lra. }
  rewrite (nc_end_exact_right N sol1) by auto.
  rewrite (sumR_ext Nm _ (fun i => RInt (peval p) (INR ((N - 1) * i) + / 2) (INR ((N - 1) * S i) + / 2))).
  2:{ intros i Hi.
      rewrite (sumR_ext N _ (fun j => w j * peval p (INR j + (INR ((N - 1) * i) + / 2)))).
      2:{ intros j Hj. f_equal. f_equal. rewrite plus_INR. ring. }
      rewrite (nc_block_exact N w) by (auto; lia). f_equal.
      rewrite Nat.mul_succ_r, plus_INR. ring. }
  rewrite nc_sum_blocks by auto.
  replace (INR ((N - 1) * Nm) + / 2) with (INR (nc_NP N Nm) - / 2).
  2:{ unfold nc_NP. rewrite plus_INR. simpl INR. lra. }
  assert (X : forall a b, ex_RInt (peval p) a b) by (intros; eexists; apply (RInt_peval (length p)); auto).
  rewrite <- (RInt_Chasles (peval p) 0 (/ 2) (INR (nc_NP N Nm))) by apply X.
  rewrite <- (RInt_Chasles (peval p) (/ 2) (INR (nc_NP N Nm) - / 2) (INR (nc_NP N Nm))) by apply X.
  unfold plus; simpl. ring.
Qed.

(** Palindromes *)
Lemma nc_x_distinct : forall N, distinct N nc_x.
Proof. intros N i j Hi Hj Hij E. apply Hij. apply INR_eq. exact E. Qed.
Lemma nc_x1_distinct : forall N, distinct N nc_x1.
Proof.
  intros N i j Hi Hj Hij E. unfold nc_x1 in E.
  destruct (Nat.eqb_spec i 0); destruct (Nat.eqb_spec j 0); subst; try lia.
  - assert (1 <= INR j) by (apply (le_INR 1); lia). simpl in E. lra.
  - assert (1 <= INR i) by (apply (le_INR 1); lia). simpl in E. lra.
  - apply Hij. apply INR_eq. lra.
Qed.

Lemma nc_w_palin : forall N w, (1 <= N)%nat -> solves N nc_A (nc_b N) w ->
  forall j, (j < N)%nat -> w (N - 1 - j)%nat = w j.
Proof.
  intros N w HN Hs j Hj. symmetry.
  apply (vander_unique N w (fun i => w (N - 1 - i)%nat) nc_x (nc_b N) (nc_x_distinct N)); auto.
  intros p Hp.
  rewrite <- (sumR_rev N).
  rewrite (sumR_ext N _ (fun i => w i * peval (pcomp (pmono p) (-1) (INR (N - 1))) (INR i + 0))).
  2:{ intros i Hi. replace (N - 1 - (N - 1 - i))%nat with i by lia.
      rewrite peval_pcomp, peval_pmono. unfold nc_x. rewrite minus_INR by lia.
      rewrite Rmult_comm. f_equal. f_equal. ring. }
  assert (HL : (length (pcomp (pmono p) (-1) (INR (N - 1))) <= N)%nat).
  { pose proof (length_pcomp (pmono p) (-1) (INR (N - 1))). rewrite length_pmono in H. lia. }
  rewrite (nc_block_exact N w HN Hs _ 0 HL).
  (* integral of (N-1-x)^p *)
  apply is_RInt_unique. rewrite Rplus_0_r.
  set (M := INR (N - 1)).
  apply (is_RInt_ext (fun x => (M - x) ^ p)).
  { intros. rewrite peval_pcomp, peval_pmono. f_equal. ring. }
  replace (nc_b N p) with ((- (M - M) ^ (p + 1) / (INR p + 1)) - (- (M - 0) ^ (p + 1) / (INR p + 1))).
  2:{ unfold nc_b. fold M. rewrite Rminus_0_r. replace (M - M) with 0 by ring.
      rewrite (Nat.add_1_r p). simpl. pose proof (pos_INR p). field. lra. }
  apply (is_RInt_derive (fun x => - (M - x) ^ (p + 1) / (INR p + 1))).
  - intros. pose proof (pos_INR p). auto_derive; auto.
    replace (p + 1)%nat with (S p) by lia. rewrite S_INR. simpl pred. unfold Rminus. field. lra.
  - intros. apply (ex_derive_continuous (fun y => (M - y) ^ p)). auto_derive. auto.
Qed.

Lemma nc_loop_val : forall N w k wi t,
  nc_loop N w k wi t = wi t + sumR k (fun i =>
    if ((N - 1) * i <=? t)%nat && (t <? (N - 1) * i + N)%nat then w (t - (N - 1) * i)%nat else 0).
Proof.
  induction k; intros; cbn [nc_loop sumR]; [lra|].
  destruct (((N - 1) * k <=? t)%nat && (t <? (N - 1) * k + N)%nat); rewrite IHk; lra.
Qed.

Theorem nc_palin : forall N Nm w sol1, (2 <= N)%nat -> (2 * (N - 1) <= nc_NP N Nm)%nat ->
  solves N nc_A (nc_b N) w ->
  forall t, (t < nc_NP N Nm)%nat ->
  nc_weights N Nm w sol1 (nc_NP N Nm - 1 - t)%nat = nc_weights N Nm w sol1 t.
Proof.
  intros N Nm w sol1 HN Hd Hw t Ht. unfold nc_weights. rewrite !nc_loop_val. f_equal.
  - unfold nc_ends.
    destruct (Nat.leb_spec (nc_NP N Nm - (N - 1)) (nc_NP N Nm - 1 - t));
    destruct (Nat.leb_spec (nc_NP N Nm - (N - 1)) t);
    destruct (Nat.ltb_spec (nc_NP N Nm - 1 - t) (nc_NP N Nm));
    destruct (Nat.ltb_spec t (nc_NP N Nm));
    destruct (Nat.ltb_spec (nc_NP N Nm - 1 - t) (N - 1));
    destruct (Nat.ltb_spec t (N - 1)); cbn [andb]; try lia; try reflexivity; f_equal; lia.
  - rewrite <- (sumR_rev Nm). apply sumR_ext. intros i Hi.
    unfold nc_NP in *.
    assert (E : ((N - 1) * Nm = (N - 1) * (Nm - 1 - i) + (N - 1) * i + (N - 1))%nat).
    { replace Nm with ((Nm - 1 - i) + i + 1)%nat at 1 by lia. ring. }
    set (u := ((N - 1) * (Nm - 1 - i))%nat) in *. set (v := ((N - 1) * i)%nat) in *.
    set (m := ((N - 1) * Nm)%nat) in *.
    destruct (Nat.leb_spec u (m + 1 - 1 - t)); destruct (Nat.leb_spec v t);
    destruct (Nat.ltb_spec (m + 1 - 1 - t) (u + N)); destruct (Nat.ltb_spec t (v + N));
    cbn [andb]; try lia; try reflexivity.
    rewrite <- (nc_w_palin N w) by (auto; lia). f_equal. lia.
Qed.

(** Existence and uniqueness of the lstsq results used by NC. *)
Lemma nc_exists : forall N, exists w sol1,
  solves N nc_A (nc_b N) w /\ solves N nc_A1 nc_b1 sol1.
Proof.
  intros N. exists (vander_sol N nc_x (nc_b N)), (vander_sol N nc_x1 nc_b1).
  split; intros p Hp; apply vander_exists; auto using nc_x_distinct, nc_x1_distinct.
Qed.

(** N = 3, one block. *)
Lemma nc_3_1_values : forall w sol1, solves 3 nc_A (nc_b 3) w -> solves 3 nc_A1 nc_b1 sol1 ->
  nc_weights 3 1 w sol1 0%nat = 7/24 + 1/3 /\
  nc_weights 3 1 w sol1 1%nat = -1/72 + 4/3 /\
  nc_weights 3 1 w sol1 2%nat = 7/24 + 1/3.
Proof.
  intros w sol1 Hw Hs.
  pose proof (Hw 0%nat ltac:(lia)) as W0. pose proof (Hw 1%nat ltac:(lia)) as W1.
  pose proof (Hw 2%nat ltac:(lia)) as W2.
  pose proof (Hs 0%nat ltac:(lia)) as S0. pose proof (Hs 1%nat ltac:(lia)) as S1.
  pose proof (Hs 2%nat ltac:(lia)) as S2.
  unfold nc_A, nc_A1, nc_b, nc_b1, nc_x, nc_x1 in *. simpl in *.
  unfold nc_weights, nc_ends, nc_w1; simpl.
  repeat split; lra.
Qed.

Lemma nc_3_1_not_exact : forall w sol1, solves 3 nc_A (nc_b 3) w -> solves 3 nc_A1 nc_b1 sol1 ->
  let p := [0; 3; -1] in
  peval p 0 = 0 /\ peval p (INR (nc_NP 3 1)) = 0 /\
  sumR (nc_NP 3 1) (fun t => nc_weights 3 1 w sol1 t * peval p (INR t + / 2))
    <> RInt (peval p) 0 (INR (nc_NP 3 1)).
Proof.
  intros w sol1 Hw Hs p. split; [unfold p; simpl; lra|]. split; [unfold p; simpl; lra|].
  destruct (nc_3_1_values w sol1 Hw Hs) as (E0 & E1 & E2).
  rewrite (is_RInt_unique _ _ _ _ (RInt_peval 3 p 0 (INR (nc_NP 3 1)) (le_n 3))).
  change (nc_NP 3 1) with 3%nat. cbn [sumR]. rewrite E0, E1, E2.
  unfold pint, p. simpl. lra.
Qed.

Lemma nc_4_1_not_palin : forall w sol1, solves 4 nc_A (nc_b 4) w -> solves 4 nc_A1 nc_b1 sol1 ->
  nc_weights 4 1 w sol1 1%nat <> nc_weights 4 1 w sol1 (nc_NP 4 1 - 1 - 1)%nat.
Proof.
  intros w sol1 Hw Hs.
  pose proof (nc_w_palin 4 w ltac:(lia) Hw 1%nat ltac:(lia)) as P. simpl in P.
  pose proof (Hs 0%nat ltac:(lia)) as S0. pose proof (Hs 1%nat ltac:(lia)) as S1.
  pose proof (Hs 2%nat ltac:(lia)) as S2. pose proof (Hs 3%nat ltac:(lia)) as S3.
  unfold nc_A1, nc_b1, nc_x1 in *. simpl in S0, S1, S2, S3.
  unfold nc_weights, nc_ends, nc_w1; simpl. lra.
Qed.
