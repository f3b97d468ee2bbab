(** Matrices that become symmetric after multiplication of their rows with positive numbers. *)
From Coq Require Import Reals List Arith Lia Lra Bool Relations Relation_Operators Operators_Properties.
From Verif Require Import Base BaseLemmas MaxPrinciple NCSigns ZMatrix.
Local Open Scope R_scope.

Section B.
Variable n : nat.
Variable H : mat.
Variables w D : vec.
Hypothesis wpos : forall k, (k < n)%nat -> 0 < w k.
Hypothesis Dpos : forall k, (k < n)%nat -> 0 < D k.
Hypothesis bal : forall i j, (i < n)%nat -> (j < n)%nat -> D i * H i j = D j * H j i.

Definition form (p q : vec) : R := sumR n (fun k => D k * q k * sumR n (fun j => H k j * p j)).
Definition dot (p q : vec) : R := sumR n (fun k => D k * w k * (p k * q k)).
Lemma form_double : forall p q, form p q = sumR n (fun k => sumR n (fun j => D k * H k j * (q k * p j))).
Proof.
  intros p q. apply sumR_ext. intros k K. rewrite <- sumR_scal. apply sumR_ext. intros j J. ring.
Qed.
Lemma form_sym : forall p q, form p q = form q p.
Proof.
  intros p q. rewrite !form_double. rewrite sumR_swap. apply sumR_ext. intros j J. apply sumR_ext. intros k K. rewrite (bal k j) by auto. ring.
Qed.
Lemma dot_sym : forall p q, dot p q = dot q p.
Proof. intros. apply sumR_ext. intros. ring. Qed.
Lemma dot_pos : forall p, 0 <= dot p p.
Proof. intros p. apply sumR_nonneg. intros k K. pose proof (wpos k K). pose proof (Dpos k K). pose proof (Rmult_lt_0_compat _ _ H1 H0). nra. Qed.
Lemma dot_zero : forall p, dot p p <= 0 -> forall k, (k < n)%nat -> p k = 0.
Proof.
  intros p Z k K. assert (T : D k * w k * (p k * p k) <= dot p p).
  { apply (term_le n (fun k => D k * w k * (p k * p k)) k K). intros i I0. pose proof (wpos i I0). pose proof (Dpos i I0). pose proof (Rmult_lt_0_compat _ _ H1 H0). nra. }
  pose proof (wpos k K). pose proof (Dpos k K). pose proof (Rmult_lt_0_compat _ _ H1 H0) as P. destruct (Req_dec (p k) 0) as [E|E]; auto.
  pose proof (Rsqr_pos_lt _ E) as Q. unfold Rsqr in Q. pose proof (Rmult_lt_0_compat _ _ P Q). lra.
Qed.
(** Eigenvalues are real, and real and imaginary part of the vector are solutions each. *)
Lemma real_pair : forall p q e f, (exists k, (k < n)%nat /\ (p k <> 0 \/ q k <> 0)) ->
  (forall k, (k < n)%nat -> sumR n (fun j => H k j * p j) = w k * (e * p k - f * q k)) ->
  (forall k, (k < n)%nat -> sumR n (fun j => H k j * q j) = w k * (e * q k + f * p k)) ->
  f = 0 /\ eigvec n H w e p /\ eigvec n H w e q.
Proof.
  intros p q e f (k0 & K0 & N) P Q.
  assert (A : form p q = e * dot p q - f * dot q q).
  { unfold form, dot. rewrite <- !sumR_scal, <- sumR_minus. apply sumR_ext. intros k K. rewrite (P k K). ring. }
  assert (B : form q p = e * dot p q + f * dot p p).
  { unfold form, dot. rewrite <- !sumR_scal, <- sumR_plus. apply sumR_ext. intros k K. rewrite (Q k K). ring. }
  rewrite form_sym in A. rewrite A in B. assert (Z : f * (dot p p + dot q q) = 0) by lra.
  assert (F : f = 0).
  { apply Rmult_integral in Z. destruct Z as [Z|Z]; auto. exfalso. pose proof (dot_pos p). pose proof (dot_pos q).
    pose proof (dot_zero p ltac:(lra) k0 K0). pose proof (dot_zero q ltac:(lra) k0 K0). tauto. }
  split; [exact F|]. subst f. split; intros k K; [rewrite (P k K)|rewrite (Q k K)]; ring.
Qed.
Lemma orthogonal : forall p q e e', eigvec n H w e p -> eigvec n H w e' q -> e <> e' -> dot p q = 0.
Proof.
  intros p q e e' P Q N.
  assert (A : form p q = e * dot p q) by (unfold form, dot; rewrite <- sumR_scal; apply sumR_ext; intros k K; rewrite (P k K); ring).
  assert (B : form q p = e' * dot p q) by (unfold form, dot; rewrite <- sumR_scal; apply sumR_ext; intros k K; rewrite (Q k K); ring).
  rewrite form_sym, B in A. assert (Z : (e' - e) * dot p q = 0) by lra. apply Rmult_integral in Z. destruct Z; [exfalso; apply N; lra|auto].
Qed.
(** Lowest quotient. *)
Hypothesis off : forall i j, (i < n)%nat -> (j < n)%nat -> i <> j -> H i j <= 0.
Lemma jacobi : forall u a x, (forall k, (k < n)%nat -> 0 < u k) -> eigvec n H w a u ->
  form x x - a * dot x x = sumR n (fun k => sumR n (fun j => 1 / 2 * (D k * - H k j * (u k * u j) * (x k / u k - x j / u j) ^ 2))).
Proof.
  intros u a x U E.
  assert (S1 : sumR n (fun k => sumR n (fun j => D k * H k j * (u k * u j) * (x k / u k) ^ 2)) = a * dot x x).
  { unfold dot. rewrite <- sumR_scal. apply sumR_ext. intros k K. pose proof (U k K).
    rewrite (sumR_ext _ (fun j => D k * H k j * (u k * u j) * (x k / u k) ^ 2) (fun j => (D k * u k * (x k / u k) ^ 2) * (H k j * u j))) by (intros; ring).
    rewrite sumR_scal, (E k K). field. lra. }
  assert (S2 : sumR n (fun k => sumR n (fun j => D k * H k j * (u k * u j) * (x j / u j) ^ 2)) = a * dot x x).
  { rewrite <- S1, sumR_swap. apply sumR_ext. intros j J. apply sumR_ext. intros k K. rewrite (bal k j) by auto. ring. }
  assert (S3 : form x x = sumR n (fun k => sumR n (fun j => D k * H k j * (u k * u j) * (x k / u k * (x j / u j))))).
  { rewrite form_double. apply sumR_ext. intros k K. apply sumR_ext. intros j J. pose proof (U k K). pose proof (U j J). field. lra. }
  rewrite (sumR_ext _ (fun k => sumR n (fun j => 1 / 2 * (D k * - H k j * (u k * u j) * (x k / u k - x j / u j) ^ 2)))
    (fun k => sumR n (fun j => D k * H k j * (u k * u j) * (x k / u k * (x j / u j)))
      - (1 / 2) * (sumR n (fun j => D k * H k j * (u k * u j) * (x k / u k) ^ 2) + sumR n (fun j => D k * H k j * (u k * u j) * (x j / u j) ^ 2)))).
  - rewrite sumR_minus, sumR_scal, sumR_plus, S1, S2, S3. lra.
  - intros k K. rewrite <- sumR_plus, <- sumR_scal, <- sumR_minus. apply sumR_ext. intros j J. set (y := x k / u k). set (z := x j / u j). field.
Qed.
Lemma jacobi_term : forall u x k j, (forall k, (k < n)%nat -> 0 < u k) -> (k < n)%nat -> (j < n)%nat ->
  0 <= 1 / 2 * (D k * - H k j * (u k * u j) * (x k / u k - x j / u j) ^ 2).
Proof.
  intros u x k j U K J. destruct (Nat.eq_dec k j) as [->|N].
  - rewrite Rminus_eq_0. simpl. lra.
  - pose proof (off k j K J N). pose proof (U k K). pose proof (U j J). pose proof (Dpos k K).
    apply Rmult_le_pos; [lra|]. apply Rmult_le_pos; [|apply pow2_ge_0]. apply Rmult_le_pos; [|apply Rmult_le_pos; lra]. apply Rmult_le_pos; lra.
Qed.
Lemma rayleigh : forall u a x, (forall k, (k < n)%nat -> 0 < u k) -> eigvec n H w a u -> a * dot x x <= form x x.
Proof.
  intros u a x U E. pose proof (jacobi u a x U E) as Q.
  assert (0 <= form x x - a * dot x x); [|lra]. rewrite Q. apply sumR_nonneg. intros k K. apply sumR_nonneg. intros j J. apply jacobi_term; auto.
Qed.
Hypothesis conn : forall i j, (i < n)%nat -> (j < n)%nat -> linked n H i j.
Lemma rayleigh_eq : forall u a x, (forall k, (k < n)%nat -> 0 < u k) -> eigvec n H w a u -> form x x <= a * dot x x ->
  exists c, forall k, (k < n)%nat -> x k = c * u k.
Proof.
  intros u a x U E L. destruct (Nat.eq_dec n 0) as [->|N0]; [exists 0; intros; lia|].
  set (t := fun k j => 1 / 2 * (D k * - H k j * (u k * u j) * (x k / u k - x j / u j) ^ 2)).
  assert (S : sumR n (fun k => sumR n (t k)) <= 0) by (unfold t; rewrite <- (jacobi u a x U E); lra).
  assert (Z : forall k j, (k < n)%nat -> (j < n)%nat -> t k j <= 0).
  { intros k j K J. apply Rle_trans with (2 := S). apply Rle_trans with (sumR n (t k)).
    - apply (term_le n (t k) j J). intros i I0. apply jacobi_term; auto.
    - apply (term_le n (fun k => sumR n (t k)) k K). intros i I0. apply sumR_nonneg. intros l Hl. apply jacobi_term; auto. }
  assert (Y : forall k j, (k < n)%nat -> (j < n)%nat -> H k j < 0 -> x k / u k = x j / u j).
  { intros k j K J Hn. pose proof (Z k j K J) as Q. unfold t in Q. pose proof (U k K). pose proof (U j J). pose proof (Dpos k K).
    assert (P : 0 < D k * - H k j * (u k * u j)) by (apply Rmult_lt_0_compat; apply Rmult_lt_0_compat; lra).
    destruct (Req_dec (x k / u k - x j / u j) 0) as [F|F]; [lra|]. exfalso.
    pose proof (Rsqr_pos_lt _ F) as R0. unfold Rsqr in R0. pose proof (Rmult_lt_0_compat _ _ P R0). simpl in Q. rewrite Rmult_1_r in Q. lra. }
  exists (x 0%nat / u 0%nat). intros k K. assert (C : x k / u k = x 0%nat / u 0%nat).
  { pose proof (conn k 0%nat K ltac:(lia)) as C. apply clos_rt_rt1n in C. assert (G : forall i j, clos_refl_trans_1n nat (fun i j => (i < n)%nat /\ (j < n)%nat /\ H i j < 0) i j -> x i / u i = x j / u j).
    { intros i j R1. induction R1; auto. destruct H0 as (A & B & C0). rewrite (Y x0 y); auto. }
    apply G, C. }
  rewrite <- C. field. pose proof (U k K). lra.
Qed.
End B.
