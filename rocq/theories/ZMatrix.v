(** Matrices with non-positive entries off the diagonal: lower bounds of the eigenvalues, positive eigenvectors. *)
From Coq Require Import Reals List Arith Lia Lra Bool Relations.
From Verif Require Import Base BaseLemmas GridModel MaxPrinciple NCSigns.
Import ListNotations.
Local Open Scope R_scope.

(** i and j are connected by entries of H different from zero. *)
Definition linked (n : nat) (H : mat) : nat -> nat -> Prop :=
  clos_refl_trans nat (fun i j => (i < n)%nat /\ (j < n)%nat /\ H i j < 0).

Section Z.
Variable n : nat.
Variable H : mat.
Variable w : vec.
Hypothesis off : forall i j, (i < n)%nat -> (j < n)%nat -> i <> j -> H i j <= 0.
Hypothesis wpos : forall k, (k < n)%nat -> 0 < w k.

Lemma sqrt_cauchy : forall a b c d, a * c + b * d <= sqrt (a ^ 2 + b ^ 2) * sqrt (c ^ 2 + d ^ 2).
Proof.
  intros. assert (A : 0 <= a ^ 2 + b ^ 2) by nra. assert (B : 0 <= c ^ 2 + d ^ 2) by nra.
  rewrite <- sqrt_mult by auto. apply Rle_trans with (Rabs (a * c + b * d)); [apply Rle_abs|].
  rewrite <- sqrt_Rsqr_abs. apply sqrt_le_1_alt. unfold Rsqr. pose proof (pow2_ge_0 (a * d - b * c)). nra.
Qed.
(** p + i q is an eigenvector with eigenvalue e + i f; u > 0: at some point (H u)_k <= e w_k u_k. *)
Lemma barta : forall u p q e f, (forall k, (k < n)%nat -> 0 < u k) ->
  (exists k, (k < n)%nat /\ (p k <> 0 \/ q k <> 0)) ->
  (forall k, (k < n)%nat -> sumR n (fun j => H k j * p j) = w k * (e * p k - f * q k)) ->
  (forall k, (k < n)%nat -> sumR n (fun j => H k j * q j) = w k * (e * q k + f * p k)) ->
  exists k, (k < n)%nat /\ (p k <> 0 \/ q k <> 0) /\ sumR n (fun j => H k j * u j) <= e * w k * u k.
Proof.
  intros u p q e f U (k0 & K0 & NZ) P Q. set (r := fun k => sqrt (p k ^ 2 + q k ^ 2)).
  assert (R2 : forall k, r k * r k = p k ^ 2 + q k ^ 2) by (intros; unfold r; apply sqrt_def; nra).
  assert (R0 : forall k, 0 <= r k) by (intros; apply sqrt_pos).
  destruct (argmax n (fun k => r k / u k) ltac:(lia)) as (k & K & M).
  assert (RK : 0 < r k).
  { apply Rnot_le_lt. intros L. pose proof (M k0 K0) as C. cbv beta in C.
    assert (r k = 0) by (pose proof (R0 k); lra). rewrite H0 in C. unfold Rdiv in C. rewrite Rmult_0_l in C.
    assert (r k0 <= 0). { pose proof (U k0 K0). apply Rnot_lt_le. intros X. pose proof (Rmult_lt_0_compat _ _ X (Rinv_0_lt_compat _ H1)). lra. }
    pose proof (R2 k0). pose proof (R0 k0). assert (r k0 = 0) by lra. rewrite H4 in H2.
    destruct NZ as [Z|Z]; apply Z; nra. }
  exists k. split; [exact K|]. split.
  { destruct (Req_dec (p k) 0) as [E|E]; [|left; exact E]. destruct (Req_dec (q k) 0) as [E'|E']; [|right; exact E'].
    exfalso. pose proof (R2 k) as X. rewrite E, E' in X. nra. }
  set (s := r k * r k / u k). assert (S0 : 0 < s) by (apply Rdiv_lt_0_compat; [nra|apply U; auto]).
  assert (L : s * sumR n (fun j => H k j * u j) <= sumR n (fun j => H k j * (p k * p j + q k * q j))).
  { rewrite <- sumR_scal. apply sumR_le. intros j J. destruct (Nat.eq_dec j k) as [->|N].
    - replace (p k * p k + q k * q k) with (r k * r k) by (rewrite R2; ring). unfold s. right. field. apply Rgt_not_eq, U; auto.
    - pose proof (off k j K J (not_eq_sym N)) as O. pose proof (sqrt_cauchy (p k) (q k) (p j) (q j)) as C. fold (r k) (r j) in C.
      assert (r j <= r k / u k * u j).
      { pose proof (M j J) as X. cbv beta in X. pose proof (U j J). replace (r j) with (r j / u j * u j) by (field; lra). apply Rmult_le_compat_r; lra. }
      assert (p k * p j + q k * q j <= s * u j).
      { apply Rle_trans with (1 := C). replace (s * u j) with (r k * (r k / u k * u j)) by (unfold s; field; apply Rgt_not_eq, U; auto).
        apply Rmult_le_compat_l; lra. }
      replace (s * (H k j * u j)) with (H k j * (s * u j)) by ring. nra. }
  assert (E : sumR n (fun j => H k j * (p k * p j + q k * q j)) = e * w k * (r k * r k)).
  { rewrite (sumR_ext _ _ (fun j => p k * (H k j * p j) + q k * (H k j * q j))) by (intros; ring).
    rewrite sumR_plus, !sumR_scal, P, Q, R2 by auto. ring. }
  rewrite E in L. replace (e * w k * (r k * r k)) with (s * (e * w k * u k)) in L by (unfold s; field; apply Rgt_not_eq, U; auto).
  apply Rmult_le_reg_l with s; auto.
Qed.
Definition eigvec (e : R) (p : vec) : Prop := forall k, (k < n)%nat -> sumR n (fun j => H k j * p j) = e * w k * p k.
Lemma barta_real : forall u p e, (forall k, (k < n)%nat -> 0 < u k) -> (exists k, (k < n)%nat /\ p k <> 0) -> eigvec e p ->
  exists k, (k < n)%nat /\ sumR n (fun j => H k j * u j) <= e * w k * u k.
Proof.
  intros u p e U (k & K & N) E. destruct (barta u p (fun _ => 0) e 0 U) as (k1 & K1 & _ & X).
  - exists k. auto.
  - intros i I. rewrite (E i I). ring.
  - intros i I. rewrite sumR_zero by (intros; ring). ring.
  - exists k1. auto.
Qed.
(** A positive eigenvector has the lowest eigenvalue. *)
Lemma positive_lowest : forall u a p e, (forall k, (k < n)%nat -> 0 < u k) -> eigvec a u -> (exists k, (k < n)%nat /\ p k <> 0) -> eigvec e p -> a <= e.
Proof.
  intros u a p e U Eu N Ep. destruct (barta_real u p e U N Ep) as (k & K & X). rewrite (Eu k K) in X.
  pose proof (Rmult_lt_0_compat _ _ (wpos k K) (U k K)). nra.
Qed.
(** Bound from above by the same quotients. *)
Lemma above : forall u p a, (0 < n)%nat -> (forall k, (k < n)%nat -> 0 < u k) -> (forall k, (k < n)%nat -> 0 < p k) -> eigvec a p ->
  exists k, (k < n)%nat /\ a * w k * u k <= sumR n (fun j => H k j * u j).
Proof.
  intros u p a N U P E. destruct (argmax n (fun k => - (p k / u k)) N) as (k & K & M). exists k. split; [exact K|].
  set (t := p k / u k). assert (T : 0 < t) by (apply Rdiv_lt_0_compat; auto).
  assert (L : sumR n (fun j => H k j * p j) <= t * sumR n (fun j => H k j * u j)).
  { rewrite <- sumR_scal. apply sumR_le. intros j J. destruct (Nat.eq_dec j k) as [->|Q].
    - right. unfold t. field. apply Rgt_not_eq, U; auto.
    - pose proof (off k j K J (not_eq_sym Q)). pose proof (M j J) as X. cbv beta in X. fold t in X. pose proof (U j J).
      assert (t * u j <= p j) by (replace (p j) with (p j / u j * u j) by (field; lra); apply Rmult_le_compat_r; lra). nra. }
  rewrite (E k K) in L. replace (p k) with (t * u k) in L by (unfold t; field; apply Rgt_not_eq, U; auto).
  apply Rmult_le_reg_l with t; auto. replace (t * (a * w k * u k)) with (a * w k * (t * u k)) by ring. exact L.
Qed.
Lemma touching : forall z e, (forall k, (k < n)%nat -> 0 <= z k) -> eigvec e z -> forall i j, (i < n)%nat -> (j < n)%nat -> z i = 0 -> H i j < 0 -> z j = 0.
Proof.
  intros z e Z E i j I J Z0 L. destruct (Nat.eq_dec i j) as [<-|N]; auto. pose proof (E i I) as X. rewrite Z0, Rmult_0_r in X.
  assert (T : - (H i j) * z j <= sumR n (fun l => - (H i l) * z l)).
  { apply (term_le n (fun l => - (H i l) * z l) j J). intros l Hl. destruct (Nat.eq_dec i l) as [<-|M]; [rewrite Z0; lra|].
    pose proof (off i l I Hl M). pose proof (Z l Hl). nra. }
  rewrite (sumR_ext _ _ (fun l => -1 * (H i l * z l))) in T by (intros; ring). rewrite sumR_scal, X in T. pose proof (Z j J). nra.
Qed.
Hypothesis connected : forall i j, (i < n)%nat -> (j < n)%nat -> linked n H i j.
Lemma spread : forall z e, (forall k, (k < n)%nat -> 0 <= z k) -> eigvec e z -> forall i, (i < n)%nat -> z i = 0 -> forall j, (j < n)%nat -> z j = 0.
Proof.
  intros z e Z E i I Z0 j J. pose proof (connected i j I J) as C. apply clos_rt_rt1n in C. induction C; auto.
  destruct H0 as (A & B & L). apply IHC; auto. apply (touching z e Z E x y); auto.
Qed.
(** An eigenvector without negative entries has none that vanish. *)
Lemma nonneg_positive : forall z e, (forall k, (k < n)%nat -> 0 <= z k) -> (exists k, (k < n)%nat /\ z k <> 0) -> eigvec e z -> forall k, (k < n)%nat -> 0 < z k.
Proof.
  intros z e Z (k0 & K0 & N) E k K. destruct (Rle_lt_or_eq_dec _ _ (Z k K)) as [L|L]; auto. exfalso. apply N. apply (spread z e Z E k K); auto.
Qed.
(** The lowest level is simple. *)
Lemma simple : forall u a p, (forall k, (k < n)%nat -> 0 < u k) -> eigvec a u -> eigvec a p -> exists c, forall k, (k < n)%nat -> p k = c * u k.
Proof.
  intros u a p U Eu Ep. destruct (Nat.eq_dec n 0) as [->|N]; [exists 0; intros; lia|].
  destruct (argmax n (fun k => p k / u k) ltac:(lia)) as (k & K & M). set (c := p k / u k). exists c.
  set (z := fun j => c * u j - p j).
  assert (Z : forall j, (j < n)%nat -> 0 <= z j).
  { intros j J. pose proof (M j J) as X. cbv beta in X. fold c in X. pose proof (U j J). unfold z. replace (p j) with (p j / u j * u j) by (field; lra).
    assert (p j / u j * u j <= c * u j) by (apply Rmult_le_compat_r; lra). lra. }
  assert (E : eigvec a z).
  { intros j J. unfold z. rewrite (sumR_ext _ _ (fun l => c * (H j l * u l) + -1 * (H j l * p l))) by (intros; ring).
    rewrite sumR_plus, !sumR_scal, (Eu j J), (Ep j J). ring. }
  assert (z k = 0) by (unfold z, c; field; apply Rgt_not_eq, U; auto).
  intros j J. pose proof (spread z a Z E k K H0 j J) as X. unfold z in X. lra.
Qed.
(** Every other eigenvector belongs to a higher level and changes sign. *)
Lemma others : forall u a p e, (forall k, (k < n)%nat -> 0 < u k) -> eigvec a u -> (exists k, (k < n)%nat /\ p k <> 0) -> eigvec e p ->
  (exists c, c <> 0 /\ e = a /\ forall k, (k < n)%nat -> p k = c * u k) \/
  (a < e /\ (exists k, (k < n)%nat /\ p k < 0) /\ exists k, (k < n)%nat /\ 0 < p k).
Proof.
  intros u a p e U Eu N Ep. pose proof (positive_lowest u a p e U Eu N Ep) as L. destruct (Rle_lt_or_eq_dec _ _ L) as [S|S].
  - right. split; [exact S|].
    assert (G : forall q, eigvec e q -> (exists k, (k < n)%nat /\ q k <> 0) -> exists k, (k < n)%nat /\ q k < 0).
    { intros q Eq Nq. destruct (argmax n (fun k => - q k) ltac:(destruct N as (? & ? & _); lia)) as (k & K & M).
      destruct (Rlt_dec (q k) 0) as [X|X]; [exists k; auto|exfalso].
      assert (Q : forall j, (j < n)%nat -> 0 <= q j) by (intros j J; pose proof (M j J) as Y; cbv beta in Y; lra).
      pose proof (nonneg_positive q e Q Nq Eq) as P. pose proof (positive_lowest q e u a P Eq) as Y. cut (e <= a); [lra|]. apply Y; auto.
      destruct N as (k0 & K0 & _). exists k0. split; [exact K0|]. apply Rgt_not_eq, U; auto. }
    split; [apply G; auto|]. destruct (G (fun k => - p k)) as (k & K & X).
    + intros k K. rewrite (sumR_ext _ _ (fun l => -1 * (H k l * p l))) by (intros; ring). rewrite sumR_scal, (Ep k K). ring.
    + destruct N as (k & K & X). exists k. split; [exact K|lra].
    + exists k. split; [exact K|lra].
  - left. subst e. destruct (simple u a p U Eu Ep) as (c & C). exists c. split; [|auto]. intros ->. destruct N as (k & K & X). apply X. rewrite C by auto. ring.
Qed.
End Z.

(** * A positive eigenvector exists *)
Lemma le_small : forall a b C, 0 < C -> (forall e, 0 < e -> a <= b + e * C) -> a <= b.
Proof.
  intros a b C HC X. apply Rnot_lt_le. intros L. pose proof (X ((a - b) / (2 * C)) ltac:(apply Rdiv_lt_0_compat; lra)) as Y.
  replace ((a - b) / (2 * C) * C) with ((a - b) / 2) in Y by (field; lra). lra.
Qed.
(** Decreasing non-empty sets S N of vectors with entries in [0, 1]: one vector is close to members of all of them. *)
Lemma common_one : forall (S : nat -> vec -> Prop) i, (forall N, exists u, S N u) -> (forall N M u, (N <= M)%nat -> S M u -> S N u) ->
  (forall N u, S N u -> 0 <= u i <= 1) -> exists l, forall N e, 0 < e -> exists u, S N u /\ Rabs (u i - l) < e.
Proof.
  intros S i X D B. set (E := fun t => forall N, exists u, S N u /\ t <= u i).
  destruct (completeness E) as (l & LU & LL).
  - exists 1. intros t Ht. destruct (Ht 0%nat) as (u & U & L). pose proof (B _ _ U). lra.
  - exists 0. intros N. destruct (X N) as (u & U). exists u. split; [exact U|]. apply (B _ _ U).
  - exists l. intros N e He.
    assert (A : exists t, E t /\ l - e < t).
    { destruct (Classical_Prop.classic (exists t, E t /\ l - e < t)) as [C|C]; auto. exfalso. assert (l <= l - e); [|lra]. apply LL. intros t Ht.
      apply Rnot_lt_le. intros L. apply C. exists t. auto. }
    destruct A as (t & Ht & Lt).
    assert (C : exists N0, forall u, S N0 u -> u i < l + e).
    { destruct (Classical_Prop.classic (exists N0, forall u, S N0 u -> u i < l + e)) as [C|C]; auto. exfalso. assert (l + e <= l); [|lra]. apply LU.
      intros N0. destruct (Classical_Prop.classic (exists u, S N0 u /\ l + e <= u i)) as [G|G]; auto. exfalso. apply C. exists N0. intros u U.
      apply Rnot_le_lt. intros L. apply G. exists u. auto. }
    destruct C as (N0 & H0). destruct (Ht (Nat.max N N0)) as (u & U & L). exists u. split; [apply (D N (Nat.max N N0)); auto; lia|].
    pose proof (H0 u (D N0 (Nat.max N N0) u ltac:(lia) U)). apply Rabs_def1; lra.
Qed.
Lemma common_many : forall n (S : nat -> vec -> Prop), (forall N, exists u, S N u) -> (forall N M u, (N <= M)%nat -> S M u -> S N u) ->
  (forall N u k, S N u -> (k < n)%nat -> 0 <= u k <= 1) ->
  exists l : vec, forall N e, 0 < e -> exists u, S N u /\ forall k, (k < n)%nat -> Rabs (u k - l k) < e.
Proof.
  induction n as [|n IH]; intros S X D B.
  - exists (fun _ => 0). intros N e _. destruct (X N) as (u & U). exists u. split; [exact U|intros; lia].
  - destruct (common_one S n X D) as (l & L); [intros N u U; apply (B N u n U); lia|].
    assert (P : forall N, 0 < / INR (N + 1)) by (intros; apply Rinv_0_lt_compat, lt_0_INR; lia).
    destruct (IH (fun N u => S N u /\ Rabs (u n - l) < / INR (N + 1))) as (v & V).
    + intros N. destruct (L N (/ INR (N + 1)) (P N)) as (u & U). exists u. exact U.
    + intros N M u HNM (U1 & U2). split; [apply (D N M); auto|]. apply Rlt_le_trans with (1 := U2). apply Rinv_le_contravar; [apply lt_0_INR; lia|apply le_INR; lia].
    + intros N u k (U & _) K. apply (B N u k U). lia.
    + exists (fun k => if (k =? n)%nat then l else v k). intros N e He. destruct (archimed_cor1 e He) as (N0 & A1 & A2).
      destruct (V (Nat.max N N0) e He) as (u & (U1 & U2) & U3). exists u. split; [apply (D N (Nat.max N N0)); auto; lia|].
      intros k K. destruct (Nat.eqb_spec k n) as [->|Q]; [|apply U3; lia].
      apply Rlt_trans with (1 := U2). apply Rle_lt_trans with (2 := A1). apply Rinv_le_contravar; [apply lt_0_INR; lia|apply le_INR; lia].
Qed.

Section Perron.
Variable n : nat.
Variable T : mat.
Hypothesis npos : (0 < n)%nat.
Hypothesis Tnn : forall i j, (i < n)%nat -> (j < n)%nat -> 0 <= T i j.
Hypothesis conn : forall i j, (i < n)%nat -> (j < n)%nat -> clos_refl_trans nat (fun i j => (i < n)%nat /\ (j < n)%nat /\ 0 < T i j) i j.
Let ap (x : vec) : vec := fun k => sumR n (fun j => T k j * x j).
Let grow (x : vec) : vec := fun k => x k + ap x k.
Let nn (x : vec) := forall k, (k < n)%nat -> 0 <= x k.
Lemma ap_nn : forall x, nn x -> nn (ap x).
Proof. intros x X k K. apply sumR_nonneg. intros j J. apply Rmult_le_pos; auto. Qed.
Lemma grow_le : forall x, nn x -> forall k, (k < n)%nat -> x k <= grow x k.
Proof. intros x X k K. unfold grow. pose proof (ap_nn x X k K). lra. Qed.
Lemma grow_nn : forall x, nn x -> nn (grow x).
Proof. intros x X k K. pose proof (grow_le x X k K). pose proof (X k K). lra. Qed.
Fixpoint iter (m : nat) (x : vec) : vec := match m with O => x | S m => grow (iter m x) end.
Lemma iter_nn : forall m x, nn x -> nn (iter m x).
Proof. induction m; intros x X; cbn; auto. apply grow_nn; auto. Qed.
Lemma iter_mono : forall x k, nn x -> (k < n)%nat -> forall m p, (m <= p)%nat -> iter m x k <= iter p x k.
Proof. intros x k X K m p L. induction L; [lra|]. cbn. pose proof (grow_le _ (iter_nn m0 x X) k K). lra. Qed.
Lemma iter_reach : forall x j, nn x -> (j < n)%nat -> 0 < x j -> forall i, (i < n)%nat -> exists m, 0 < iter m x i.
Proof.
  intros x j X J P i I. pose proof (conn i j I J) as C. apply clos_rt_rt1n in C. induction C.
  - exists 0%nat. exact P.
  - destruct H as (A & B & L). destruct (IHC J P B) as (m & M). exists (S m). cbn. unfold grow. pose proof (iter_nn m x X) as Y.
    assert (T x0 y * iter m x y <= ap (iter m x) x0).
    { apply (term_le n (fun l => T x0 l * iter m x l) y B). intros l Hl. apply Rmult_le_pos; auto. }
    pose proof (Y x0 A). pose proof (Rmult_lt_0_compat _ _ L M). lra.
Qed.
Lemma iter_all : forall x j, nn x -> (j < n)%nat -> 0 < x j -> exists m, forall i, (i < n)%nat -> 0 < iter m x i.
Proof.
  intros x j X J P. assert (Y : forall p, (p <= n)%nat -> exists m, forall i, (i < p)%nat -> 0 < iter m x i).
  { induction p as [|p IH]; intros Hp; [exists 0%nat; intros; lia|]. destruct (IH ltac:(lia)) as (m & M).
    destruct (iter_reach x j X J P p ltac:(lia)) as (m' & M'). exists (Nat.max m m'). intros i I.
    destruct (Nat.eq_dec i p) as [->|N].
    - apply Rlt_le_trans with (1 := M'). apply iter_mono; auto; lia.
    - apply Rlt_le_trans with (iter m x i); [apply M; lia|]. apply iter_mono; auto; lia. }
  apply (Y n). lia.
Qed.
(** ap commutes with iter on u, through d = ap u - r u. *)
Lemma iter_defect : forall r u m k, (k < n)%nat -> iter m (fun k => ap u k - r * u k) k = ap (iter m u) k - r * iter m u k.
Proof.
  intros r u m. induction m; intros k K; cbn; auto. unfold grow. rewrite IHm by auto.
  assert (E : ap (iter m (fun k => ap u k - r * u k)) k = ap (ap (iter m u)) k - r * ap (iter m u) k).
  { unfold ap at 1. rewrite (sumR_ext _ _ (fun j => T k j * ap (iter m u) j + (- r) * (T k j * iter m u j))) by (intros j J; rewrite IHm by auto; ring).
    rewrite sumR_plus, sumR_scal. unfold ap. ring. }
  rewrite E. assert (F : ap (fun k0 => iter m u k0 + ap (iter m u) k0) k = ap (iter m u) k + ap (ap (iter m u)) k).
  { unfold ap at 1. rewrite (sumR_ext _ _ (fun j => T k j * iter m u j + T k j * ap (iter m u) j)) by (intros; ring). rewrite sumR_plus. reflexivity. }
  rewrite F. ring.
Qed.
Let good (r : R) := exists u, nn u /\ sumR n u = 1 /\ forall k, (k < n)%nat -> r * u k <= ap u k.
Lemma good_le1 : forall u, nn u -> sumR n u = 1 -> forall k, (k < n)%nat -> 0 <= u k <= 1.
Proof. intros u U S k K. split; [apply U; auto|]. rewrite <- S. apply (term_le n u k K). auto. Qed.
Lemma perron : exists r u, nn u /\ sumR n u = 1 /\ forall k, (k < n)%nat -> ap u k = r * u k.
Proof.
  assert (B : is_upper_bound good (sumR n (fun k => sumR n (fun j => T k j)))).
  { intros r (u & U & S & G). apply Rle_trans with (sumR n (fun k => r * u k)); [rewrite sumR_scal, S; lra|].
    apply sumR_le. intros k K. apply Rle_trans with (1 := G k K). apply sumR_le. intros j J. pose proof (good_le1 u U S j J). pose proof (Tnn k j K J). nra. }
  assert (I0 : good 0).
  { exists (fun k => if (k =? 0)%nat then 1 else 0). split; [intros k _; destruct (k =? 0)%nat; lra|]. split.
    - rewrite (sumR_single n 0); auto. intros i _ N. apply Nat.eqb_neq in N. rewrite N. reflexivity.
    - intros k K. rewrite Rmult_0_l. apply ap_nn; auto. intros j _. destruct (j =? 0)%nat; lra. }
  destruct (completeness good (ex_intro _ _ B) (ex_intro _ _ I0)) as (r & RU & RL).
  assert (RN : 0 <= r). { apply RU. destruct I0 as (u & G). exists u. exact G. }
  set (St := fun N (u : vec) => nn u /\ sumR n u = 1 /\ forall k, (k < n)%nat -> r * u k <= ap u k + / INR (N + 1)).
  assert (P : forall N, 0 < / INR (N + 1)) by (intros; apply Rinv_0_lt_compat, lt_0_INR; lia).
  destruct (common_many n St) as (u & U).
  { intros N. destruct (Classical_Prop.classic (exists rho, good rho /\ r - / INR (N + 1) <= rho)) as [(rho & (u & U & S & G) & L)|C].
    - exists u. split; [exact U|]. split; [exact S|]. intros k K. pose proof (G k K). pose proof (good_le1 u U S k K). pose proof (P N).
      assert (/ INR (N + 1) * u k <= / INR (N + 1)) by (rewrite <- (Rmult_1_r (/ INR (N + 1))) at 2; apply Rmult_le_compat_l; lra). nra.
    - exfalso. assert (r <= r - / INR (N + 1)); [|pose proof (P N); lra]. apply RL. intros rho G. apply Rnot_lt_le. intros L. apply C. exists rho. split; [exact G|lra]. }
  { intros N M v L (V1 & V2 & V3). split; [exact V1|]. split; [exact V2|]. intros k K. pose proof (V3 k K).
    assert (/ INR (M + 1) <= / INR (N + 1)) by (apply Rinv_le_contravar; [apply lt_0_INR; lia|apply le_INR; lia]). lra. }
  { intros N v k (V1 & V2 & _) K. apply (good_le1 v V1 V2 k K). }
  assert (UN : nn u).
  { intros k K. apply (le_small 0 (u k) 1 Rlt_0_1). intros e He. destruct (U 0%nat e He) as (v & (V1 & _) & V). pose proof (V1 k K). pose proof (V k K) as Y. apply Rabs_def2 in Y. lra. }
  assert (SD : forall a v e, (forall k, (k < n)%nat -> Rabs (v k - u k) < e) -> (forall k, (k < n)%nat -> 0 <= a k) ->
    Rabs (sumR n (fun k => a k * v k) - sumR n (fun k => a k * u k)) <= e * sumR n a).
  { intros a v e V A. replace (sumR n (fun k => a k * v k) - sumR n (fun k => a k * u k)) with (sumR n (fun k => a k * (v k - u k))).
    - apply Rle_trans with (1 := sumR_abs_le _ _). rewrite <- sumR_scal. apply sumR_le. intros k K. rewrite Rabs_mult, (Rabs_pos_eq (a k)) by auto.
      pose proof (V k K). pose proof (A k K). nra.
    - rewrite (sumR_ext _ _ (fun k => a k * v k + -1 * (a k * u k))) by (intros; ring). rewrite sumR_plus, sumR_scal. ring. }
  assert (US : sumR n u = 1).
  { assert (Y : forall e, 0 < e -> Rabs (1 - sumR n u) <= e * sumR n (fun _ => 1)).
    { intros e He. destruct (U 0%nat e He) as (v & (_ & V2 & _) & V). pose proof (SD (fun _ => 1) v e V ltac:(intros; lra)) as Z.
      rewrite (sumR_ext _ (fun k => 1 * v k) v) in Z by (intros; ring). rewrite (sumR_ext _ (fun k => 1 * u k) u) in Z by (intros; ring). rewrite V2 in Z. exact Z. }
    assert (0 < sumR n (fun _ => 1)) by (rewrite sumR_const; apply Rmult_lt_0_compat; [apply lt_0_INR; auto|lra]).
    assert (Z : Rabs (1 - sumR n u) <= 0) by (apply (le_small _ 0 (sumR n (fun _ => 1))); auto; intros e He; pose proof (Y e He); lra).
    pose proof (Rabs_pos (1 - sumR n u)). assert (Q : Rabs (1 - sumR n u) = 0) by lra. destruct (Req_dec (1 - sumR n u) 0); [lra|]. apply Rabs_no_R0 in H1. contradiction. }
  assert (UG : forall k, (k < n)%nat -> r * u k <= ap u k).
  { intros k K. set (A := sumR n (fun j => T k j)). assert (A0 : 0 <= A) by (apply sumR_nonneg; auto).
    apply (le_small _ _ (r + A + 1)); [lra|]. intros e He. destruct (archimed_cor1 e He) as (N & N1 & N2).
    destruct (U N e He) as (v & (V1 & V2 & V3) & V). pose proof (V3 k K) as G. pose proof (SD (T k) v e V (fun j J => Tnn k j K J)) as Z. change (sumR n (T k)) with A in Z.
    change (sumR n (fun k0 => T k k0 * v k0)) with (ap v k) in Z. change (sumR n (fun k0 => T k k0 * u k0)) with (ap u k) in Z.
    pose proof (Rle_abs (ap v k - ap u k)). pose proof (V k K) as Y. apply Rabs_def2 in Y.
    assert (/ INR (N + 1) <= / INR N) by (apply Rinv_le_contravar; [apply lt_0_INR; lia|apply le_INR; lia]).
    assert (r * u k <= r * (v k + e)) by (apply Rmult_le_compat_l; lra). lra. }
  exists r, u. split; [exact UN|]. split; [exact US|].
  destruct (Classical_Prop.classic (exists j, (j < n)%nat /\ r * u j < ap u j)) as [(j & J & L)|C].
  2: { intros k K. apply Rle_antisym; [|apply UG; auto]. apply Rnot_lt_le. intros L. apply C. exists k. auto. }
  exfalso. set (d := fun k => ap u k - r * u k). assert (DN : nn d) by (intros k K; unfold d; pose proof (UG k K); lra).
  destruct (iter_all d j DN J ltac:(unfold d; lra)) as (m & M). set (y := iter m u). assert (Y : nn y) by (apply iter_nn; auto).
  assert (Y1 : 1 <= sumR n y). { rewrite <- US. apply sumR_le. intros k K. apply (iter_mono u k UN K 0 m). lia. }
  destruct (argmax n (fun k => - iter m d k) npos) as (k0 & K0 & M0). set (mu := iter m d k0). assert (MU : 0 < mu) by (apply M; auto).
  assert (G : good (r + mu / sumR n y)).
  { exists (fun k => / sumR n y * y k). assert (IY : 0 < / sumR n y) by (apply Rinv_0_lt_compat; lra). split; [intros k K; apply Rmult_le_pos; [lra|auto]|].
    split; [rewrite sumR_scal, Rinv_l; lra|]. intros k K. unfold ap. rewrite (sumR_ext _ (fun j => T k j * (/ sumR n y * y j)) (fun j => / sumR n y * (T k j * y j))) by (intros; ring). rewrite (sumR_scal n (/ sumR n y)).
    replace ((r + mu / sumR n y) * (/ sumR n y * y k)) with (/ sumR n y * (r * y k + mu * (/ sumR n y * y k))) by (unfold Rdiv; ring).
    apply Rmult_le_compat_l; [lra|]. change (sumR n (fun j0 => T k j0 * y j0)) with (ap y k).
    pose proof (M0 k K) as Q. cbv beta in Q. fold mu in Q. unfold d in Q. rewrite (iter_defect r u m k K) in Q. fold y in Q.
    assert (/ sumR n y * y k <= 1). { apply Rmult_le_reg_l with (sumR n y); [lra|]. rewrite <- Rmult_assoc, Rinv_r, Rmult_1_l, Rmult_1_r by lra. apply (term_le n y k K). auto. }
    assert (mu * (/ sumR n y * y k) <= mu * 1) by (apply Rmult_le_compat_l; lra). lra. }
  pose proof (RU _ G). assert (0 < mu / sumR n y) by (apply Rdiv_lt_0_compat; lra). lra.
Qed.
End Perron.

Lemma positive_exists : forall n H w, (0 < n)%nat -> (forall i j, (i < n)%nat -> (j < n)%nat -> i <> j -> H i j <= 0) -> (forall k, (k < n)%nat -> 0 < w k) ->
  (forall i j, (i < n)%nat -> (j < n)%nat -> linked n H i j) ->
  exists a u, (forall k, (k < n)%nat -> 0 < u k) /\ eigvec n H w a u.
Proof.
  intros n H w N off wpos C. destruct (argmax n (fun k => H k k / w k) N) as (k0 & _ & M). set (s := Rmax 0 (H k0 k0 / w k0) + 1).
  assert (SB : forall k, (k < n)%nat -> 0 < s - H k k / w k).
  { intros k K. pose proof (M k K) as X. cbv beta in X. unfold s. pose proof (Rmax_r 0 (H k0 k0 / w k0)). lra. }
  set (T := fun i j => (if (i =? j)%nat then s else 0) - H i j / w i).
  assert (Inv : forall k, (k < n)%nat -> 0 < / w k) by (intros; apply Rinv_0_lt_compat; auto).
  destruct (perron n T N) as (r & u & U & S & E).
  - intros i j I J. unfold T. destruct (Nat.eqb_spec i j) as [<-|Q]; [left; apply SB; auto|]. pose proof (off i j I J Q). pose proof (Inv i I). unfold Rdiv. nra.
  - intros i j I J. pose proof (C i j I J) as L. clear -L SB Inv. induction L as [i j (I & J & L)| |].
    + apply rt_step. split; [exact I|]. split; [exact J|]. unfold T. destruct (Nat.eqb_spec i j) as [<-|Q]; [apply SB; auto|]. pose proof (Inv i I). unfold Rdiv. nra.
    + apply rt_refl.
    + apply rt_trans with y; auto.
  - exists (s - r), u.
    assert (EV : eigvec n H w (s - r) u).
    { intros k K. pose proof (E k K) as X. cbv beta in X. unfold T in X.
      rewrite (sumR_ext _ _ (fun j => (if (j =? k)%nat then s * u k else 0) + (- / w k) * (H k j * u j))) in X.
      2: { intros j J. rewrite (Nat.eqb_sym k j). destruct (Nat.eqb_spec j k) as [->|Q]; unfold Rdiv; ring. }
      rewrite sumR_plus, sumR_scal in X. rewrite (sumR_single n k) in X; auto.
      - rewrite Nat.eqb_refl in X. assert (Y : / w k * sumR n (fun j => H k j * u j) = (s - r) * u k) by lra.
        apply Rmult_eq_reg_l with (/ w k); [|apply Rgt_not_eq, Inv; auto]. rewrite Y. field. apply Rgt_not_eq, wpos; auto.
      - intros i I Q. apply Nat.eqb_neq in Q. rewrite Q. reflexivity. }
    split; [|exact EV]. apply (nonneg_positive n H w off C u (s - r)); auto.
    destruct (Classical_Prop.classic (exists k, (k < n)%nat /\ u k <> 0)) as [Y|Y]; auto. exfalso.
    assert (sumR n u = 0); [|lra]. apply sumR_zero. intros i I. destruct (Req_dec (u i) 0); auto. exfalso. apply Y. exists i. auto.
Qed.
