(** Univariate real polynomials as coefficient lists; Lagrange interpolation; integrals and
    derivatives of polynomials (Coquelicot). Used as independent specification of the
    quadrature and finite difference rules. *)
From Coq Require Import Reals List Arith Lia Lra.
From Coquelicot Require Import Coquelicot.
From Verif Require Import Base BaseLemmas.
Import ListNotations.
Local Open Scope R_scope.

(** Polynomial with coefficients p = [p0; p1; ...] (Horner). *)
Fixpoint peval (p : list R) (x : R) : R :=
  match p with
  | nil => 0
  | c :: q => c + x * peval q x
  end.

Fixpoint padd (p q : list R) : list R :=
  match p, q with
  | nil, _ => q
  | _, nil => p
  | a :: p', b :: q' => (a + b) :: padd p' q'
  end.
Definition pscal (c : R) (p : list R) : list R := map (Rmult c) p.
(** multiply by (alpha*x + beta) *)
Definition plin (alpha beta : R) (p : list R) : list R :=
  padd (pscal beta p) (0 :: pscal alpha p).

Lemma peval_padd : forall p q x, peval (padd p q) x = peval p x + peval q x.
Proof.
  induction p; intros [|b q] x; simpl; try lra.
  rewrite IHp. lra.
Qed.

Lemma peval_pscal : forall c p x, peval (pscal c p) x = c * peval p x.
Proof. induction p; intros; simpl; [lra|]. rewrite IHp. lra. Qed.

Lemma peval_plin : forall a b p x, peval (plin a b p) x = (a * x + b) * peval p x.
Proof.
  intros. unfold plin. rewrite peval_padd. simpl. rewrite !peval_pscal. lra.
Qed.

Lemma length_padd : forall p q, length (padd p q) = Nat.max (length p) (length q).
Proof. induction p; intros [|b q]; simpl; auto. Qed.

Lemma length_pscal : forall c p, length (pscal c p) = length p.
Proof. intros. apply map_length. Qed.

Lemma length_plin : forall a b p, (length (plin a b p) <= S (length p))%nat.
Proof.
  intros. unfold plin. rewrite length_padd. simpl. rewrite !length_pscal. lia.
Qed.

Lemma peval_sum : forall p x n, (length p <= n)%nat ->
  peval p x = sumR n (fun k => nth k p 0 * x ^ k).
Proof.
  induction p; intros x n Hn; simpl in *.
  - symmetry. apply sumR_zero. intros i Hi. destruct i; lra.
  - destruct n; [lia|]. rewrite sumR_first. simpl.
    rewrite (IHp x n) by lia. rewrite <- sumR_scal.
    f_equal; [lra|]. apply sumR_ext. intros; simpl; ring.
Qed.

(** Affine substitution keeps the degree. *)
Fixpoint pcomp (p : list R) (a b : R) : list R :=
  match p with
  | nil => nil
  | c :: q => padd [c] (plin a b (pcomp q a b))
  end.

Lemma peval_pcomp : forall p a b x, peval (pcomp p a b) x = peval p (a * x + b).
Proof.
  induction p; intros; cbn [pcomp peval]; [reflexivity|].
  rewrite peval_padd, peval_plin, IHp. simpl. lra.
Qed.

Lemma length_pcomp : forall p a b, (length (pcomp p a b) <= length p)%nat.
Proof.
  induction p; intros; cbn [pcomp]; [simpl; lia|].
  rewrite length_padd. pose proof (length_plin a0 b (pcomp p a0 b)).
  specialize (IHp a0 b). simpl length. lia.
Qed.

(** Synthetic division by (x - r). *)
Fixpoint pdiv (p : list R) (r : R) : list R :=
  match p with
  | nil => nil
  | _ :: q => match q with nil => nil | _ => peval q r :: pdiv q r end
  end.

Lemma pdiv_spec : forall p r x, peval p x = (x - r) * peval (pdiv p r) x + peval p r.
Proof.
  induction p; intros r x; [simpl; lra|].
  cbn [pdiv]. destruct p as [|b q].
  - simpl. lra.
  - change (peval (a :: b :: q) x) with (a + x * peval (b :: q) x).
    change (peval (a :: b :: q) r) with (a + r * peval (b :: q) r).
    change (peval (peval (b :: q) r :: pdiv (b :: q) r) x)
      with (peval (b :: q) r + x * peval (pdiv (b :: q) r) x).
    rewrite (IHp r x). ring.
Qed.

Lemma length_pdiv : forall p r, length (pdiv p r) = (length p - 1)%nat.
Proof.
  induction p; intros; [reflexivity|]. cbn [pdiv]. destruct p as [|b q]; [reflexivity|].
  cbn [length]. rewrite IHp. simpl. lia.
Qed.

(** A polynomial with as many distinct roots as coefficients is identically zero as a function. *)
Lemma poly_roots_zero : forall n p (x : nat -> R),
  (length p <= n)%nat ->
  (forall i j, (i < n)%nat -> (j < n)%nat -> i <> j -> x i <> x j) ->
  (forall i, (i < n)%nat -> peval p (x i) = 0) ->
  forall t, peval p t = 0.
Proof.
  induction n; intros p x Hl Hd Hr t.
  - destruct p; [reflexivity|simpl in Hl; lia].
  - rewrite (pdiv_spec p (x n) t). rewrite (Hr n) by lia.
    rewrite (IHn (pdiv p (x n)) x).
    + lra.
    + rewrite length_pdiv. lia.
    + intros; apply Hd; lia.
    + intros i Hi. pose proof (pdiv_spec p (x n) (x i)) as E.
      rewrite (Hr i), (Hr n) in E by lia.
      assert (x i - x n <> 0) by (apply Rminus_eq_contra; apply Hd; lia).
      assert ((x i - x n) * peval (pdiv p (x n)) (x i) = 0) as E2 by lra.
      apply Rmult_integral in E2. destruct E2; [contradiction|auto].
Qed.

(** A polynomial that vanishes everywhere has zero coefficients. *)
Lemma poly_zero_coef : forall p, (forall t, peval p t = 0) -> forall k, nth k p 0 = 0.
Proof.
  induction p as [|c q IH]; intros H k; [destruct k; reflexivity|].
  assert (Hc : c = 0). { specialize (H 0). simpl in H. lra. }
  assert (Hq : forall t, peval q t = 0).
  { (* q vanishes at all t <> 0, hence at 1, 2, ..., hence everywhere *)
    apply (poly_roots_zero (length q) q (fun i => INR (S i))); auto.
    - intros i j Hi Hj Hij E. apply Hij. apply INR_eq in E. lia.
    - intros i Hi. specialize (H (INR (S i))).
      change (c + INR (S i) * peval q (INR (S i)) = 0) in H. rewrite Hc, Rplus_0_l in H.
      assert (INR (S i) <> 0) by (apply not_0_INR; lia).
      pose proof H as E.
      apply Rmult_integral in E. destruct E; [contradiction|auto]. }
  destruct k; simpl; auto.
Qed.

(** Product of (x - x_i) over i < n, i <> j. *)
Fixpoint lag_num (n j : nat) (x : nat -> R) : list R :=
  match n with
  | O => [1]
  | S k => if Nat.eqb k j then lag_num k j x else plin 1 (- x k) (lag_num k j x)
  end.
Lemma lag_num_root : forall n j x i, (i < n)%nat -> i <> j -> peval (lag_num n j x) (x i) = 0.
Proof.
  induction n; intros j x i Hi Hij; [lia|]. cbn [lag_num].
  destruct (Nat.eqb_spec n j).
  - apply IHn; lia.
  - rewrite peval_plin. destruct (Nat.eq_dec i n) as [->|].
    + ring.
    + rewrite IHn by lia. ring.
Qed.
Lemma lag_num_nz : forall n j x,
  (forall i, (i < n)%nat -> i <> j -> x i <> x j) -> peval (lag_num n j x) (x j) <> 0.
Proof.
  induction n; intros j x H; cbn [lag_num].
  - simpl. lra.
  - destruct (Nat.eqb_spec n j).
    + apply IHn. intros; apply H; lia.
    + rewrite peval_plin. apply Rmult_integral_contrapositive_currified.
      * assert (x n <> x j) by (apply H; lia). lra.
      * apply IHn. intros; apply H; lia.
Qed.
Lemma lag_num_length_ge : forall n j x, (n <= j)%nat -> (length (lag_num n j x) <= S n)%nat.
Proof.
  induction n; intros; cbn [lag_num]; [simpl; lia|].
  destruct (Nat.eqb_spec n j); [lia|].
  pose proof (length_plin 1 (- x n) (lag_num n j x)). specialize (IHn j x). lia.
Qed.
Lemma lag_num_length : forall n j x, (j < n)%nat -> (length (lag_num n j x) <= n)%nat.
Proof.
  induction n; intros j x Hj; [lia|]. cbn [lag_num].
  destruct (Nat.eqb_spec n j).
  - apply lag_num_length_ge; lia.
  - pose proof (length_plin 1 (- x n) (lag_num n j x)).
    assert (length (lag_num n j x) <= n)%nat by (apply IHn; lia). lia.
Qed.

Definition lagrange (n j : nat) (x : nat -> R) : list R :=
  pscal (/ peval (lag_num n j x) (x j)) (lag_num n j x).

Definition distinct (n : nat) (x : nat -> R) : Prop :=
  forall i j, (i < n)%nat -> (j < n)%nat -> i <> j -> x i <> x j.

Lemma lagrange_delta : forall n j x i, distinct n x -> (i < n)%nat -> (j < n)%nat ->
  peval (lagrange n j x) (x i) = if Nat.eqb i j then 1 else 0.
Proof.
  intros. unfold lagrange. rewrite peval_pscal. destruct (Nat.eqb_spec i j).
  - subst. field. apply lag_num_nz. intros; apply H; auto.
  - rewrite (lag_num_root n j x i) by auto. apply Rmult_0_r.
Qed.

Lemma lagrange_length : forall n j x, (j < n)%nat -> (length (lagrange n j x) <= n)%nat.
Proof. intros. unfold lagrange. rewrite length_pscal. apply lag_num_length; auto. Qed.

(** Sums of polynomials. *)
Fixpoint psum (n : nat) (c : nat -> R) (p : nat -> list R) : list R :=
  match n with
  | O => nil
  | S k => padd (psum k c p) (pscal (c k) (p k))
  end.
Lemma peval_psum : forall n c p x, peval (psum n c p) x = sumR n (fun j => c j * peval (p j) x).
Proof.
  induction n; intros; simpl; [reflexivity|].
  rewrite peval_padd, peval_pscal, IHn. reflexivity.
Qed.
Lemma length_psum : forall n c p m, (forall j, (j < n)%nat -> (length (p j) <= m)%nat) ->
  (length (psum n c p) <= m)%nat.
Proof.
  induction n; intros; simpl; [lia|].
  rewrite length_padd, length_pscal.
  assert (length (psum n c p) <= m)%nat by (apply IHn; auto).
  assert (length (p n) <= m)%nat by auto. lia.
Qed.
Lemma nth_padd : forall p q k, nth k (padd p q) 0 = nth k p 0 + nth k q 0.
Proof.
  induction p; intros [|b q] [|k]; simpl; try lra. apply IHp.
Qed.
Lemma nth_pscal : forall c p k, nth k (pscal c p) 0 = c * nth k p 0.
Proof. induction p; intros [|k]; simpl; try lra. apply IHp. Qed.
Lemma nth_psum : forall n c p k, nth k (psum n c p) 0 = sumR n (fun j => c j * nth k (p j) 0).
Proof.
  induction n; intros; simpl; [destruct k; reflexivity|].
  rewrite nth_padd, nth_pscal, IHn. reflexivity.
Qed.

(** Monomials. *)
Definition pmono (p : nat) : list R := repeat 0 p ++ [1].
Lemma peval_pmono : forall p x, peval (pmono p) x = x ^ p.
Proof. induction p; intros; unfold pmono in *; simpl in *; [lra|]. rewrite IHp. lra. Qed.
Lemma length_pmono : forall p, length (pmono p) = S p.
Proof. intros. unfold pmono. rewrite app_length, repeat_length. simpl. lia. Qed.
Lemma nth_pmono : forall p k, nth k (pmono p) 0 = if Nat.eqb k p then 1 else 0.
Proof.
  induction p; intros [|k]; unfold pmono in *; simpl; auto.
  - destruct k; reflexivity.
Qed.

(** Moment conditions extend from monomials to polynomials. *)
Lemma moments_poly : forall n (c x : nat -> R) (m : nat -> R),
  (forall p, (p < n)%nat -> sumR n (fun j => x j ^ p * c j) = m p) ->
  forall p, (length p <= n)%nat ->
  sumR n (fun j => c j * peval p (x j)) = sumR n (fun k => nth k p 0 * m k).
Proof.
  intros n c x m H p Hl.
  rewrite (sumR_ext n _ (fun j => sumR n (fun k => nth k p 0 * (x j ^ k * c j)))).
  - rewrite sumR_swap. apply sumR_ext. intros k Hk. rewrite sumR_scal, H by auto. reflexivity.
  - intros j Hj. rewrite (peval_sum p (x j) n Hl), <- sumR_scal.
    apply sumR_ext. intros; ring.
Qed.

(** Uniqueness for Vandermonde systems. *)
Lemma vander_unique : forall n (c c' x : nat -> R) (m : nat -> R),
  distinct n x ->
  (forall p, (p < n)%nat -> sumR n (fun j => x j ^ p * c j) = m p) ->
  (forall p, (p < n)%nat -> sumR n (fun j => x j ^ p * c' j) = m p) ->
  forall j, (j < n)%nat -> c j = c' j.
Proof.
  intros n c c' x m Hd H H' j Hj.
  pose proof (moments_poly n c x m H (lagrange n j x) (lagrange_length n j x Hj)) as E.
  pose proof (moments_poly n c' x m H' (lagrange n j x) (lagrange_length n j x Hj)) as E'.
  rewrite (sumR_single n j) in E, E'; auto.
  - rewrite lagrange_delta, Nat.eqb_refl in E, E' by auto. lra.
  - intros i Hi Hij. rewrite lagrange_delta by auto. apply Nat.eqb_neq in Hij. rewrite Hij. ring.
  - intros i Hi Hij. rewrite lagrange_delta by auto. apply Nat.eqb_neq in Hij. rewrite Hij. ring.
Qed.

(** Existence for Vandermonde systems. *)
Definition vander_sol (n : nat) (x m : nat -> R) : nat -> R :=
  fun j => sumR n (fun k => nth k (lagrange n j x) 0 * m k).

Lemma vander_exists : forall n (x m : nat -> R), distinct n x ->
  forall p, (p < n)%nat -> sumR n (fun j => x j ^ p * vander_sol n x m j) = m p.
Proof.
  intros n x m Hd p Hp. unfold vander_sol.
  (* sum_j x_j^p l_j = X^p as polynomials *)
  set (q := psum n (fun j => x j ^ p) (fun j => lagrange n j x)).
  assert (Hq : forall k, nth k q 0 = if Nat.eqb k p then 1 else 0).
  { intros k.
    assert (HL : (length (padd q (pscal (-1) (pmono p))) <= n)%nat).
    { rewrite length_padd, length_pscal, length_pmono.
      assert (length q <= n)%nat by (apply length_psum; intros; apply lagrange_length; auto). lia. }
    assert (HZ : forall t, peval (padd q (pscal (-1) (pmono p))) t = 0).
    { apply (poly_roots_zero n _ x HL); auto.
      intros i Hi. rewrite peval_padd, peval_pscal, peval_pmono. unfold q.
      rewrite peval_psum. rewrite (sumR_single n i); auto.
      - rewrite lagrange_delta, Nat.eqb_refl by auto. ring.
      - intros j Hj Hij. rewrite lagrange_delta by auto.
        destruct (Nat.eqb_spec i j); [lia|ring]. }
    pose proof (poly_zero_coef _ HZ k) as E.
    rewrite nth_padd, nth_pscal, nth_pmono in E. lra. }
  rewrite (sumR_ext n _ (fun j => sumR n (fun k => m k * (x j ^ p * nth k (lagrange n j x) 0)))).
  2:{ intros. rewrite <- sumR_scal. apply sumR_ext. intros; ring. }
  rewrite sumR_swap.
  rewrite (sumR_ext n _ (fun k => (if Nat.eqb k p then 1 else 0) * m k)).
  - apply sumR_delta; auto.
  - intros k Hk. rewrite sumR_scal. rewrite <- (nth_psum n (fun j => x j ^ p) (fun j => lagrange n j x) k).
    fold q. rewrite Hq. ring.
Qed.

(** Antiderivative and integral. *)
Definition pint (n : nat) (p : list R) (t : R) : R :=
  sumR n (fun k => nth k p 0 * (t ^ (k + 1) / (INR k + 1))).

Lemma is_derive_sumR : forall n (f df : nat -> R -> R) t,
  (forall k, (k < n)%nat -> is_derive (f k) t (df k t)) ->
  is_derive (fun u => sumR n (fun k => f k u)) t (sumR n (fun k => df k t)).
Proof.
  induction n; intros f df t H; simpl.
  - apply @is_derive_const.
  - apply (is_derive_plus (fun u => sumR n (fun k => f k u)) (f n)); [apply IHn; auto|apply H; lia].
Qed.

Lemma continuous_peval : forall p t, continuous (peval p) t.
Proof.
  induction p; intros; simpl.
  - apply continuous_const.
  - apply (continuous_plus (fun _ => a) (fun x => x * peval p x)); [apply continuous_const|].
    apply (continuous_mult (fun x => x) (peval p)); [apply continuous_id|apply IHp].
Qed.

Lemma is_derive_pint : forall n p t, (length p <= n)%nat ->
  is_derive (pint n p) t (peval p t).
Proof.
  intros n p t Hl. rewrite (peval_sum p t n Hl). unfold pint.
  apply (is_derive_sumR n (fun k u => nth k p 0 * (u ^ (k + 1) / (INR k + 1)))
                          (fun k u => nth k p 0 * u ^ k)).
  intros k Hk.
  assert (INR k + 1 <> 0) by (pose proof (pos_INR k); lra).
  auto_derive; auto.
  replace (k + 1)%nat with (S k) by lia. simpl pred. rewrite S_INR. field; auto.
Qed.

Lemma RInt_peval : forall n p a b, (length p <= n)%nat ->
  is_RInt (peval p) a b (pint n p b - pint n p a).
Proof.
  intros n p a b Hl.
  apply (is_RInt_derive (pint n p) (peval p)).
  - intros. apply is_derive_pint; auto.
  - intros. apply continuous_peval.
Qed.

(** Derivatives at zero. *)
Fixpoint pderiv_aux (k : nat) (p : list R) : list R :=
  match p with nil => nil | c :: q => (INR k * c) :: pderiv_aux (S k) q end.
Definition pderiv (p : list R) : list R := match p with nil => nil | _ :: q => pderiv_aux 1 q end.

Lemma is_derive_peval : forall p t, is_derive (peval p) t (peval (pderiv p) t).
Proof.
  assert (A : forall p k t, peval (pderiv_aux (S k) p) t = INR (S k) * peval p t + t * peval (pderiv p) t).
  { induction p; intros k t; [simpl; ring|].
    cbn [pderiv_aux pderiv peval]. rewrite (IHp (S k) t).
    destruct p as [|b q].
    - simpl peval. ring.
    - rewrite (IHp 0%nat t). rewrite !S_INR. change (INR 0) with 0. ring. }
  induction p; intros t; simpl peval.
  - apply @is_derive_const.
  - assert (E : peval (pderiv (a :: p)) t = 0 + (1 * peval p t + t * peval (pderiv p) t)).
    { cbn [pderiv]. rewrite (A p 0%nat t). simpl. ring. }
    change (is_derive (fun x => a + x * peval p x) t (peval (pderiv (a :: p)) t)). rewrite E.
    apply (is_derive_plus (fun _ => a) (fun x => x * peval p x)); [apply @is_derive_const|].
    apply (is_derive_mult (fun x => x) (peval p) t 1 (peval (pderiv p) t)).
    + apply @is_derive_id.
    + apply IHp.
    + intros; apply Rmult_comm.
Qed.

Lemma nth_pderiv_aux : forall p k i, nth i (pderiv_aux k p) 0 = INR (k + i) * nth i p 0.
Proof.
  induction p; intros k i; simpl.
  - destruct i; ring.
  - destruct i; simpl.
    + rewrite Nat.add_0_r. reflexivity.
    + rewrite IHp. f_equal. f_equal. lia.
Qed.
Lemma nth_pderiv : forall p i, nth i (pderiv p) 0 = INR (S i) * nth (S i) p 0.
Proof.
  intros [|c q] i; simpl pderiv.
  - destruct i; simpl; ring.
  - rewrite nth_pderiv_aux. reflexivity.
Qed.

Lemma Derive_n_peval0 : forall d p, Derive_n (peval p) d 0 = INR (fact d) * nth d p 0.
Proof.
  assert (A : forall d p t, Derive_n (peval p) (S d) t = Derive_n (peval (pderiv p)) d t).
  { intros. replace (S d) with (d + 1)%nat by lia. rewrite <- (Derive_n_comp (peval p) d 1 t).
    apply Derive_n_ext. intros u.
    exact (is_derive_unique _ _ _ (is_derive_peval p u)).
  }
  induction d; intros p.
  - destruct p; simpl; ring.
  - rewrite A, IHd, nth_pderiv, fact_simpl, mult_INR. ring.
Qed.
