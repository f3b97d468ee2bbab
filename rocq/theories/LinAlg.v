(** Elementary linear algebra over R: a square system with trivial kernel is solvable. Used only to show that
    the contracts put on SciPy's solvers can be met. *)
From Coq Require Import Reals List Arith Lia Lra.
From Verif Require Import Base BaseLemmas GridModel HartreeSpec.
Local Open Scope R_scope.

Lemma all_zero_dec : forall m (f : nat -> R), (forall i, (i < m)%nat -> f i = 0) \/ (exists i, (i < m)%nat /\ f i <> 0).
Proof.
  induction m; intros f; [left; intros; lia|].
  destruct (IHm f) as [H|(i & Hi & H)]; [|right; exists i; split; auto; lia].
  destruct (Req_EM_T (f m) 0) as [E|E]; [left|right; exists m; auto].
  intros i Hi. destruct (Nat.eq_dec i m) as [->|]; auto. apply H. lia.
Qed.

Lemma homog : forall n m A, (m < n)%nat ->
  exists x : vec, (exists j, (j < n)%nat /\ x j <> 0) /\ forall i, (i < m)%nat -> sumR n (fun j => A i j * x j) = 0.
Proof.
  induction n; intros m A Hm; [lia|].
  destruct (all_zero_dec m (fun i => A i n)) as [H|(i0 & Hi0 & H)].
  - exists (fun j => if (j =? n)%nat then 1 else 0). split.
    + exists n. split; [lia|]. rewrite Nat.eqb_refl. lra.
    + intros i Hi. simpl. rewrite Nat.eqb_refl, H by auto.
      rewrite sumR_zero; [ring|].
      intros j Hj. destruct (Nat.eqb_spec j n); [lia|ring].
  - set (row := fun k => if (k =? i0)%nat then A (m - 1)%nat else A k).
    destruct (IHn (m - 1)%nat (fun k j => row k j - row k n / A i0 n * A i0 j) ltac:(lia)) as (x & (j0 & Hj0 & Hx0) & Hx).
    set (xn := - (1 / A i0 n) * sumR n (fun j => A i0 j * x j)).
    exists (fun j => if (j =? n)%nat then xn else x j). split.
    + exists j0. split; [lia|]. destruct (Nat.eqb_spec j0 n); [lia|auto].
    + assert (G : forall B : vec, sumR (S n) (fun j => B j * (if (j =? n)%nat then xn else x j))
                   = sumR n (fun j => B j * x j) + B n * xn).
      { intros B. simpl. rewrite Nat.eqb_refl. f_equal. apply sumR_ext. intros j Hj.
        destruct (Nat.eqb_spec j n); [lia|auto]. }
      intros i Hi. rewrite (G (A i)). unfold xn. destruct (Nat.eq_dec i i0) as [->|Hne].
      * field. auto.
      * assert (R : exists k, (k < m - 1)%nat /\ row k = A i).
        { unfold row. destruct (Nat.eq_dec i (m - 1)) as [->|].
          - exists i0. rewrite Nat.eqb_refl. split; auto. lia.
          - exists i. destruct (Nat.eqb_spec i i0); [lia|]. split; auto. lia. }
        destruct R as (k & Hk & ER). specialize (Hx k Hk). rewrite ER in Hx.
        rewrite (sumR_ext n _ (fun j => A i j * x j - A i n / A i0 n * (A i0 j * x j))) in Hx by (intros; ring).
        rewrite sumR_minus, sumR_scal in Hx. unfold Rdiv in *. lra.
Qed.

Lemma nonsing_solvable : forall n A b, nonsing n A -> exists x, solves n A b x.
Proof.
  intros n A b HA.
  destruct (homog (S n) n (fun i j => if (j =? n)%nat then - b i else A i j) ltac:(lia)) as (x & (j0 & Hj0 & Hx0) & Hx).
  assert (G : forall i, (i < n)%nat -> sumR n (fun j => A i j * x j) = b i * x n).
  { intros i Hi. specialize (Hx i Hi). simpl in Hx. rewrite Nat.eqb_refl in Hx.
    rewrite (sumR_ext n _ (fun j => A i j * x j)) in Hx; [lra|].
    intros j Hj. destruct (Nat.eqb_spec j n); [lia|auto]. }
  destruct (Req_EM_T (x n) 0) as [E|E].
  - exfalso. apply Hx0. destruct (Nat.eq_dec j0 n) as [->|]; auto.
    apply (HA x); [|lia]. intros i Hi. rewrite G, E by auto. ring.
  - exists (fun j => x j / x n). intros i Hi.
    rewrite (sumR_ext n _ (fun j => A i j * x j * / x n)) by (intros; unfold Rdiv; ring).
    rewrite sumR_scal_r, G by auto. field. auto.
Qed.

Lemma finite_choice : forall n (P : nat -> vec -> Prop), (forall i, (i < n)%nat -> exists x, P i x) ->
  exists f : nat -> vec, forall i, (i < n)%nat -> P i (f i).
Proof.
  induction n; intros P H; [exists (fun _ _ => 0); intros; lia|].
  destruct (IHn P) as (f & Hf); [intros; apply H; lia|]. destruct (H n ltac:(lia)) as (x & Hx).
  exists (fun i => if (i =? n)%nat then x else f i). intros i Hi. destruct (Nat.eqb_spec i n) as [->|]; auto.
  apply Hf. lia.
Qed.

(** A solver for every right-hand side exists (the inverse matrix). *)
Lemma nonsing_solver : forall n A, nonsing n A -> exists sp, solver_for n A sp.
Proof.
  intros n A HA.
  destruct (finite_choice n (fun k x => solves n A (fun i => if (k =? i)%nat then 1 else 0) x)) as (f & Hf).
  { intros k Hk. apply nonsing_solvable; auto. }
  exists (fun b j => sumR n (fun k => b k * f k j)). intros b i Hi.
  rewrite (sumR_ext n _ (fun j => sumR n (fun k => b k * (A i j * f k j)))).
  2:{ intros. rewrite <- sumR_scal. apply sumR_ext. intros; ring. }
  rewrite sumR_swap. rewrite (sumR_single n i).
  - rewrite sumR_scal. rewrite (Hf i Hi i Hi), Nat.eqb_refl. ring.
  - auto.
  - intros k Hk Hne. rewrite sumR_scal. rewrite (Hf k Hk i Hi). destruct (Nat.eqb_spec k i); [congruence|ring].
Qed.
Lemma eye_solver : forall n, solver_for n eye (fun b => b).
Proof.
  intros n b i Hi. rewrite (sumR_single n i); auto; unfold eye.
  - rewrite Nat.eqb_refl. ring.
  - intros j Hj Hne. destruct (Nat.eqb_spec i j); [congruence|ring].
Qed.
Lemma eye_matmul : forall n A i j, (i < n)%nat -> matmul n eye A i j = A i j.
Proof.
  intros n A i j Hi. unfold matmul, eye. rewrite (sumR_single n i); auto.
  - rewrite Nat.eqb_refl. ring.
  - intros k Hk Hne. destruct (Nat.eqb_spec i k); [congruence|ring].
Qed.
Lemma eye_nonsing : forall n, nonsing n eye.
Proof.
  intros n x H i Hi. specialize (H i Hi). unfold eye in H. rewrite (sumR_single n i) in H; auto.
  - rewrite Nat.eqb_refl in H. lra.
  - intros k Hk Hne. destruct (Nat.eqb_spec i k); [congruence|ring].
Qed.
