(** Lemmas about finite sums and index arithmetic. *)
From Coq Require Import Reals List Arith Lia Lra ZArith.
From Verif Require Import Base.
Local Open Scope R_scope.

Lemma sumR_ext : forall n f g, (forall i, (i < n)%nat -> f i = g i) -> sumR n f = sumR n g.
Proof.
  induction n; intros f g H; simpl; [reflexivity|].
  rewrite (IHn f g), (H n); auto.
Qed.

Lemma sumR_plus : forall n f g, sumR n (fun i => f i + g i) = sumR n f + sumR n g.
Proof. induction n; intros; simpl; [lra|]. rewrite IHn; lra. Qed.

Lemma sumR_minus : forall n f g, sumR n (fun i => f i - g i) = sumR n f - sumR n g.
Proof. induction n; intros; simpl; [lra|]. rewrite IHn; lra. Qed.

Lemma sumR_opp : forall n f, sumR n (fun i => - f i) = - sumR n f.
Proof. induction n; intros; simpl; [lra|]. rewrite IHn; lra. Qed.

Lemma sumR_scal : forall n c f, sumR n (fun i => c * f i) = c * sumR n f.
Proof. induction n; intros; simpl; [lra|]. rewrite IHn; lra. Qed.

Lemma sumR_scal_r : forall n c f, sumR n (fun i => f i * c) = sumR n f * c.
Proof. induction n; intros; simpl; [lra|]. rewrite IHn; lra. Qed.

Lemma sumR_zero : forall n f, (forall i, (i < n)%nat -> f i = 0) -> sumR n f = 0.
Proof.
  induction n; intros f H; simpl; [reflexivity|].
  rewrite IHn, (H n); auto; lra.
Qed.

Lemma sumR_const : forall n c, sumR n (fun _ => c) = INR n * c.
Proof.
  induction n; intros; [simpl; lra|].
  rewrite S_INR. simpl sumR. rewrite IHn. lra.
Qed.

Lemma sumR_swap : forall n m (f : nat -> nat -> R),
  sumR n (fun i => sumR m (fun j => f i j)) = sumR m (fun j => sumR n (fun i => f i j)).
Proof.
  induction n; intros; simpl.
  - symmetry. apply sumR_zero. auto.
  - rewrite IHn. rewrite <- sumR_plus. reflexivity.
Qed.

Lemma sumR_app : forall n m f, sumR (n + m) f = sumR n f + sumR m (fun i => f (n + i)%nat).
Proof.
  intros n m f. induction m.
  - rewrite Nat.add_0_r. simpl. lra.
  - rewrite Nat.add_succ_r. simpl. rewrite IHm. lra.
Qed.

Lemma sumR_first : forall n f, sumR (S n) f = f 0%nat + sumR n (fun i => f (S i)).
Proof.
  intros. change (S n) with (1 + n)%nat. rewrite sumR_app. simpl. lra.
Qed.

Lemma sumR_rev : forall n f, sumR n (fun i => f (n - 1 - i)%nat) = sumR n f.
Proof.
  induction n; intros; [reflexivity|].
  rewrite sumR_first. simpl sumR at 2.
  replace (S n - 1 - 0)%nat with n by lia.
  rewrite (sumR_ext n (fun i => f (S n - 1 - S i)%nat) (fun i => f (n - 1 - i)%nat)).
  - rewrite IHn. lra.
  - intros. f_equal. lia.
Qed.

Lemma sumR_nonneg : forall n f, (forall i, (i < n)%nat -> 0 <= f i) -> 0 <= sumR n f.
Proof.
  induction n; intros f H; simpl; [lra|].
  assert (0 <= sumR n f) by auto. assert (0 <= f n) by auto. lra.
Qed.

Lemma sumR_le : forall n f g, (forall i, (i < n)%nat -> f i <= g i) -> sumR n f <= sumR n g.
Proof.
  induction n; intros f g H; simpl; [lra|].
  assert (sumR n f <= sumR n g) by auto. assert (f n <= g n) by auto. lra.
Qed.

Lemma sumR_pos : forall n f, (0 < n)%nat -> (forall i, (i < n)%nat -> 0 < f i) -> 0 < sumR n f.
Proof.
  intros n f Hn H. destruct n; [lia|]. simpl.
  assert (0 <= sumR n f) by (apply sumR_nonneg; intros; left; auto).
  assert (0 < f n) by auto. lra.
Qed.

Lemma sumR_abs_le : forall n f, Rabs (sumR n f) <= sumR n (fun i => Rabs (f i)).
Proof.
  induction n; intros; simpl.
  - rewrite Rabs_R0. lra.
  - eapply Rle_trans; [apply Rabs_triang|]. specialize (IHn f). lra.
Qed.

Lemma sumR_single : forall n k f,
  (k < n)%nat -> (forall i, (i < n)%nat -> i <> k -> f i = 0) -> sumR n f = f k.
Proof.
  induction n; intros k f Hk H; [lia|]. simpl.
  destruct (Nat.eq_dec k n) as [->|Hne].
  - rewrite sumR_zero; [lra|]. intros. apply H; lia.
  - rewrite (IHn k f); [|lia|intros; apply H; lia]. rewrite (H n); [lra|lia|lia].
Qed.

Lemma sumR_delta : forall n k (f : nat -> R),
  (k < n)%nat -> sumR n (fun i => (if Nat.eqb i k then 1 else 0) * f i) = f k.
Proof.
  intros. rewrite (sumR_single n k); auto.
  - rewrite Nat.eqb_refl. lra.
  - intros i Hi Hne. apply Nat.eqb_neq in Hne. rewrite Hne. lra.
Qed.

(** Sum over a flattened index k = ia + Na*ir. *)
Lemma sumR_flat : forall Na Nr f,
  sumR (Na * Nr) f = sumR Nr (fun ir => sumR Na (fun ia => f (ia + Na * ir)%nat)).
Proof.
  intros Na Nr f. induction Nr.
  - rewrite Nat.mul_0_r. reflexivity.
  - rewrite Nat.mul_succ_r, sumR_app. simpl. rewrite IHNr. f_equal.
    apply sumR_ext. intros. f_equal. lia.
Qed.

(** Splitting a sum at an arbitrary point, with shifted tail. *)
Lemma sumR_split_le : forall n m f, (m <= n)%nat ->
  sumR n f = sumR m f + sumR (n - m) (fun i => f (m + i)%nat).
Proof. intros. rewrite <- sumR_app. f_equal. lia. Qed.

Lemma sumR_sq_zero : forall n f, (forall i, (i < n)%nat -> 0 <= f i) ->
  sumR n f = 0 -> forall i, (i < n)%nat -> f i = 0.
Proof.
  induction n; intros f H0 Hs i Hi; [lia|]. simpl in Hs.
  assert (0 <= sumR n f) by (apply sumR_nonneg; auto).
  assert (0 <= f n) by auto.
  destruct (Nat.eq_dec i n) as [->|]; [lra|].
  apply IHn; auto; [lra|lia].
Qed.

(** Index arithmetic for k = ia + Na*ir. *)
Lemma flat_mod : forall Na ia ir, (ia < Na)%nat -> ((ia + Na * ir) mod Na = ia)%nat.
Proof.
  intros. rewrite Nat.mul_comm, Nat.mod_add by lia. apply Nat.mod_small; auto.
Qed.

Lemma flat_div : forall Na ia ir, (ia < Na)%nat -> ((ia + Na * ir) / Na = ir)%nat.
Proof.
  intros. rewrite Nat.mul_comm, Nat.div_add by lia. rewrite Nat.div_small by auto. lia.
Qed.

Lemma flat_lt : forall Na Nr ia ir, (ia < Na)%nat -> (ir < Nr)%nat -> (ia + Na * ir < Na * Nr)%nat.
Proof.
  intros.
  assert (ir + 1 <= Nr)%nat by lia.
  assert (Na * (ir + 1) <= Na * Nr)%nat by (apply Nat.mul_le_mono_l; auto).
  lia.
Qed.

Lemma flat_inv : forall Na k, (0 < Na)%nat -> (k = k mod Na + Na * (k / Na))%nat.
Proof. intros. rewrite Nat.add_comm. apply Nat.div_mod. lia. Qed.

Lemma flat_div_lt : forall Na Nr k, (k < Na * Nr)%nat -> (k / Na < Nr)%nat.
Proof. intros. apply Nat.div_lt_upper_bound; [|auto]. destruct Na; lia. Qed.

Lemma sumL_app : forall a b, sumL (a ++ b) = sumL a + sumL b.
Proof. induction a; intros; simpl; [lra|rewrite IHa; lra]. Qed.

(** Linear operators. *)
Lemma matvec_ext : forall n M M' v v' i,
  (forall j, (j < n)%nat -> M i j = M' i j) -> (forall j, (j < n)%nat -> v j = v' j) ->
  matvec n M v i = matvec n M' v' i.
Proof. intros. apply sumR_ext. intros. rewrite H, H0; auto. Qed.

Lemma matvec_plus : forall n M u v i,
  matvec n M (fun j => u j + v j) i = matvec n M u i + matvec n M v i.
Proof. intros. unfold matvec. rewrite <- sumR_plus. apply sumR_ext. intros; lra. Qed.

Lemma matvec_scal : forall n M c v i,
  matvec n M (fun j => c * v j) i = c * matvec n M v i.
Proof. intros. unfold matvec. rewrite <- sumR_scal. apply sumR_ext. intros; lra. Qed.

Lemma matvec_matmul : forall n m A B v i,
  matvec m (matmul n A B) v i = matvec n A (matvec m B v) i.
Proof.
  intros. unfold matvec, matmul.
  rewrite (sumR_ext m _ (fun j => sumR n (fun k => A i k * B k j * v j))).
  2:{ intros. rewrite <- sumR_scal_r. reflexivity. }
  rewrite sumR_swap. apply sumR_ext. intros k Hk.
  rewrite <- sumR_scal. apply sumR_ext. intros; ring.
Qed.
