(** Integrals on grids whose quadrature weights are positive. *)
From Coq Require Import Reals List Arith Lia Lra ZArith Bool.
From Verif Require Import Base BaseLemmas GridModel Poly GridSpec GridProofs NCProofs GridWitness GridMore NCSigns.
Import ListNotations.
Local Open Scope R_scope.
Local Opaque sinh cosh.

(** Block sizes with positive weights only. *)
Definition signed_well (N : nat) : Prop := In N [2; 3; 4; 5; 6; 7; 8; 10]%nat.

Lemma rule_positive : forall N Nm w s, signed_well N -> (1 <= Nm)%nat -> solves N nc_A (nc_b N) w -> solves N nc_A1 nc_b1 s ->
  forall t, (t < nc_NP N Nm)%nat -> 0 < nc_weights N Nm w s t.
Proof.
  intros N Nm w s HN HM Hw Hs. unfold signed_well in HN. cbn [In] in HN.
  destruct HN as [<-|[<-|[<-|[<-|[<-|[<-|[<-|[<-|[]]]]]]]]];
    [apply positive2|apply positive3|apply positive4|apply positive5|apply positive6|apply positive7|apply positive8|apply positive10]; auto.
Qed.
Lemma gwi_split : forall g k, (k < Nelem g)%nat -> gwi g k = wa g (k / Nr g)%nat * wr g (k mod Nr g)%nat /\ (k / Nr g < Na g)%nat /\ (k mod Nr g < Nr g)%nat.
Proof.
  intros g k Hk. pose proof (Nr_pos g). split; [reflexivity|]. split; [|apply Nat.mod_upper_bound; lia].
  apply Nat.div_lt_upper_bound; [lia|]. unfold Nelem in Hk. lia.
Qed.
Lemma gwi_positive : forall g, grid_ok g -> lstsq_ok g -> signed_well (gNP g) -> forall k, (k < Nelem g)%nat -> 0 < gwi g k.
Proof.
  intros g (HN & HA & HR & _) (Hw & Hs & _) HG k Hk. destruct (gwi_split g k Hk) as (-> & I1 & I2).
  apply Rmult_lt_0_compat; [apply (rule_positive (gNP g) (gNMa g)); auto|apply (rule_positive (gNP g) (gNMr g)); auto].
Qed.

Section Positive.
Variable g : grid.
Hypothesis Hg : grid_ok g.
Hypothesis W : forall k, (k < Nelem g)%nat -> 0 < gwi g k.
Lemma unit_pos : forall k, (k < Nelem g)%nat -> 0 < gwi g k * gw g k.
Proof. intros k Hk. apply Rmult_lt_0_compat; [apply W; auto|apply gw_pos; auto]. Qed.
Lemma int_mono : forall f h, (forall k, (k < Nelem g)%nat -> f k <= h k) -> integrate1 g f <= integrate1 g h.
Proof.
  intros f h H. unfold integrate1. apply Rmult_le_compat_l; [apply Rlt_le, iprefac_pos; auto|]. apply sumR_le. intros k Hk.
  apply Rmult_le_compat_l; [apply Rlt_le, unit_pos; auto|auto].
Qed.
Lemma int_zero : integrate1 g (fun _ => 0) = 0.
Proof. unfold integrate1. rewrite sumR_zero by (intros; ring). ring. Qed.
Lemma int_nonneg : forall f, (forall k, (k < Nelem g)%nat -> 0 <= f k) -> 0 <= integrate1 g f.
Proof. intros f H. rewrite <- int_zero. apply int_mono. exact H. Qed.
Lemma int_vanish : forall f, (forall k, (k < Nelem g)%nat -> 0 <= f k) -> integrate1 g f <= 0 -> forall k, (k < Nelem g)%nat -> f k = 0.
Proof.
  intros f H Z k Hk. apply Rle_antisym; [|apply H; auto]. apply Rnot_lt_le. intros P.
  assert (T : gwi g k * gw g k * f k <= sumR (Nelem g) (fun k => gwi g k * gw g k * f k)).
  { apply (term_le (Nelem g) (fun k => gwi g k * gw g k * f k) k Hk). intros i Hi. apply Rmult_le_pos; [apply Rlt_le, unit_pos; auto|apply H; auto]. }
  assert (0 < gwi g k * gw g k * f k) by (apply Rmult_lt_0_compat; [apply unit_pos; auto|exact P]).
  pose proof (iprefac_pos g Hg). unfold integrate1 in Z. nra.
Qed.
Lemma int_abs : forall f, Rabs (integrate1 g f) <= integrate1 g (fun k => Rabs (f k)).
Proof.
  intros f. apply Rabs_le. split.
  - replace (- integrate1 g (fun k => Rabs (f k))) with (integrate1 g (fun k => - Rabs (f k))).
    + apply int_mono. intros k _. pose proof (Rle_abs (- f k)) as H. rewrite Rabs_Ropp in H. lra.
    + unfold integrate1. rewrite (sumR_ext _ _ (fun k => -1 * (gwi g k * gw g k * Rabs (f k)))) by (intros; ring). rewrite sumR_scal. ring.
  - apply int_mono. intros k _. apply Rle_abs.
Qed.
Lemma int_schwarz : forall f h, integrate1 g (fun k => f k * h k) ^ 2 <= integrate1 g (fun k => f k ^ 2) * integrate1 g (fun k => h k ^ 2).
Proof.
  intros f h. set (A := integrate1 g (fun k => f k ^ 2)). set (B := integrate1 g (fun k => f k * h k)). set (C := integrate1 g (fun k => h k ^ 2)).
  assert (Q : forall s, 0 <= A - 2 * s * B + s ^ 2 * C).
  { intros s. replace (A - 2 * s * B + s ^ 2 * C) with (integrate1 g (fun k => (f k - s * h k) ^ 2)).
    - apply int_nonneg. intros. apply pow2_ge_0.
    - unfold A, B, C, integrate1.
      rewrite (sumR_ext _ (fun k => gwi g k * gw g k * (f k - s * h k) ^ 2)
        (fun k => (gwi g k * gw g k * f k ^ 2 + -2 * s * (gwi g k * gw g k * (f k * h k))) + s ^ 2 * (gwi g k * gw g k * h k ^ 2))) by (intros; ring).
      rewrite !sumR_plus, !sumR_scal. ring. }
  assert (C0 : 0 <= C) by (apply int_nonneg; intros; apply pow2_ge_0). assert (A0 : 0 <= A) by (apply int_nonneg; intros; apply pow2_ge_0).
  destruct (Req_dec C 0) as [Z|Z].
  - assert (B = 0).
    { destruct (Req_dec B 0) as [?|NB]; auto. pose proof (Q ((A + 1) / (2 * B))) as X. rewrite Z in X.
      replace (A - 2 * ((A + 1) / (2 * B)) * B + ((A + 1) / (2 * B)) ^ 2 * 0) with (-1) in X by (field; auto). lra. }
    rewrite H, Z. lra.
  - pose proof (Q (B / C)) as X. replace (A - 2 * (B / C) * B + (B / C) ^ 2 * C) with ((A * C - B ^ 2) / C) in X by (field; auto).
    assert (0 < C) by lra. assert (Y : 0 * C <= (A * C - B ^ 2) / C * C) by (apply Rmult_le_compat_r; lra).
    unfold Rdiv in Y. rewrite Rmult_assoc, Rinv_l in Y by auto. lra.
Qed.
End Positive.

(** ** Nine points per block *)
Lemma nine_negative : forall Nm w s, (1 <= Nm)%nat -> solves 9 nc_A (nc_b 9) w -> solves 9 nc_A1 nc_b1 s -> nc_weights 9 Nm w s 4%nat < 0.
Proof.
  intros Nm w s HM Hw Hs. unfold nc_weights. rewrite nc_loop_val.
  assert (B : forall n, (1 <= n)%nat -> sumR n (fun i => if ((9 - 1) * i <=? 4)%nat && (4 <? (9 - 1) * i + 9)%nat then w (4 - (9 - 1) * i)%nat else 0) = w 4%nat).
  { induction n as [|n IH]; intros Hn; [lia|]. cbn [sumR]. destruct n as [|n].
    - cbn [sumR]. simpl. lra.
    - rewrite IH by lia. assert (E : ((9 - 1) * S n <=? 4)%nat = false) by (apply Nat.leb_gt; lia). rewrite E. cbn [andb]. lra. }
  rewrite B by exact HM. rewrite (block9_ok w Hw 4) by lia. unfold nc_ends, nc_w1.
  destruct (nc_NP 9 Nm - (9 - 1) <=? 4)%nat eqn:A; cbn [andb].
  - destruct (4 <? nc_NP 9 Nm)%nat.
    + set (i := (9 - 1 - 1 - (4 - (nc_NP 9 Nm - (9 - 1))))%nat). assert (Hi : (i + 1 < 9)%nat) by (unfold i; lia).
      rewrite (ends9_ok s Hs _ Hi). clearbody i. unfold block9, ends9. do 8 (destruct i as [|i]; [cbn [nth Nat.add]; lra|]). lia.
    + cbn [Nat.ltb Nat.leb Nat.sub]. rewrite (ends9_ok s Hs (4 + 1)%nat) by lia. unfold block9, ends9. cbn [nth Nat.add]. lra.
  - cbn [Nat.ltb Nat.leb Nat.sub]. rewrite (ends9_ok s Hs (4 + 1)%nat) by lia. unfold block9, ends9. cbn [nth Nat.add]. lra.
Qed.
Lemma nine_first : forall Nm w s, (1 <= Nm)%nat -> solves 9 nc_A (nc_b 9) w -> solves 9 nc_A1 nc_b1 s -> 0 < nc_weights 9 Nm w s 0%nat.
Proof.
  intros Nm w s HM Hw Hs. unfold nc_weights. rewrite nc_loop_val.
  assert (B : forall n, (1 <= n)%nat -> sumR n (fun i => if ((9 - 1) * i <=? 0)%nat && (0 <? (9 - 1) * i + 9)%nat then w (0 - (9 - 1) * i)%nat else 0) = w 0%nat).
  { induction n as [|n IH]; intros Hn; [lia|]. cbn [sumR]. destruct n as [|n].
    - cbn [sumR]. simpl. lra.
    - rewrite IH by lia. assert (E : ((9 - 1) * S n <=? 0)%nat = false) by (apply Nat.leb_gt; lia). rewrite E. cbn [andb]. lra. }
  rewrite B by exact HM. rewrite (block9_ok w Hw 0) by lia. unfold nc_ends, nc_w1.
  assert (A : (nc_NP 9 Nm - (9 - 1) <=? 0)%nat = false) by (apply Nat.leb_gt; unfold nc_NP; lia). rewrite A. cbn [andb].
  cbn [Nat.ltb Nat.leb Nat.sub]. rewrite (ends9_ok s Hs (0 + 1)%nat) by lia. unfold block9, ends9. cbn [nth Nat.add]. lra.
Qed.
Lemma nine_refuted : forall g, grid_ok g -> lstsq_ok g -> gNP g = 9%nat ->
  exists f, (forall k, 0 <= f k) /\ integrate1 g f < 0.
Proof.
  intros g Hg (Hw & Hs & _) EN. pose proof Hg as (_ & HA & HR & _). rewrite EN in Hw, Hs.
  assert (NR : (9 <= Nr g)%nat) by (unfold Nr; rewrite EN; lia).
  assert (H4 : (4 < Nelem g)%nat) by (unfold Nelem; pose proof (Na_pos g); nia).
  exists (fun k => if (k =? 4)%nat then 1 else 0). split; [intros k; destruct (k =? 4)%nat; lra|].
  assert (G : gwi g 4%nat < 0).
  { destruct (gwi_split g 4 H4) as (-> & _ & _). rewrite Nat.div_small, Nat.mod_small by lia. unfold wa, wr. rewrite EN.
    pose proof (nine_first (gNMa g) _ _ HA Hw Hs). pose proof (nine_negative (gNMr g) _ _ HR Hw Hs). nra. }
  unfold integrate1. rewrite (sumR_single (Nelem g) 4); auto.
  - cbn [Nat.eqb]. pose proof (iprefac_pos g Hg) as P. pose proof (gw_pos g 4 Hg H4) as Q.
    assert (0 < iprefac g * gw g 4%nat) by (apply Rmult_lt_0_compat; auto). nra.
  - intros i Hi Hn. apply Nat.eqb_neq in Hn. rewrite Hn. ring.
Qed.
