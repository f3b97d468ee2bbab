(** Partition: the overlap measure, its functional F and the derivative. *)
From Coq Require Import Reals List Arith Lia Lra ZArith Bool String.
From Coquelicot Require Import Coquelicot.
From Verif Require Import Base BaseLemmas GridModel GridSpec GridProofs HartreeModel SolverModel SolverSpec SolverWitness LibxcModel OptionsModel KSModel KSSpec
  InverterModel PartitionModel PartitionSpec PartitionBase PartitionFrame PartitionEnergy PartitionEp PartitionKin PartitionTotal Gauss.
Import ListNotations.
Local Open Scope R_scope.

(** * The error function *)
Lemma erf_gA : forall x, erf x = 2 / sqrt PI * gA x. Proof. reflexivity. Qed.
Lemma erf_range : forall x, -1 < erf x < 1.
Proof.
  intros. rewrite erf_gA. pose proof (gA_bound x) as (A & B). pose proof sqrt_PI_pos as P. set (r := sqrt PI) in *.
  assert (X : 2 / r * (r / 2) = 1) by (field; lra). assert (0 < 2 / r) by (apply Rdiv_lt_0_compat; lra). split; nra.
Qed.
Lemma erf_nonneg : forall x, 0 <= x -> 0 <= erf x.
Proof. intros. rewrite erf_gA. apply Rmult_le_pos; [|apply gA_nonneg; auto]. apply Rlt_le, Rdiv_lt_0_compat; [lra|apply sqrt_PI_pos]. Qed.
Lemma erf_derive : forall x : R, is_derive erf x (2 / sqrt PI * exp (- x ^ 2)).
Proof.
  intros. exact (is_derive_scal gA x (2 / sqrt PI) _ (gA_derive x)).
Qed.
Lemma erf_incr : forall x y, x < y -> erf x < erf y.
Proof.
  intros x y H. destruct (MVT_gen erf x y (fun x => 2 / sqrt PI * exp (- x ^ 2))) as (c & _ & M).
  - intros. apply erf_derive.
  - intros. apply derivable_continuous_pt. exists (2 / sqrt PI * exp (- x0 ^ 2)). apply is_derive_Reals. apply erf_derive.
  - assert (0 < 2 / sqrt PI * exp (- c ^ 2)) by (apply Rmult_lt_0_compat; [apply Rdiv_lt_0_compat; [lra|apply sqrt_PI_pos]|apply exp_pos]).
    assert (0 < 2 / sqrt PI * exp (- c ^ 2) * (y - x)) by (apply Rmult_lt_0_compat; lra). lra.
Qed.
Lemma erf_0 : erf 0 = 0. Proof. rewrite erf_gA, gA_0. ring. Qed.

(** * S, F, dS/dn and dF/dn *)
Lemma overlap_S_ok : forall g pol na nb S, overlap_S g pol na nb = Ok S -> (forall k, (k < Nelem g)%nat -> 0 <= sum_cols pol na k * sum_cols pol nb k) /\ S = overlap g pol na nb.
Proof.
  intros g pol na nb S H. unfold overlap_S in H. destruct (np_sqrt1 _ _) as [r|] eqn:E; [|discriminate]. injection H as <-. pose proof (np_sqrt1_ok _ _ _ E) as R. split.
  - intros k Hk. apply R. auto.
  - unfold overlap. apply integrate1_ext. intros k Hk. apply R. auto.
Qed.
Lemma overlap_S_total : forall g pol na nb, (forall k, (k < Nelem g)%nat -> 0 <= sum_cols pol na k * sum_cols pol nb k) -> overlap_S g pol na nb = Ok (overlap g pol na nb).
Proof.
  intros g pol na nb H. destruct (overlap_S g pol na nb) as [S|e] eqn:E.
  - f_equal. apply (overlap_S_ok _ _ _ _ _ E).
  - exfalso. unfold overlap_S, np_sqrt1, np_sqrt, finite in E. match type of E with context [forallb ?a ?b] => destruct (forallb a b) eqn:F end; [discriminate|].
    apply Bool.not_true_iff_false in F. apply F. apply forallb_forall. intros k Hk. apply in_seq in Hk. apply forallb_forall. intros s _.
    destruct (Rlt_dec _ 0) as [L|]; [|reflexivity]. exfalso. specialize (H k ltac:(lia)). lra.
Qed.

(** the value stored at one point *)
Lemma dSdn_val : forall c own other k s, 0 <= own k s -> 0 <= other k s -> dSdn c own other k s = if Req_EM_T (own k s) 0 then 0 else c * / 2 * sqrt (other k s / own k s).
Proof.
  intros c own other k s H1 H2. unfold dSdn, ndiv. destruct (Req_EM_T (own k s) 0) as [Z|Z].
  - destruct (Req_EM_T (other k s) 0); auto. destruct (Rlt_dec 0 (other k s)); auto.
  - destruct (Rlt_dec _ 0) as [L|].
    + exfalso. assert (0 <= other k s / own k s); [|lra]. apply Rmult_le_pos; auto. apply Rlt_le, Rinv_0_lt_compat. lra.
    + lra.
Qed.

Definition own_dens (c : comp) (na nb : mat) : mat := match c with Ca | CA => na | Cb | CB => nb end.
Definition other_dens (c : comp) (na nb : mat) : mat := match c with Ca | CA => nb | Cb | CB => na end.

Lemma in_comps_b : forall e c, In c (comps_b e) <-> member e c /\ (c = Cb \/ c = CB).
Proof. intros [] []; simpl; intuition congruence. Qed.

Theorem overlap_spec : forall g p p', vp_overlap g p = Ok p' -> exists na nb, p_na p = Some na /\ p_nb p = Some nb /\
  (forall k, (k < Nelem g)%nat -> 0 <= sumR (p_pol p) (fun s => na k s) * sumR (p_pol p) (fun s => nb k s)) /\
  p_E p' "S"%string = Some (overlap g (p_pol p) na nb) /\ p_E p' "F"%string = Some (erf (2 * overlap g (p_pol p) na nb)) /\
  forall c, member (p_ens p) c -> exists f f', p_f p c = Some f /\ p_f p' c = Some f' /\
    let d := dSdn (f_scale f) (own_dens c na nb) (other_dens c na nb) in
    f_V f' "dSdn"%string = Some d /\ f_V f' "dFdn"%string = Some (fun k s => 4 / sqrt PI * exp (- 4 * overlap g (p_pol p) na nb ^ 2) * d k s).
Proof.
  intros g p p' H. pose proof H as HE. apply overlap_E in HE. destruct HE as (S0 & HE). unfold vp_overlap in H.
  destruct (axis1 (p_na p)) as [na|] eqn:Ea; [|discriminate]. cbn [bind] in H. destruct (have (p_nb p)) as [nb|] eqn:Eb; [|discriminate]. cbn [bind] in H.
  destruct (overlap_S _ _ _ _) as [S|] eqn:ES; [|discriminate]. cbn [bind] in H. cbv zeta in H. apply axis1_some in Ea. apply have_some in Eb. apply overlap_S_ok in ES. destruct ES as (ES1 & ES2).
  match type of H with bind ?m _ = _ => destruct m as [p1|] eqn:E1; [|discriminate] end. cbn [bind] in H.
  exists na, nb. split; auto. split; auto. split; [exact ES1|].
  assert (XE : p_E p' = aset (aset (p_E p) "S" S) "F" (erf (2 * S))).
  { assert (XH : p_E p' = p_E p1) by (eapply forL_pE; [|exact H]; intros c q q' E; cbv beta in E; dm E; injection E as <-; reflexivity). rewrite XH.
    assert (XE1 : p_E p1 = p_E _) by (eapply forL_pE; [|exact E1]; intros c q q' E; cbv beta in E; dm E; injection E as <-; reflexivity). rewrite XE1. reflexivity. }
  rewrite XE, <- ES2. split; [rewrite aset_other by discriminate; apply aset_same|]. split; [apply aset_same|].
  pose proof (forL_frags (fun c p f => Ok (fV (fV f "dSdn" (dSdn (f_scale f) na nb)) "dFdn" (dFdn S (dSdn (f_scale f) na nb)))) (comps_a (p_ens p)) (set_E (set_E p "S" S) "F" (erf (2 * S))) p1 ltac:(intros ? ? ? ?; reflexivity) (comps_a_nodup _)) as LA.
  cbv beta in LA. cbn [bind] in LA. specialize (LA E1). destruct LA as (_ & LA & LA').
  pose proof (forL_frags (fun c p f => Ok (fV (fV f "dSdn" (dSdn (f_scale f) nb na)) "dFdn" (dFdn S (dSdn (f_scale f) nb na)))) (comps_b (p_ens p)) p1 p' ltac:(intros ? ? ? ?; reflexivity) (comps_b_nodup _)) as LB.
  cbv beta in LB. cbn [bind] in LB. specialize (LB H). destruct LB as (_ & LB & LB').
  assert (DF : forall d : mat, (dFdn S d) = fun k s => 4 / sqrt PI * exp (- 4 * S ^ 2) * d k s).
  { intros d. apply FunctionalExtensionality.functional_extensionality. intros k. apply FunctionalExtensionality.functional_extensionality. intros s. unfold dFdn. replace (- (2 * S) ^ 2) with (- 4 * S ^ 2) by ring. field. apply Rgt_not_eq. apply sqrt_PI_pos. }
  intros c Hc. destruct (match c with Ca | CA => true | _ => false end) eqn:K.
  - destruct (LA c) as (f & f' & A1 & A2 & A3); [apply in_comps_a; split; [auto|unfold of_a; destruct c; auto; discriminate]|]. injection A2 as A2. exists f, f'. split; [exact A1|]. split.
    { rewrite LB'; [exact A3|]. rewrite in_comps_b. intros (_ & [->| ->]); discriminate. }
    assert (Eo : own_dens c na nb = na) by (destruct c; auto; discriminate). assert (Et : other_dens c na nb = nb) by (destruct c; auto; discriminate). rewrite Eo, Et. cbv zeta. rewrite <- DF, <- A2. cbn [fV f_V]. split; [rewrite aset_other by discriminate; apply aset_same|apply aset_same].
  - destruct (LB c) as (f & f' & A1 & A2 & A3); [apply in_comps_b; split; [auto|destruct c; auto; discriminate]|]. injection A2 as A2. exists f, f'. split.
    { rewrite LA' in A1; [exact A1|]. rewrite in_comps_a. intros (_ & [->| ->]); discriminate. }
    split; [exact A3|].
    assert (Eo : own_dens c na nb = nb) by (destruct c; auto; discriminate). assert (Et : other_dens c na nb = na) by (destruct c; auto; discriminate). rewrite Eo, Et. cbv zeta. rewrite <- DF, <- A2. cbn [fV f_V]. split; [rewrite aset_other by discriminate; apply aset_same|apply aset_same].
Qed.

(** * Range *)
Theorem overlap_range : forall g pol na nb, grid_ok g -> (forall k, (k < Nelem g)%nat -> 0 <= gwi g k) ->
  0 <= overlap g pol na nb /\ 0 <= erf (2 * overlap g pol na nb) < 1.
Proof.
  intros g pol na nb G W. assert (S : 0 <= overlap g pol na nb).
  { unfold overlap, integrate1. apply Rmult_le_pos; [apply Rlt_le, iprefac_pos; auto|]. apply sumR_nonneg. intros k Hk. apply Rmult_le_pos; [|apply sqrt_pos]. apply Rmult_le_pos; auto. apply Rlt_le, gw_pos; auto. }
  split; auto. split; [apply erf_nonneg; lra|apply erf_range].
Qed.

(** * Derivative *)
Lemma sumR_one : forall n k c, (k < n)%nat -> sumR n (fun i => if (i =? k)%nat then c else 0) = c.
Proof. intros. rewrite (sumR_ext _ _ (fun i => (if Nat.eqb i k then 1 else 0) * c)) by (intros; destruct (i =? k)%nat; ring). apply (sumR_delta n k (fun _ => c)). auto. Qed.
Lemma integrate1_one : forall g k h, (k < Nelem g)%nat -> forall v, integrate1 g (fun x => if (x =? k)%nat then v else h x) = integrate1 g (fun x => if (x =? k)%nat then 0 else h x) + qweight g k * v.
Proof.
  intros g k h Hk v. unfold integrate1, qweight. rewrite (Rmult_assoc (iprefac g)), <- Rmult_plus_distr_l. f_equal.
  rewrite (sumR_ext _ _ (fun x => gwi g x * gw g x * (if (x =? k)%nat then 0 else h x) + (if (x =? k)%nat then gwi g k * gw g k * v else 0))).
  - rewrite sumR_plus. f_equal. apply sumR_one. auto.
  - intros x _. destruct (Nat.eqb_spec x k) as [->|]; ring.
Qed.
Lemma updated_total : forall pol n k s v x, (s < pol)%nat -> sumR pol (fun j => updated n k s v x j) = if (x =? k)%nat then sumR pol (fun j => n k j) + (v - n k s) else sumR pol (fun j => n x j).
Proof.
  intros pol n k s v x Hs. unfold updated. destruct (Nat.eqb_spec x k) as [->|]; [|apply sumR_ext; reflexivity].
  rewrite (sumR_ext _ _ (fun j => n k j + (if (j =? s)%nat then v - n k s else 0))).
  - rewrite sumR_plus. f_equal. apply sumR_one. auto.
  - intros j _. simpl. destruct (Nat.eqb_spec j s) as [->|]; ring.
Qed.
Lemma overlap_comm : forall g pol a b, overlap g pol a b = overlap g pol b a.
Proof. intros. unfold overlap. apply integrate1_ext. intros. f_equal. ring. Qed.

Lemma F_derive : forall g pol (own other : mat) k s, (k < Nelem g)%nat -> (s < pol)%nat ->
  let T := sumR pol (fun j => own k j) in let U := sumR pol (fun j => other k j) in 0 < T -> 0 < U ->
  is_derive (fun v => erf (2 * overlap g pol (updated own k s v) other)) (own k s)
    (qweight g k * (4 / sqrt PI * exp (- 4 * overlap g pol own other ^ 2) * (/ 2 * sqrt (U / T)))).
Proof.
  intros g pol own other k s Hk Hs T U HT HU.
  set (h := fun x => sqrt (sumR pol (fun j => own x j) * sumR pol (fun j => other x j))). set (R0 := integrate1 g (fun x => if (x =? k)%nat then 0 else h x)).
  assert (E : forall v, overlap g pol (updated own k s v) other = R0 + qweight g k * sqrt ((T + (v - own k s)) * U)).
  { intros v. unfold overlap, R0. rewrite <- integrate1_one by auto. apply integrate1_ext. intros x _. rewrite updated_total by auto. destruct (Nat.eqb_spec x k) as [->|]; reflexivity. }
  assert (E0 : overlap g pol own other = R0 + qweight g k * sqrt (T * U)).
  { unfold overlap, R0. rewrite <- integrate1_one by auto. apply integrate1_ext. intros x _. destruct (Nat.eqb_spec x k) as [->|]; reflexivity. }
  apply (is_derive_ext (fun v => erf (2 * (R0 + qweight g k * sqrt ((T + (v - own k s)) * U))))). { intros. rewrite E. reflexivity. }
  assert (P : 0 < T * U) by (apply Rmult_lt_0_compat; auto).
  assert (D : is_derive (fun v => 2 * (R0 + qweight g k * sqrt ((T + (v - own k s)) * U))) (own k s) (qweight g k * (U / sqrt (T * U)))).
  { auto_derive.
    - replace ((T + (own k s + - own k s)) * U) with (T * U) by ring. auto.
    - replace ((T + (own k s + - own k s)) * U) with (T * U) by ring. field. apply Rgt_not_eq, sqrt_lt_R0; auto. }
  pose proof (is_derive_comp erf _ (own k s) _ _ (erf_derive _) D) as C. cbv beta in C.
  replace (T + (own k s - own k s)) with T in C by ring. rewrite <- E0 in C.
  match type of C with is_derive _ _ ?a => match goal with |- is_derive _ _ ?b => replace b with a; [exact C|] end end.
  unfold scal; simpl; unfold mult; simpl. replace (- (2 * overlap g pol own other * (2 * overlap g pol own other * 1))) with (- 4 * (overlap g pol own other * (overlap g pol own other * 1))) by ring.
  replace (U / sqrt (T * U)) with (sqrt (U / T)).
  - field. apply Rgt_not_eq. apply sqrt_PI_pos.
  - rewrite sqrt_div by lra. rewrite sqrt_mult by lra. assert (0 < sqrt T) by (apply sqrt_lt_R0; auto). assert (0 < sqrt U) by (apply sqrt_lt_R0; auto).
    rewrite <- (sqrt_sqrt U) at 2 by lra. field. lra.
Qed.
(** unpolarised: exact derivative *)
Theorem dFdn_derivative : forall g p p' c na nb k, vp_overlap g p = Ok p' -> p_pol p = 1%nat -> p_na p = Some na -> p_nb p = Some nb -> member (p_ens p) c -> (k < Nelem g)%nat ->
  let own := own_dens c na nb in let other := other_dens c na nb in 0 < own k 0%nat -> 0 < other k 0%nat ->
  exists f f' D d, p_f p c = Some f /\ p_f p' c = Some f' /\ f_V f' "dFdn"%string = Some D /\
    is_derive (fun v => erf (2 * overlap g 1 (updated own k 0 v) other)) (own k 0%nat) d /\ qweight g k * D k 0%nat = f_scale f * d.
Proof.
  intros g p p' c na nb k H Hp Ha Hb Hc Hk own other H1 H2. destruct (overlap_spec _ _ _ H) as (na' & nb' & A1 & A2 & _ & _ & _ & A). rewrite A1 in Ha. injection Ha as ->. rewrite A2 in Hb. injection Hb as ->.
  destruct (A c Hc) as (f & f' & F1 & F2 & F3). cbv zeta in F3. destruct F3 as (_ & F3). rewrite Hp in F3. exists f, f'. eexists. exists (qweight g k * (4 / sqrt PI * exp (- 4 * overlap g 1 own other ^ 2) * (/ 2 * sqrt (other k 0%nat / own k 0%nat)))).
  split; auto. split; auto. split; [exact F3|]. split.
  - pose proof (F_derive g 1 own other k 0 Hk ltac:(lia)) as D. cbv zeta in D. cbn [sumR] in D. rewrite !Rplus_0_l in D. apply D; auto.
  - fold own other. rewrite dSdn_val by lra. destruct (Req_EM_T (own k 0%nat) 0); [lra|].
    replace (overlap g 1 na nb) with (overlap g 1 own other) by (unfold own, other; destruct c; simpl; auto; apply overlap_comm). ring.
Qed.
(** polarised: the stored values are the derivative only where the spin columns have the ratio of the totals *)
Theorem dFdn_polarised : forall g p p' c na nb k s, vp_overlap g p = Ok p' -> p_na p = Some na -> p_nb p = Some nb -> member (p_ens p) c -> (k < Nelem g)%nat -> (s < p_pol p)%nat -> qweight g k <> 0 ->
  let own := own_dens c na nb in let other := other_dens c na nb in
  let T := sumR (p_pol p) (fun j => own k j) in let U := sumR (p_pol p) (fun j => other k j) in 0 < own k s -> 0 <= other k s -> 0 < T -> 0 < U ->
  exists f f' D d, p_f p c = Some f /\ p_f p' c = Some f' /\ f_V f' "dFdn"%string = Some D /\
    is_derive (fun v => erf (2 * overlap g (p_pol p) (updated own k s v) other)) (own k s) d /\
    (f_scale f <> 0 -> (qweight g k * D k s = f_scale f * d <-> other k s / own k s = U / T)).
Proof.
  intros g p p' c na nb k s H Ha Hb Hc Hk Hs HW own other T U H1 H2 HT HU. destruct (overlap_spec _ _ _ H) as (na' & nb' & A1 & A2 & _ & _ & _ & A). rewrite A1 in Ha. injection Ha as ->. rewrite A2 in Hb. injection Hb as ->.
  destruct (A c Hc) as (f & f' & F1 & F2 & F3). cbv zeta in F3. destruct F3 as (_ & F3). exists f, f'. eexists. exists (qweight g k * (4 / sqrt PI * exp (- 4 * overlap g (p_pol p) own other ^ 2) * (/ 2 * sqrt (U / T)))).
  split; auto. split; auto. split; [exact F3|]. split; [apply F_derive; auto|]. intros HS.
  fold own other. rewrite dSdn_val by lra. destruct (Req_EM_T (own k s) 0); [lra|].
  replace (overlap g (p_pol p) na nb) with (overlap g (p_pol p) own other) by (unfold own, other; destruct c; simpl; auto; apply overlap_comm).
  set (K := 4 / sqrt PI * exp (- 4 * overlap g (p_pol p) own other ^ 2)). assert (HK : 0 < K) by (apply Rmult_lt_0_compat; [apply Rdiv_lt_0_compat; [lra|apply sqrt_PI_pos]|apply exp_pos]).
  assert (0 <= other k s / own k s) by (apply Rmult_le_pos; [lra|apply Rlt_le, Rinv_0_lt_compat; lra]). assert (0 <= U / T) by (apply Rmult_le_pos; [lra|apply Rlt_le, Rinv_0_lt_compat; lra]).
  split; intros Q.
  - apply sqrt_inj; auto. apply (Rmult_eq_reg_l (qweight g k * K * f_scale f)); [lra|]. apply Rmult_integral_contrapositive_currified; [|auto]. apply Rmult_integral_contrapositive_currified; lra.
  - rewrite Q. ring.
Qed.
