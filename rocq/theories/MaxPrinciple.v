(** The 3-point stencil: discrete maximum principle for the grid Laplacian. *)
From Coq Require Import Reals List Arith Lia Lra ZArith Bool.
From Coquelicot Require Import Coquelicot.
From Verif Require Import Base BaseLemmas GridModel Poly GridSpec GridProofs FDProofs OpProofs GridWitness GridMore
  LapCont HartreeModel HartreeSpec HartreeProofs LinAlg.
Import ListNotations.
Local Open Scope R_scope.
Local Opaque sinh cosh.

Lemma stencil1 : forall c u p, stencil 1 c u p
  = c 0%nat * u (Z.of_nat p - 1)%Z + c 1%nat * u (Z.of_nat p) + c 2%nat * u (Z.of_nat p + 1)%Z.
Proof.
  intros. unfold stencil. change (2 * 1 + 1)%nat with 3%nat. cbn [sumR].
  replace (Z.of_nat p + (Z.of_nat 0 - Z.of_nat 1))%Z with (Z.of_nat p - 1)%Z by lia.
  replace (Z.of_nat p + (Z.of_nat 1 - Z.of_nat 1))%Z with (Z.of_nat p) by lia.
  replace (Z.of_nat p + (Z.of_nat 2 - Z.of_nat 1))%Z with (Z.of_nat p + 1)%Z by lia. ring.
Qed.
Lemma reflect_in : forall n sg v p, (p < n)%nat -> reflect n sg v (Z.of_nat p) = v p.
Proof.
  intros. unfold reflect. destruct (Z.ltb_spec (Z.of_nat p) 0); [lia|].
  destruct (Z.ltb_spec (Z.of_nat p) (Z.of_nat n)); [|lia]. rewrite Nat2Z.id. reflexivity.
Qed.
Lemma reflect_inner_in : forall n sg v o p, (p < n)%nat -> reflect_inner n sg v o (Z.of_nat p) = v p.
Proof.
  intros. unfold reflect_inner. destruct (Z.ltb_spec (Z.of_nat p) 0); [lia|].
  destruct (Z.ltb_spec (Z.of_nat p) (Z.of_nat n)); [|lia]. rewrite Nat2Z.id. reflexivity.
Qed.

(** Neighbours of (ia, ir) in the sense of the reflected extensions. *)
Definition nbW (n : nat) (v : vec) (p : nat) : R := if (p =? 0)%nat then v p else v (p - 1)%nat.
Definition nbE (n : nat) (v : vec) (p : nat) : R := if (p + 1 =? n)%nat then v p else v (p + 1)%nat.
Definition nbN (n : nat) (v : vec) (o : R) (p : nat) : R := if (p + 1 =? n)%nat then o else v (p + 1)%nat.

Lemma reflect_W : forall n v p, (p < n)%nat -> reflect n 1 v (Z.of_nat p - 1) = nbW n v p.
Proof.
  intros n v p H. unfold nbW. destruct (Nat.eqb_spec p 0) as [->|].
  - unfold reflect. destruct (Z.ltb_spec (Z.of_nat 0 - 1) 0); [|lia].
    replace (Z.to_nat (-1 - (Z.of_nat 0 - 1))) with 0%nat by lia. ring.
  - replace (Z.of_nat p - 1)%Z with (Z.of_nat (p - 1)) by lia. apply reflect_in. lia.
Qed.
Lemma reflect_E : forall n v p, (p < n)%nat -> reflect n 1 v (Z.of_nat p + 1) = nbE n v p.
Proof.
  intros n v p H. unfold nbE. destruct (Nat.eqb_spec (p + 1) n) as [E|].
  - unfold reflect. destruct (Z.ltb_spec (Z.of_nat p + 1) 0); [lia|].
    destruct (Z.ltb_spec (Z.of_nat p + 1) (Z.of_nat n)); [lia|].
    replace (Z.to_nat (2 * Z.of_nat n - 1 - (Z.of_nat p + 1))) with p by lia. ring.
  - replace (Z.of_nat p + 1)%Z with (Z.of_nat (p + 1)) by lia. apply reflect_in. lia.
Qed.
Lemma reflect_inner_W : forall n v o p, (p < n)%nat -> reflect_inner n 1 v o (Z.of_nat p - 1) = nbW n v p.
Proof.
  intros n v o p H. unfold nbW. destruct (Nat.eqb_spec p 0) as [->|].
  - unfold reflect_inner. destruct (Z.ltb_spec (Z.of_nat 0 - 1) 0); [|lia].
    replace (Z.to_nat (-1 - (Z.of_nat 0 - 1))) with 0%nat by lia. ring.
  - replace (Z.of_nat p - 1)%Z with (Z.of_nat (p - 1)) by lia. apply reflect_inner_in. lia.
Qed.
Lemma reflect_inner_N : forall n v o p, (p < n)%nat -> reflect_inner n 1 v o (Z.of_nat p + 1) = nbN n v (o 0%nat) p.
Proof.
  intros n v o p H. unfold nbN. destruct (Nat.eqb_spec (p + 1) n) as [E|].
  - unfold reflect_inner. destruct (Z.ltb_spec (Z.of_nat p + 1) 0); [lia|].
    destruct (Z.ltb_spec (Z.of_nat p + 1) (Z.of_nat n)); [lia|].
    replace (Z.to_nat (Z.of_nat p + 1 - Z.of_nat n)) with 0%nat by lia. reflexivity.
  - replace (Z.of_nat p + 1)%Z with (Z.of_nat (p + 1)) by lia. apply reflect_inner_in. lia.
Qed.

Definition cE (g : grid) ia ir := ga g * sinh (node (Nr g) (gL g) ir) *
  (sin (node (Na g) PI ia) / (PI / INR (Na g)) ^ 2 + cos (node (Na g) PI ia) / (2 * (PI / INR (Na g)))).
Definition cW (g : grid) ia ir := ga g * sinh (node (Nr g) (gL g) ir) *
  (sin (node (Na g) PI ia) / (PI / INR (Na g)) ^ 2 - cos (node (Na g) PI ia) / (2 * (PI / INR (Na g)))).
Definition cN (g : grid) ia ir := ga g * sin (node (Na g) PI ia) *
  (sinh (node (Nr g) (gL g) ir) / (gL g / INR (Nr g)) ^ 2 + cosh (node (Nr g) (gL g) ir) / (2 * (gL g / INR (Nr g)))).
Definition cS (g : grid) ia ir := ga g * sin (node (Na g) PI ia) *
  (sinh (node (Nr g) (gL g) ir) / (gL g / INR (Nr g)) ^ 2 - cosh (node (Nr g) (gL g) ir) / (2 * (gL g / INR (Nr g)))).

Lemma lap_form_nb : forall g x out ia ir, grid_ok g -> fd_ok g 1 -> is_point g ia ir ->
  let u := x (pos g ia ir) in
  lap_form g 1 1 x out ia ir
  = cE g ia ir * (nbE (Na g) (aline g x ir) ia - u) + cW g ia ir * (nbW (Na g) (aline g x ir) ia - u)
  + cN g ia ir * (nbN (Nr g) (rline g x ia) (out ia 0%nat) ir - u) + cS g ia ir * (nbW (Nr g) (rline g x ia) ir - u).
Proof.
  intros g x out ia ir Hg H [Ha Hr] u. destruct (fd1_coef g H) as (E1 & E2 & E3 & E4 & E5 & E6).
  unfold lap_form. rewrite !stencil1, E1, E2, E3, E4, E5, E6.
  rewrite reflect_W, reflect_E, reflect_inner_W, reflect_inner_N, reflect_in, reflect_inner_in by auto.
  change (aline g x ir ia) with u. change (rline g x ia ir) with u.
  assert (INR (Na g) <> 0) by (apply not_0_INR; lia). assert (INR (Nr g) <> 0) by (apply not_0_INR; lia).
  pose proof PI_RGT_0. destruct Hg as (_ & _ & _ & _ & HL).
  unfold cE, cW, cN, cS. field. repeat split; auto; lra.
Qed.

Lemma tan_ge : forall x, 0 < x < PI / 2 -> x * cos x <= sin x.
Proof.
  intros x Hx.
  destruct (MVT_cor2 (fun t => sin t - t * cos t) (fun t => t * sin t) 0 x ltac:(lra)) as (c & Hc & Hc').
  { intros c Hc. replace (c * sin c) with (cos c - (1 * cos c + c * (- sin c))) by ring.
    apply derivable_pt_lim_minus; [apply derivable_pt_lim_sin|].
    apply (derivable_pt_lim_mult id cos); [apply derivable_pt_lim_id|apply derivable_pt_lim_cos]. }
  rewrite sin_0, Rmult_0_l in Hc.
  assert (0 <= sin c) by (apply sin_ge_0; lra).
  assert (0 <= c * sin c * (x - 0)) by (apply Rmult_le_pos; [apply Rmult_le_pos|]; lra). lra.
Qed.
Lemma angular_nonneg : forall th h, 0 < h -> 3 / 2 * h <= th -> th < PI -> 0 <= sin th / h ^ 2 - cos th / (2 * h).
Proof.
  intros th h Hh H1 H2.
  assert (S : 0 < sin th) by (apply sin_gt_0; lra).
  assert (Q : h / 2 * cos th <= sin th).
  { destruct (Rlt_dec th (PI / 2)) as [L|L].
    - pose proof (tan_ge th ltac:(lra)). assert (0 < cos th) by (apply cos_gt_0; lra). nra.
    - assert (cos th <= 0) by (apply cos_le_0; lra). nra. }
  replace (sin th / h ^ 2 - cos th / (2 * h)) with ((sin th - h / 2 * cos th) * / h ^ 2) by (field; lra).
  apply Rmult_le_pos; [lra|]. left. apply Rinv_0_lt_compat. apply pow_lt. auto.
Qed.
Lemma cos_ref : forall th, cos th = - cos (PI - th).
Proof. intros. rewrite Rtrigo_facts.cos_pi_minus. ring. Qed.
Lemma angular_nonneg' : forall th h, 0 < h -> 0 < th -> th <= PI - 3 / 2 * h -> 0 <= sin th / h ^ 2 + cos th / (2 * h).
Proof.
  intros th h Hh H1 H2. pose proof (angular_nonneg (PI - th) h Hh ltac:(lra) ltac:(lra)) as P.
  rewrite Rtrigo_facts.cos_pi_minus, Rtrigo_facts.sin_pi_minus in P.
  replace (sin th / h ^ 2 + cos th / (2 * h)) with (sin th / h ^ 2 - - cos th / (2 * h)); auto. field. lra.
Qed.
(** sinh m >= (h/2) cosh m for m >= 3h/2, h <= 1. *)
Lemma radial_nonneg : forall m h, 0 < h -> h <= 1 -> 3 / 2 * h <= m -> 0 <= sinh m / h ^ 2 - cosh m / (2 * h).
Proof.
  intros m h Hh H1 Hm.
  assert (Q : h / 2 * cosh m <= sinh m).
  { assert (E : 1 + 2 * m <= exp (2 * m)) by (left; apply exp_ineq1; lra).
    assert (E' : exp (2 * m) = exp m * exp m) by (rewrite <- exp_plus; f_equal; ring).
    assert (P : 0 < exp (- m)) by apply exp_pos.
    assert (I : exp m * exp (- m) = 1) by (rewrite <- exp_plus, <- exp_0; f_equal; ring).
    (* sinh m - h/2 cosh m = e^{-m}/2 ((1-h/2) e^{2m} - (1+h/2)) *)
    Local Transparent sinh cosh. unfold sinh, cosh. Local Opaque sinh cosh.
    assert (K : 0 <= (1 - h / 2) * exp (2 * m) - (1 + h / 2)).
    { assert ((1 - h / 2) * (1 + 2 * m) <= (1 - h / 2) * exp (2 * m)) by (apply Rmult_le_compat_l; lra). nra. }
    assert (0 <= exp (- m) * ((1 - h / 2) * exp (2 * m) - (1 + h / 2))) by (apply Rmult_le_pos; lra).
    rewrite E' in H.
    replace (exp (- m) * ((1 - h / 2) * (exp m * exp m) - (1 + h / 2)))
      with ((1 - h / 2) * (exp m * exp (- m)) * exp m - (1 + h / 2) * exp (- m)) in H by ring.
    rewrite I in H. lra. }
  replace (sinh m / h ^ 2 - cosh m / (2 * h)) with ((sinh m - h / 2 * cosh m) * / h ^ 2) by (field; lra).
  apply Rmult_le_pos; [lra|]. left. apply Rinv_0_lt_compat. apply pow_lt. auto.
Qed.

Section MaxP.
Variable g : grid.
Hypothesis Hg : grid_ok g.
Hypothesis Hfd : fd_ok g 1.
Hypothesis Hh : gL g / INR (Nr g) <= 1.

Let NaP : 0 < INR (Na g).
Proof. apply lt_0_INR, Na_pos. Qed.
Let NrP : 0 < INR (Nr g).
Proof. apply lt_0_INR, Nr_pos. Qed.
Let haP : 0 < PI / INR (Na g).
Proof. apply Rdiv_lt_0_compat; auto. apply PI_RGT_0. Qed.
Let hrP : 0 < gL g / INR (Nr g).
Proof. apply Rdiv_lt_0_compat; auto. apply Hg. Qed.

Lemma node_eq : forall n len i, node n len i = (INR i + 1 / 2) * (len / INR n).
Proof. intros. unfold node, Rdiv. ring. Qed.

Lemma shP : forall ir, (ir < Nr g)%nat -> 0 < sinh (node (Nr g) (gL g) ir).
Proof. intros. apply sinh_pos. apply node_range; auto. apply Hg. Qed.
Lemma snP : forall ia, (ia < Na g)%nat -> 0 < sin (node (Na g) PI ia).
Proof. intros. pose proof (node_range (Na g) PI ia H PI_RGT_0). apply sin_gt_0; lra. Qed.

Lemma cN_pos : forall ia ir, is_point g ia ir -> 0 < cN g ia ir.
Proof.
  intros ia ir [H1 H2]. unfold cN. pose proof (shP ir H2). pose proof (snP ia H1). destruct Hg as (_ & _ & _ & A & L).
  apply Rmult_lt_0_compat; [apply Rmult_lt_0_compat; auto|].
  assert (0 < cosh (node (Nr g) (gL g) ir)) by apply cosh_pos.
  apply Rplus_lt_0_compat; apply Rdiv_lt_0_compat; auto; [apply pow_lt; auto|lra].
Qed.
Lemma cS_nonneg : forall ia ir, is_point g ia ir -> (1 <= ir)%nat -> 0 <= cS g ia ir.
Proof.
  intros ia ir [H1 H2] H3. unfold cS. pose proof (snP ia H1). destruct Hg as (_ & _ & _ & A & L).
  apply Rmult_le_pos; [left; apply Rmult_lt_0_compat; auto|]. apply radial_nonneg; auto.
  rewrite node_eq. apply Rmult_le_compat_r; [lra|]. apply le_INR in H3. simpl in H3. lra.
Qed.
Lemma cW_nonneg : forall ia ir, is_point g ia ir -> (1 <= ia)%nat -> 0 <= cW g ia ir.
Proof.
  intros ia ir [H1 H2] H3. unfold cW. pose proof (shP ir H2). destruct Hg as (_ & _ & _ & A & L).
  apply Rmult_le_pos; [left; apply Rmult_lt_0_compat; auto|]. apply angular_nonneg; auto.
  - rewrite node_eq. apply Rmult_le_compat_r; [lra|]. apply le_INR in H3. simpl in H3. lra.
  - apply node_range; auto. apply PI_RGT_0.
Qed.
Lemma cE_nonneg : forall ia ir, is_point g ia ir -> (ia + 1 < Na g)%nat -> 0 <= cE g ia ir.
Proof.
  intros ia ir [H1 H2] H3. unfold cE. pose proof (shP ir H2). destruct Hg as (_ & _ & _ & A & L).
  apply Rmult_le_pos; [left; apply Rmult_lt_0_compat; auto|]. apply angular_nonneg'; auto.
  - apply node_range; auto. apply PI_RGT_0.
  - rewrite node_eq. assert (E : PI = INR (Na g) * (PI / INR (Na g))) by (field; lra).
    rewrite E at 2. replace (INR (Na g) * (PI / INR (Na g)) - 3 / 2 * (PI / INR (Na g)))
      with ((INR (Na g) - 3 / 2) * (PI / INR (Na g))) by ring.
    apply Rmult_le_compat_r; [lra|]. assert (ia + 2 <= Na g)%nat as Q by lia. apply le_INR in Q.
    rewrite plus_INR in Q. simpl in Q. lra.
Qed.

Lemma argmax : forall n (x : vec), (0 < n)%nat -> exists k, (k < n)%nat /\ forall i, (i < n)%nat -> x i <= x k.
Proof.
  clear. induction n; intros x H; [lia|]. destruct n as [|n].
  - exists 0%nat. split; [lia|]. intros i Hi. replace i with 0%nat by lia. lra.
  - destruct (IHn x ltac:(lia)) as (k & Hk & M). destruct (Rle_dec (x (S n)) (x k)) as [L|L].
    + exists k. split; [lia|]. intros i Hi. destruct (Nat.eq_dec i (S n)) as [->|]; auto. apply M. lia.
    + exists (S n). split; [lia|]. intros i Hi. destruct (Nat.eq_dec i (S n)) as [->|]; [lra|].
      apply Rle_trans with (x k); [apply M; lia|lra].
Qed.

Lemma max_step : forall x out M ia ir, is_point g ia ir ->
  (forall k, (k < Nelem g)%nat -> x k <= M) -> 0 < M -> out ia 0%nat <= 0 ->
  0 <= lap_form g 1 1 x out ia ir -> x (pos g ia ir) = M ->
  (ir + 1 < Nr g)%nat /\ x (pos g ia (ir + 1)) = M.
Proof.
  intros x out M ia ir Hp HM M0 HO HL HX. rewrite lap_form_nb in HL by auto. cbv zeta in HL. rewrite HX in HL.
  destruct Hp as [Ha Hr].
  assert (TE : cE g ia ir * (nbE (Na g) (aline g x ir) ia - M) <= 0).
  { unfold nbE. destruct (Nat.eqb_spec (ia + 1) (Na g)).
    - change (aline g x ir ia) with (x (pos g ia ir)). rewrite HX. lra.
    - assert (P : is_point g (ia + 1) ir) by (split; lia).
      pose proof (HM _ (pos_lt g _ _ P)). change (aline g x ir (ia + 1)%nat) with (x (pos g (ia + 1) ir)).
      pose proof (cE_nonneg ia ir (conj Ha Hr) ltac:(lia)). nra. }
  assert (TW : cW g ia ir * (nbW (Na g) (aline g x ir) ia - M) <= 0).
  { unfold nbW. destruct (Nat.eqb_spec ia 0).
    - change (aline g x ir ia) with (x (pos g ia ir)). rewrite HX. lra.
    - assert (P : is_point g (ia - 1) ir) by (split; lia).
      pose proof (HM _ (pos_lt g _ _ P)). change (aline g x ir (ia - 1)%nat) with (x (pos g (ia - 1) ir)).
      pose proof (cW_nonneg ia ir (conj Ha Hr) ltac:(lia)). nra. }
  assert (TS : cS g ia ir * (nbW (Nr g) (rline g x ia) ir - M) <= 0).
  { unfold nbW. destruct (Nat.eqb_spec ir 0).
    - change (rline g x ia ir) with (x (pos g ia ir)). rewrite HX. lra.
    - assert (P : is_point g ia (ir - 1)) by (split; lia).
      pose proof (HM _ (pos_lt g _ _ P)). change (rline g x ia (ir - 1)%nat) with (x (pos g ia (ir - 1))).
      pose proof (cS_nonneg ia ir (conj Ha Hr) ltac:(lia)). nra. }
  pose proof (cN_pos ia ir (conj Ha Hr)) as CN. unfold nbN in HL. destruct (Nat.eqb_spec (ir + 1) (Nr g)).
  - exfalso. assert (cN g ia ir * (out ia 0%nat - M) < 0) by nra. lra.
  - assert (P : is_point g ia (ir + 1)) by (split; lia). split; [lia|].
    pose proof (HM _ (pos_lt g _ _ P)) as B. change (rline g x ia (ir + 1)%nat) with (x (pos g ia (ir + 1))) in HL.
    destruct (Rle_lt_or_eq_dec _ _ B) as [S|S]; auto. exfalso.
    assert (cN g ia ir * (x (pos g ia (ir + 1)) - M) < 0) by nra. lra.
Qed.

(** If the discrete Laplacian is >= 0 everywhere and the ghost values are <= 0 then x <= 0. *)
Lemma max_principle : forall x out,
  (forall ia, (ia < Na g)%nat -> out ia 0%nat <= 0) ->
  (forall ia ir, is_point g ia ir -> 0 <= lap_form g 1 1 x out ia ir) ->
  forall k, (k < Nelem g)%nat -> x k <= 0.
Proof.
  intros x out HO HL. 
  assert (NE : (0 < Nelem g)%nat) by (unfold Nelem; pose proof (Na_pos g); pose proof (Nr_pos g); nia).
  destruct (argmax (Nelem g) x NE) as (k0 & Hk0 & M).
  destruct (Rle_dec (x k0) 0) as [L|L]; [intros k Hk; pose proof (M k Hk); lra|]. exfalso.
  destruct (pos_surj g k0 Hk0) as (ia & ir & Hp & E).
  assert (IND : forall j, (ir + j < Nr g)%nat /\ x (pos g ia (ir + j)) = x k0).
  { induction j.
    - rewrite Nat.add_0_r. split; [apply Hp|]. rewrite E. reflexivity.
    - destruct IHj as [I1 I2].
      destruct (max_step x out (x k0) ia (ir + j)) as [S1 S2]; auto; try lra.
      + split; [apply Hp|auto].
      + apply HO. apply Hp.
      + apply HL. split; [apply Hp|auto].
      + replace (ir + S j)%nat with (ir + j + 1)%nat by lia. auto. }
  destruct (IND (Nr g)) as [C _]. lia.
Qed.

Lemma lap_form_opp : forall x out ia ir, is_point g ia ir ->
  lap_form g 1 1 (fun k => - x k) (fun i q => - out i q) ia ir = - lap_form g 1 1 x out ia ir.
Proof.
  intros x out ia ir Hp. rewrite !lap_form_nb by auto. cbv zeta.
  unfold nbE, nbW, nbN, aline, rline. destruct (_ =? _)%nat, (_ =? _)%nat, (_ =? _)%nat, (_ =? _)%nat; ring.
Qed.

Lemma elap_nonsing : nonsing (Nelem g) (elap g).
Proof.
  assert (N1 : (1 <= Na g)%nat) by apply Na_pos. assert (N2 : (1 <= Nr g)%nat) by apply Nr_pos.
  intros x Hx.
  assert (Z : forall ia ir, is_point g ia ir -> lap_form g 1 1 x (fun _ _ => 0) ia ir = 0).
  { intros ia ir Hp. rewrite <- elap_form by auto. apply Hx. apply pos_lt; auto. }
  intros i Hi. apply Rle_antisym.
  - apply (max_principle x (fun _ _ => 0)); auto; intros; [lra|]. rewrite Z by auto. lra.
  - enough (- x i <= 0) by lra.
    apply (max_principle (fun k => - x k) (fun _ _ => - 0)); auto; intros; [lra|].
    rewrite lap_form_opp by auto. rewrite Z by auto. lra.
Qed.
End MaxP.
