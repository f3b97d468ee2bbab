(** The Gaussian integral: erf takes values in (-1, 1) and has derivative 2/sqrt pi * exp(-x^2). *)
From Coq Require Import Reals Lra Lia.
From Coquelicot Require Import Coquelicot.
Local Open Scope R_scope.

Definition gA (x : R) : R := RInt (fun t => exp (- t ^ 2)) 0 x.
Definition gh (u t : R) : R := exp (- (u ^ 2 * (1 + t ^ 2))) / (1 + t ^ 2).
Definition gG (x : R) : R := RInt (gh x) 0 1.

Lemma q_pos : forall t : R, 0 < 1 + t ^ 2.
Proof. intros. pose proof (pow2_ge_0 t). lra. Qed.
Lemma gauss_cont : forall x, continuous (fun t => exp (- t ^ 2)) x.
Proof. intros. apply (ex_derive_continuous (V := R_NormedModule)). auto_derive. auto. Qed.
Lemma gA_derive : forall x : R, is_derive gA x (exp (- x ^ 2)).
Proof.
  intros. unfold gA. apply (is_derive_RInt (fun t => exp (- t ^ 2)) _ 0 x); [|apply gauss_cont].
  apply filter_forall. intros y. apply (RInt_correct (V := R_CompleteNormedModule)). apply (ex_RInt_continuous (V := R_CompleteNormedModule)). intros. apply gauss_cont.
Qed.
Lemma gh_derive : forall u t : R, is_derive (fun u => gh u t) u (-2 * u * exp (- (u ^ 2 * (1 + t ^ 2)))).
Proof.
  intros. unfold gh. pose proof (q_pos t). auto_derive; [simpl in *; lra|].
  replace (u * (u * 1)) with (u ^ 2) by ring. replace (t * (t * 1)) with (t ^ 2) by ring. field. lra.
Qed.
Lemma gh_cont : forall u t, continuous (gh u) t.
Proof. intros. apply (ex_derive_continuous (V := R_NormedModule)). unfold gh. pose proof (q_pos t). auto_derive. simpl in *; lra. Qed.
Lemma gh_int : forall u, ex_RInt (gh u) 0 1.
Proof. intros. apply (ex_RInt_continuous (V := R_CompleteNormedModule)). intros. apply gh_cont. Qed.

Lemma gG_derive : forall x : R, is_derive gG x (-2 * exp (- x ^ 2) * gA x).
Proof.
  intros x. unfold gG.
  replace (-2 * exp (- x ^ 2) * gA x) with (RInt (fun t => Derive (fun u => gh u t) x) 0 1).
  - apply (is_derive_RInt_param gh 0 1 x).
    + apply filter_forall. intros u t _. eexists. apply gh_derive.
    + intros t _. apply (continuity_2d_pt_ext (fun u v => -2 * u * exp (- (u ^ 2 * (1 + v ^ 2))))).
      { intros. symmetry. apply is_derive_unique. apply gh_derive. }
      apply continuity_2d_pt_mult.
      { apply continuity_2d_pt_mult; [apply continuity_2d_pt_const|apply continuity_2d_pt_id1]. }
      apply (continuity_1d_2d_pt_comp exp (fun u v => - (u ^ 2 * (1 + v ^ 2)))). { apply derivable_continuous_pt. apply derivable_pt_exp. }
      apply continuity_2d_pt_opp. apply continuity_2d_pt_mult.
      { apply (continuity_2d_pt_ext (fun u v => u * u)); [intros; ring|]. apply continuity_2d_pt_mult; apply continuity_2d_pt_id1. }
      { apply continuity_2d_pt_plus; [apply continuity_2d_pt_const|]. apply (continuity_2d_pt_ext (fun u v => v * v)); [intros; ring|]. apply continuity_2d_pt_mult; apply continuity_2d_pt_id2. }
    + apply filter_forall. intros. apply gh_int.
  - assert (X : ex_RInt (fun t => exp (- t ^ 2)) (x * 0 + 0) (x * 1 + 0)) by (apply (ex_RInt_continuous (V := R_CompleteNormedModule)); intros; apply gauss_cont).
    pose proof (RInt_comp_lin (fun t => exp (- t ^ 2)) x 0 0 1 X) as C.
    assert (E0 : x * 0 + 0 = 0) by ring. assert (E1 : x * 1 + 0 = x) by ring. rewrite E0, E1 in C.
    unfold gA. rewrite <- C. clear C.
    rewrite (RInt_ext _ (fun t => scal (-2 * exp (- x ^ 2)) (scal x (exp (- (x * t + 0) ^ 2))))).
    2: { intros t _. transitivity (-2 * x * exp (- (x ^ 2 * (1 + t ^ 2)))); [apply is_derive_unique; apply gh_derive|].
         change (-2 * x * exp (- (x ^ 2 * (1 + t ^ 2))) = -2 * exp (- x ^ 2) * (x * exp (- (x * t + 0) ^ 2))).
         replace (- (x ^ 2 * (1 + t ^ 2))) with (- x ^ 2 + - (x * t + 0) ^ 2) by ring. rewrite exp_plus. ring. }
    apply (RInt_scal (V := R_CompleteNormedModule)).
    apply (ex_RInt_continuous (V := R_CompleteNormedModule)). intros. apply (ex_derive_continuous (V := R_NormedModule)).
    change (ex_derive (fun y => x * exp (- (x * y + 0) ^ 2)) z). auto_derive. auto.
Qed.

Lemma gA_0 : gA 0 = 0.
Proof. unfold gA. apply (RInt_point (V := R_CompleteNormedModule)). Qed.
Lemma gG_0 : gG 0 = PI / 4.
Proof.
  unfold gG. rewrite (RInt_ext _ (fun t => / (1 + t ^ 2))).
  2: { intros t _. unfold gh. replace (- (0 ^ 2 * (1 + t ^ 2))) with 0 by ring. rewrite exp_0. unfold Rdiv. apply Rmult_1_l. }
  rewrite (is_RInt_unique _ _ _ (minus (atan 1) (atan 0))).
  - rewrite atan_1, atan_0. unfold minus, plus, opp; simpl. lra.
  - apply (is_RInt_derive (V := R_CompleteNormedModule) atan).
    + intros x _. apply is_derive_Reals. apply derivable_pt_lim_atan.
    + intros x _. apply (ex_derive_continuous (V := R_NormedModule)). pose proof (q_pos x). auto_derive. simpl in *; lra.
Qed.
Lemma gauss_const : forall x, gA x ^ 2 + gG x = PI / 4.
Proof.
  intros x. set (f := fun x => gA x ^ 2 + gG x).
  assert (D : forall y, is_derive f y 0).
  { intros y. unfold f. pose proof (gA_derive y) as A. pose proof (gG_derive y) as G.
    replace 0 with (plus (2 * gA y * exp (- y ^ 2)) (-2 * exp (- y ^ 2) * gA y)) by (unfold plus; simpl; ring).
    apply (is_derive_plus (V := R_NormedModule)); [|exact G].
    replace (2 * gA y * exp (- y ^ 2)) with (INR 2 * exp (- y ^ 2) * gA y ^ Init.Nat.pred 2) by (simpl; ring).
    apply (is_derive_pow gA 2 y). exact A. }
  assert (E : f x = f 0).
  { destruct (Req_dec x 0) as [->|N]; auto.
    destruct (MVT_gen f 0 x (fun _ => 0)) as (c & _ & M).
    - intros. apply D.
    - intros. apply (ex_derive_continuous (V := R_NormedModule)) || idtac. apply derivable_continuous_pt. exists 0. apply is_derive_Reals. apply D.
    - lra. }
  unfold f in E. rewrite E, gA_0, gG_0. ring.
Qed.
Lemma gG_pos : forall x, 0 < gG x.
Proof.
  intros. unfold gG. apply RInt_gt_0; [lra| |intros; apply gh_cont].
  intros. unfold gh. apply Rdiv_lt_0_compat; [apply exp_pos|apply q_pos].
Qed.
Lemma sqrt_PI_pos : 0 < sqrt PI.
Proof. apply sqrt_lt_R0. apply PI_RGT_0. Qed.
Lemma gA_bound : forall x, - (sqrt PI / 2) < gA x < sqrt PI / 2.
Proof.
  intros. pose proof (gauss_const x). pose proof (gG_pos x). pose proof sqrt_PI_pos. pose proof (sqrt_sqrt PI (Rlt_le _ _ PI_RGT_0)).
  assert (gA x * gA x < (sqrt PI / 2) * (sqrt PI / 2)) by nra. split; nra.
Qed.
Lemma gA_nonneg : forall x, 0 <= x -> 0 <= gA x.
Proof.
  intros. unfold gA. apply RInt_ge_0; auto.
  - apply (ex_RInt_continuous (V := R_CompleteNormedModule)). intros. apply gauss_cont.
  - intros. apply Rlt_le, exp_pos.
Qed.
