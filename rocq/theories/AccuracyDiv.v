(** The divergence matrices beside the axis: the flux of a smooth field is even there, the matrices continue it as odd. *)
From Coq Require Import Reals List Lia Lra ZArith.
From Coquelicot Require Import Coquelicot.
From Verif Require Import Base BaseLemmas GridModel Poly GridSpec GridProofs FDProofs OpProofs LapCont GridWitness
  SolverModel Accuracy AccuracyOp AccuracyWit AccuracyGrad Convergence ConvergenceWit.
Import ListNotations.
Local Open Scope R_scope.
Local Opaque sinh cosh.

Lemma cosh_small : forall x, 0 <= x <= 1 / 4 -> cosh x <= 31 / 30.
Proof.
  intros x Hx. pose proof (mcosh_ge x ltac:(lra)) as A. pose proof (hc2 x) as B. pose proof (cosh_ge_1 x) as C. pose proof (sinh_le_cosh x ltac:(lra)) as [D _].
  assert (sinh x <= 1 / 4 * cosh x) by nra. apply Rnot_lt_le. intro L. assert (sinh x ^ 2 <= (1 / 4 * cosh x) ^ 2) by (apply pow_incr; lra). nra.
Qed.
Lemma sin_ge_cubic : forall x, 0 <= x <= 1 -> x - x ^ 3 / 6 <= sin x.
Proof.
  intros x Hx. destruct (pre_sin_bound x 0 ltac:(lra) ltac:(lra)) as [A _]. eapply Rle_trans; [|exact A].
  unfold sin_approx, sin_term. simpl. right. field.
Qed.
Lemma sinh_square_diff : forall m h, sinh (m + h) ^ 2 - sinh (m - h) ^ 2 = 2 * sinh m * cosh m * sinh (2 * h).
Proof.
  intros. Local Transparent sinh cosh. unfold sinh, cosh.
  replace (- (m + h)) with (- m + - h) by ring. replace (m - h) with (m + - h) by ring. replace (- (m + - h)) with (- m + h) by ring.
  replace (- (2 * h)) with (- h + - h) by ring. replace (2 * h) with (h + h) by ring. rewrite !exp_plus, !exp_Ropp.
  pose proof (exp_pos m). pose proof (exp_pos h). field. lra.
Qed.
Local Opaque sinh cosh.

(** Flux through the first angular interval, read with the wrong parity. *)
Lemma odd_flux_gap : forall h s c, 0 < h <= 1 / 4 -> s <= 21 / 20 -> 0 <= s -> 49 / 50 <= c ->
  s * sin h - c * ((sin (h / 2) ^ 2 + sin (3 * (h / 2)) ^ 2) / (2 * h)) <= - (h / 10).
Proof.
  intros h s c Hh Hs Hs0 Hc.
  pose proof (sin_ge_cubic (h / 2) ltac:(lra)) as A. pose proof (sin_ge_cubic (3 * (h / 2)) ltac:(lra)) as B.
  assert (C : sin h <= h) by (left; apply sin_lt_x; lra).
  assert (H2 : 0 < h ^ 2 <= 1 / 16) by (simpl; nra).
  assert (A' : h / 2 * (1 - 1 / 384) <= sin (h / 2)).
  { eapply Rle_trans; [|exact A]. replace (h / 2 - (h / 2) ^ 3 / 6) with (h / 2 * (1 - h ^ 2 / 24)) by field. apply Rmult_le_compat_l; lra. }
  assert (B' : 3 * (h / 2) * (1 - 9 / 384) <= sin (3 * (h / 2))).
  { eapply Rle_trans; [|exact B]. replace (3 * (h / 2) - (3 * (h / 2)) ^ 3 / 6) with (3 * (h / 2) * (1 - 9 * h ^ 2 / 24)) by field. apply Rmult_le_compat_l; lra. }
  assert (A2 : (h / 2 * (1 - 1 / 384)) ^ 2 <= sin (h / 2) ^ 2) by (apply pow_incr; lra). assert (B2 : (3 * (h / 2) * (1 - 9 / 384)) ^ 2 <= sin (3 * (h / 2)) ^ 2) by (apply pow_incr; lra).
  assert (Q : 2394 / 1000 * h ^ 2 <= sin (h / 2) ^ 2 + sin (3 * (h / 2)) ^ 2) by (simpl in *; nra).
  assert (T : 1197 / 1000 * h <= (sin (h / 2) ^ 2 + sin (3 * (h / 2)) ^ 2) / (2 * h)).
  { apply Rmult_le_reg_r with (2 * h); [lra|]. unfold Rdiv. rewrite (Rmult_assoc _ (/ (2 * h))), Rinv_l by lra. simpl in *. nra. }
  assert (s * sin h <= 21 / 20 * h).
  { apply Rle_trans with (s * h); [apply Rmult_le_compat_l; lra|apply Rmult_le_compat_r; lra]. }
  assert (49 / 50 * (1197 / 1000 * h) <= c * ((sin (h / 2) ^ 2 + sin (3 * (h / 2)) ^ 2) / (2 * h))) by (apply Rmult_le_compat; lra).
  lra.
Qed.

(** The divergence of a field whose components are ca and cr times those of the unit field along the axis, read with
    three-point stencils beside the axis. *)
Lemma axis_value : forall g fa fr ir ca cr, grid_ok g -> fd_ok g 1 -> PI / INR (Na g) <= 1 / 4 -> gL g / INR (Nr g) <= 1 / 8 ->
  (1 <= ir)%nat -> (ir + 1 < Nr g)%nat ->
  (forall ja, (ja < Na g)%nat -> fa (pos g ja ir) = ca * along_t 1 0 (node (Na g) PI ja) (node (Nr g) (gL g) ir)) ->
  (forall jr, (jr = ir - 1 \/ jr = ir + 1)%nat -> fr (pos g 0 jr) = cr * along_m 1 0 (node (Na g) PI 0) (node (Nr g) (gL g) jr)) ->
  0 <= cr <= 1016 / 1000 -> 49 / 50 <= ca ->
  gapply g (diva g) fa (pos g 0 ir) + gapply g (divr g) fr (pos g 0 ir) <= - / (5 * ga g * cosh (node (Nr g) (gL g) ir)).
Proof.
  intros g fa fr ir ca cr Hok Hfd Hha Hhr Hi1 Hi2 Hfa Hfr Hcr Hca.
  assert (HA : 0 < ga g) by apply Hok. assert (HL : 0 < gL g) by apply Hok. pose proof (dr_pos g HL) as Pr. pose proof (da_pos g) as Pa.
  pose proof (Na_pos g) as HN.
  assert (N2 : (2 <= Na g)%nat).
  { destruct (Nat.le_gt_cases 2 (Na g)) as [|L]; [assumption|]. replace (Na g) with 1%nat in Hha by lia. simpl INR in Hha. pose proof PI2_3_2. lra. }
  set (h := PI / INR (Na g)) in *. set (q := gL g / INR (Nr g)) in *.
  assert (Hp : is_point g 0 ir) by (split; lia).
  set (t := node (Na g) PI 0) in *. set (m := node (Nr g) (gL g) ir) in *.
  assert (T0 : t = h / 2) by (unfold t, node, h; simpl INR; field; apply not_0_INR; lia).
  assert (T1 : node (Na g) PI 1 = 3 * (h / 2)) by (unfold node, h; simpl INR; field; apply not_0_INR; lia).
  assert (M1 : node (Nr g) (gL g) (ir + 1) = m + q).
  { unfold m, node, q. rewrite plus_INR. simpl INR. field. apply not_0_INR. lia. }
  assert (M0 : node (Nr g) (gL g) (ir - 1) = m - q).
  { unfold m, node, q. rewrite minus_INR by lia. simpl INR. field. apply not_0_INR. lia. }
  assert (Ht : 0 < t < PI) by (apply (pt_t g 0 ir Hp)). assert (Hm : 0 < m) by (apply (pt_m g 0 ir Hok Hp)).
  rewrite (diva_form g 1), (divr_form g 1) by (auto; lia). rewrite <- gw_point by auto. rewrite ha_val, hr_val. fold h q.
  assert (W : gw g (pos g 0 ir) = ga g ^ 3 * sin t * sinh m * (sinh m ^ 2 + sin t ^ 2)).
  { rewrite gw_point, h1_point, h2_point, h3_point by auto. fold t m. rewrite <- metric_sq. unfold py. ring. }
  destruct (fd1_coef g Hfd) as (c0 & c1 & c2 & _).
  (* angular *)
  assert (VA : forall ja, (ja < Na g)%nat -> h2 g (pos g ja ir) * h3 g (pos g ja ir) * fa (pos g ja ir) = - (ga g ^ 2 * sinh m * cosh m) * sin (node (Na g) PI ja) ^ 2 * ca).
  { intros ja Hj. assert (Q : is_point g ja ir) by (split; lia). rewrite (Hfa ja Hj), h2_point, h3_point by auto. fold m.
    assert (P : 0 < metric (node (Na g) PI ja) m) by (apply metric_pos; exact Hm). unfold along_t, py. field. lra. }
  assert (EA : stencil 1 (d1 g) (reflect (Na g) (-1) (aline g (fun k => h2 g k * h3 g k * fa k) ir)) 0
     = - (ga g ^ 2 * sinh m * cosh m) * ca * (sin t ^ 2 + sin (3 * (h / 2)) ^ 2) / 2).
  { unfold stencil. cbn [sumR Nat.mul Nat.add]. rewrite c0, c1, c2.
    change (Z.of_nat 0 + (Z.of_nat 0 - Z.of_nat 1))%Z with (-1)%Z. change (Z.of_nat 0 + (Z.of_nat 1 - Z.of_nat 1))%Z with 0%Z. change (Z.of_nat 0 + (Z.of_nat 2 - Z.of_nat 1))%Z with 1%Z.
    unfold reflect. change (-1 <? 0)%Z with true. change (0 <? 0)%Z with false. change (1 <? 0)%Z with false.
    replace (1 <? Z.of_nat (Na g))%Z with true by (symmetry; apply Z.ltb_lt; lia). cbn iota.
    change (Z.to_nat (-1 - -1)) with 0%nat. change (Z.to_nat 1) with 1%nat. unfold aline.
    rewrite (VA 0%nat), (VA 1%nat) by lia. rewrite T1. fold t. field. }
  (* radial *)
  assert (VR : forall jr, (jr = ir - 1 \/ jr = ir + 1)%nat -> h1 g (pos g 0 jr) * h3 g (pos g 0 jr) * fr (pos g 0 jr) = ga g ^ 2 * sin t * cos t * sinh (node (Nr g) (gL g) jr) ^ 2 * cr).
  { intros jr Hj. assert (Q : is_point g 0 jr) by (split; lia). rewrite (Hfr jr Hj), h1_point, h3_point by auto. fold t.
    assert (P : 0 < metric t (node (Nr g) (gL g) jr)) by (apply metric_pos, (pt_m g 0 jr); auto). unfold along_m, py. field. lra. }
  assert (ER : stencil 1 (d1 g) (reflect_inner (Nr g) (-1) (rline g (fun k => h1 g k * h3 g k * fr k) 0) (fun _ => 0)) ir
     = ga g ^ 2 * sinh m * cosh m * cr * (2 * sin t * cos t) * sinh (2 * q) / 2).
  { unfold stencil. cbn [sumR Nat.mul Nat.add]. rewrite c0, c1, c2.
    unfold reflect_inner.
    replace (Z.of_nat ir + (Z.of_nat 0 - Z.of_nat 1))%Z with (Z.of_nat (ir - 1)) by lia. replace (Z.of_nat ir + (Z.of_nat 2 - Z.of_nat 1))%Z with (Z.of_nat (ir + 1)) by lia.
    replace (Z.of_nat (ir - 1) <? 0)%Z with false by (symmetry; apply Z.ltb_ge; lia). replace (Z.of_nat (ir + 1) <? 0)%Z with false by (symmetry; apply Z.ltb_ge; lia).
    replace (Z.of_nat (ir - 1) <? Z.of_nat (Nr g))%Z with true by (symmetry; apply Z.ltb_lt; lia). replace (Z.of_nat (ir + 1) <? Z.of_nat (Nr g))%Z with true by (symmetry; apply Z.ltb_lt; lia).
    rewrite !Nat2Z.id. unfold rline. rewrite (VR (ir - 1)%nat), (VR (ir + 1)%nat) by auto.
    rewrite M0, M1. rewrite Rmult_0_l.
    transitivity (ga g ^ 2 * sin t * cos t * cr * (sinh (m + q) ^ 2 - sinh (m - q) ^ 2) / 2); [field|]. rewrite sinh_square_diff. field. }
  rewrite <- T0 in EA. rewrite EA, ER, W.
  assert (S0 : 0 < sin t) by (apply sin_gt_0; lra). pose proof (sinh_pos m Hm) as H0. pose proof (cosh_ge_1 m) as C1.
  assert (D : sin h = 2 * sin t * cos t) by (rewrite T0, <- sin_2a; f_equal; field).
  pose proof (mcosh_ge (2 * q) ltac:(lra)) as R1. pose proof (cosh_small (2 * q) ltac:(lra)) as R2. pose proof (sinh_le_cosh (2 * q) ltac:(lra)) as [R3 _].
  assert (S1 : sinh (2 * q) / (2 * q) <= 31 / 30).
  { apply Rmult_le_reg_r with (2 * q); [lra|]. unfold Rdiv at 1. rewrite Rmult_assoc, Rinv_l by lra. nra. }
  assert (S2 : 0 <= sinh (2 * q) / (2 * q)) by (apply Rmult_le_pos; [lra|left; apply Rinv_0_lt_compat; lra]).
  assert (S3 : cr * (sinh (2 * q) / (2 * q)) <= 21 / 20).
  { apply Rle_trans with (1016 / 1000 * (31 / 30)); [apply Rmult_le_compat; lra|lra]. }
  pose proof (odd_flux_gap h _ ca ltac:(lra) S3 ltac:(apply Rmult_le_pos; lra) Hca) as G. rewrite D in G. rewrite <- T0 in G.
  set (X := _ - _) in G.
  assert (P : 0 < sinh m ^ 2 + sin t ^ 2) by (pose proof (pow_lt (sin t) 2 S0); pose proof (pow2_ge_0 (sinh m)); lra).
  match goal with |- ?x <= _ => replace x with (cosh m / (ga g * sin t * (sinh m ^ 2 + sin t ^ 2)) * X) end.
  2:{ unfold X. field. repeat split; lra. }
  assert (Sh : sin t <= h / 2) by (rewrite T0; left; apply sin_lt_x; lra).
  assert (B : sinh m ^ 2 + sin t ^ 2 <= cosh m ^ 2) by (rewrite hc2; pose proof (SIN_bound t); simpl; nra).
  apply Rle_trans with (cosh m / (ga g * sin t * (sinh m ^ 2 + sin t ^ 2)) * - (sin t / 5)).
  { apply Rmult_le_compat_l; [|lra]. apply Rmult_le_pos; [lra|]. left. apply Rinv_0_lt_compat. repeat apply Rmult_lt_0_compat; lra. }
  replace (cosh m / (ga g * sin t * (sinh m ^ 2 + sin t ^ 2)) * - (sin t / 5)) with (- (cosh m * / (5 * ga g * (sinh m ^ 2 + sin t ^ 2)))) by (field; repeat split; lra).
  apply Ropp_le_contravar. replace (/ (5 * ga g * cosh m)) with (cosh m * / (5 * ga g * cosh m ^ 2)) by (field; lra).
  apply Rmult_le_compat_l; [lra|]. apply Rinv_le_contravar; [nra|]. apply Rmult_le_compat_l; lra.
Qed.

(** The unit field along the axis has divergence zero everywhere; on every grid with three-point stencils and steps
    at most 1/4 and 1/8 the computed one beside the axis is at most -1 / (5 a cosh m). *)
Lemma axis_field : forall g fa fr ir, grid_ok g -> fd_ok g 1 -> PI / INR (Na g) <= 1 / 4 -> gL g / INR (Nr g) <= 1 / 8 ->
  field_sampled g (fun _ _ => 1) (fun _ _ => 0) fa fr -> (1 <= ir)%nat -> (ir + 1 < Nr g)%nat ->
  gapply g (diva g) fa (pos g 0 ir) + gapply g (divr g) fr (pos g 0 ir) <= - / (5 * ga g * cosh (node (Nr g) (gL g) ir)).
Proof.
  intros g fa fr ir Hok Hfd Hha Hhr Hf Hi1 Hi2. pose proof (Na_pos g) as HN.
  apply (axis_value g fa fr ir 1 1); auto; try lra.
  - intros ja Hj. rewrite Rmult_1_l. apply (Hf ja ir). split; lia.
  - intros jr Hj. rewrite Rmult_1_l. apply (Hf 0%nat jr). split; lia.
Qed.

(** The computed gradient of z + c. *)
Lemma grad_of_z : forall g n c ia ir, grid_ok g -> fd_ok g 1 -> (forall ja jr, is_point g ja jr -> n (pos g ja jr) = c + pz (ga g) (node (Na g) PI ja) (node (Nr g) (gL g) jr)) ->
  is_point g ia ir ->
  let h := PI / INR (Na g) in let q := gL g / INR (Nr g) in
  gapply g (grada g) n (pos g ia ir) = sin h / h * along_t 1 0 (node (Na g) PI ia) (node (Nr g) (gL g) ir) /\
  ((ir + 1 < Nr g)%nat -> gapply g (gradr g) n (pos g ia ir) = sinh q / q * along_m 1 0 (node (Na g) PI ia) (node (Nr g) (gL g) ir)).
Proof.
  intros g n c ia ir Hok Hfd Hn Hp h q. set (t := node (Na g) PI ia). set (m := node (Nr g) (gL g) ir).
  assert (HA : 0 < ga g) by apply Hok. assert (HL : 0 < gL g) by apply Hok. pose proof (da_pos g) as Pa. pose proof (dr_pos g HL) as Pr. fold h in Pa. fold q in Pr.
  assert (HM : 0 < metric t m) by (apply metric_pos, (pt_m g ia ir); auto).
  destruct (fd1_coef g Hfd) as (c0 & c1 & c2 & _). destruct Hp as [Pia Pir].
  assert (O : offset 1 0 = -1 /\ offset 1 1 = 0 /\ offset 1 2 = 1) by (unfold offset; simpl; lra). destruct O as (O0 & O1 & O2).
  assert (St : forall u p f x d, samples 1 u p f x d -> stencil 1 (d1 g) u p = (f (x + d) - f (x - d)) / 2).
  { intros u p f x d H. unfold stencil. rewrite (sumR_ext _ _ (fun j => d1 g j * f (x + offset 1 j * d))) by (intros; rewrite H; auto).
    cbn [sumR Nat.mul Nat.add]. rewrite c0, c1, c2, O0, O2. replace (x + -1 * d) with (x - d) by ring. replace (x + 1 * d) with (x + d) by ring. field. }
  split.
  - rewrite (grada_form g 1) by (try exact Hfd; try lia; split; auto). rewrite h1_point by (auto; split; auto). fold t m. rewrite ha_val. fold h.
    rewrite (St _ ia (fun t => c + pz (ga g) t m) t h).
    + unfold along_t, pz. rewrite cos_plus, cos_minus. field. repeat split; lra.
    + pose proof (reflect_samples (Na g) PI 1 (fun t => c + pz (ga g) t m) 1 ia (Na_pos g) ltac:(lia) Pia) as Q.
      intros j Hj. refine (eq_trans _ (Q _ _ j Hj)).
      * unfold reflect, aline. repeat match goal with |- context [Z.ltb ?x ?y] => destruct (Z.ltb_spec x y) end; try rewrite Hn; try reflexivity; split; auto; lia.
      * intros s. unfold pz. rewrite cos_neg. ring.
      * intros s. unfold pz. replace (2 * PI - s) with (- s + 2 * INR 1 * PI) by (simpl; ring). rewrite cos_period, cos_neg. ring.
  - intros Hi. rewrite (gradr_form g 1) by (try exact Hfd; try lia; split; auto). rewrite h2_point by (auto; split; auto). fold t m. rewrite hr_val. fold q.
    assert (Cn : forall s, cosh (- s) = cosh s). { intros s. Local Transparent cosh. unfold cosh. rewrite Ropp_involutive. lra. }
    Local Opaque cosh.
    rewrite (St _ ir (fun m => c + pz (ga g) t m) m q).
    + unfold along_m, pz.
      assert (E : cosh (m + q) - cosh (m - q) = 2 * sinh m * sinh q).
      { Local Transparent cosh sinh. unfold cosh, sinh. replace (- (m + q)) with (- m + - q) by ring. replace (m - q) with (m + - q) by ring. replace (- (m + - q)) with (- m + q) by ring.
        rewrite !exp_plus. field. }
      Local Opaque cosh sinh.
      replace (c + ga g * cosh (m + q) * cos t - (c + ga g * cosh (m - q) * cos t)) with (ga g * cos t * (cosh (m + q) - cosh (m - q))) by ring. rewrite E.
      field. repeat split; lra.
    + pose proof (inner_samples (Nr g) (gL g) 1 (fun m => c + pz (ga g) t m) (fun _ => 0) 1 ir (Nr_pos g) ltac:(lia) Pir) as Q.
      intros j Hj. refine (eq_trans _ (Q _ _ j Hj)).
      * unfold reflect_inner, rline. repeat match goal with |- context [Z.ltb ?x ?y] => destruct (Z.ltb_spec x y) end; try rewrite Hn; try reflexivity; split; auto; lia.
      * intros s. unfold pz. rewrite Cn. ring.
      * intros p Hq Hge. lia.
Qed.
(** div grad (z + c) as the matrices compute it. *)
Lemma lap_of_z : forall g n c ir, grid_ok g -> fd_ok g 1 -> PI / INR (Na g) <= 1 / 4 -> gL g / INR (Nr g) <= 1 / 8 ->
  (forall ja jr, is_point g ja jr -> n (pos g ja jr) = c + pz (ga g) (node (Na g) PI ja) (node (Nr g) (gL g) jr)) ->
  (1 <= ir)%nat -> (ir + 2 < Nr g)%nat ->
  gapply g (diva g) (gapply g (grada g) n) (pos g 0 ir) + gapply g (divr g) (gapply g (gradr g) n) (pos g 0 ir)
  <= - / (5 * ga g * cosh (node (Nr g) (gL g) ir)).
Proof.
  intros g n c ir Hok Hfd Hha Hhr Hn Hi1 Hi2. pose proof (Na_pos g) as HN.
  assert (HL : 0 < gL g) by apply Hok. pose proof (da_pos g) as Pa. pose proof (dr_pos g HL) as Pr.
  set (h := PI / INR (Na g)) in *. set (q := gL g / INR (Nr g)) in *.
  apply (axis_value g _ _ ir (sin h / h) (sinh q / q)); auto; try lia.
  - intros ja Hj. apply (grad_of_z g n c ja ir); auto. split; lia.
  - intros jr Hj. apply (grad_of_z g n c 0 jr); auto; [split; lia|lia].
  - pose proof (mcosh_ge q ltac:(lra)) as A. pose proof (sinh_le_cosh q ltac:(lra)) as [B _]. pose proof (hc2 q) as C. pose proof (cosh_ge_1 q).
    assert (K : cosh q <= 1016 / 1000).
    { apply Rnot_lt_le. intro L. assert (sinh q <= 1 / 8 * cosh q) by nra. assert (sinh q ^ 2 <= (1 / 8 * cosh q) ^ 2) by (apply pow_incr; lra). nra. }
    split; [apply Rmult_le_pos; [lra|left; apply Rinv_0_lt_compat; lra]|].
    apply Rmult_le_reg_r with q; [lra|]. unfold Rdiv at 1. rewrite Rmult_assoc, Rinv_l by lra. nra.
  - pose proof (sin_ge_cubic h ltac:(lra)) as A. apply Rmult_le_reg_r with h; [lra|]. unfold Rdiv at 2. rewrite Rmult_assoc, Rinv_l by lra.
    assert (0 < h ^ 2 <= 1 / 16) by (simpl; nra). replace (h ^ 3) with (h * h ^ 2) in A by ring. nra.
Qed.

(** * Examples *)
(** The fluxes of the unit field along the axis are smooth with bounded derivatives. *)
Lemma axis_flux : forall a t m, flux_t (fun _ _ => 1) (fun _ _ => 0) a t m = trig2 (- (a ^ 2 * sinh m * cosh m) / 2) (a ^ 2 * sinh m * cosh m / 2) 0 t /\
  flux_m (fun _ _ => 1) (fun _ _ => 0) a t m = hyp2 (- (a ^ 2 * sin t * cos t) / 2) (a ^ 2 * sin t * cos t / 2) 0 m.
Proof.
  intros a t m. unfold flux_t, flux_m, trig2, hyp2, seen. rewrite cos_2a_sin, cosh_double, hc2. split; field.
Qed.
Lemma axis_smooth : forall a t m n r, smooth n (fun t => flux_t (fun _ _ => 1) (fun _ _ => 0) a t m) /\ smooth n (fun m => flux_m (fun _ _ => 1) (fun _ _ => 0) a t m) /\
  exists Ma Mr, (forall s, Rabs (Derive_n (fun t => flux_t (fun _ _ => 1) (fun _ _ => 0) a t m) (S n) s) <= Ma) /\
    forall s, Rabs s <= r -> Rabs (Derive_n (fun m => flux_m (fun _ _ => 1) (fun _ _ => 0) a t m) (S n) s) <= Mr.
Proof.
  intros a t m n r.
  split; [apply (smooth_ext _ (trig2 (- (a ^ 2 * sinh m * cosh m) / 2) (a ^ 2 * sinh m * cosh m / 2) 0)); [intro; symmetry; apply axis_flux|apply smooth_trig2]|].
  split; [apply (smooth_ext _ (hyp2 (- (a ^ 2 * sin t * cos t) / 2) (a ^ 2 * sin t * cos t / 2) 0)); [intro; symmetry; apply axis_flux|apply smooth_hyp2]|].
  destruct (trig2_bound (a ^ 2 * sinh m * cosh m / 2) 0 n) as (Ma & HA). destruct (hyp2_bound (a ^ 2 * sin t * cos t / 2) 0 n r) as (Mr & HR).
  exists Ma, Mr. split; intros s; [|intro Hs].
  - rewrite (Derive_n_ext _ (trig2 (- (a ^ 2 * sinh m * cosh m) / 2) (a ^ 2 * sinh m * cosh m / 2) 0)); [apply HA|intro; apply axis_flux].
  - rewrite (Derive_n_ext _ (hyp2 (- (a ^ 2 * sin t * cos t) / 2) (a ^ 2 * sin t * cos t / 2) 0)); [apply HR, Hs|intro; apply axis_flux].
Qed.
Lemma field_any : forall g Vz Vy, exists fa fr, field_sampled g Vz Vy fa fr.
Proof.
  intros g Vz Vy.
  destruct (ex_intro (fun F => sampled g _ F) _ (sampled_any g (fun t m => along_t (seen Vz (ga g) t m) (seen Vy (ga g) t m) t m))) as (fa & A).
  destruct (ex_intro (fun F => sampled g _ F) _ (sampled_any g (fun t m => along_m (seen Vz (ga g) t m) (seen Vy (ga g) t m) t m))) as (fr & B).
  exists fa, fr. intros ja jr H t m. split; [apply (A ja jr H)|apply (B ja jr H)].
Qed.
(** Grids with three-point stencils and ever smaller steps. *)
Definition fine3 (N : nat) : grid := grid_of 4 (N + 5) (N + 5) 1 2 1.
Lemma fine3_ok : forall N, grid_ok (fine3 N) /\ fd_ok (fine3 N) 1 /\ PI / INR (Na (fine3 N)) <= 1 / 4 /\ gL (fine3 N) / INR (Nr (fine3 N)) <= 1 / 8 /\
  (N < Na (fine3 N))%nat /\ (N < Nr (fine3 N))%nat /\ (1 + 2 < Nr (fine3 N))%nat /\ ga (fine3 N) = 1.
Proof.
  intros N. split; [apply grid_of_ok; try lia; lra|]. split; [apply grid_of_fd; lia|].
  assert (E : (Na (fine3 N) = 3 * N + 16)%nat) by (unfold Na, fine3, grid_of; simpl gNP; simpl gNMa; lia).
  assert (F : (Nr (fine3 N) = 3 * N + 16)%nat) by (unfold Nr, fine3, grid_of; simpl gNP; simpl gNMr; lia).
  rewrite E, F. assert (I : 16 <= INR (3 * N + 16)) by (replace 16 with (INR 16) by (simpl; lra); apply le_INR; lia).
  assert (T : forall x, 0 <= x -> x / INR (3 * N + 16) <= x / 16) by (intros x Hx; apply Rmult_le_compat_l; [exact Hx|apply Rinv_le_contravar; lra]).
  pose proof PI_4. pose proof PI_RGT_0. split; [eapply Rle_trans; [apply T; lra|lra]|]. change (gL (fine3 N)) with 2. split; [eapply Rle_trans; [apply T; lra|lra]|].
  repeat split; try lia. 
Qed.
