(** Facts about the plot arrays and the surprisal. *)
From Coq Require Import Reals List Arith Bool Lia Lra String.
From Coquelicot Require Import Coquelicot.
From Verif Require Import Base BaseLemmas GridModel GridSpec GridProofs HartreeModel SolverModel LibxcModel OptionsModel KSModel KSSpec KSEnergy KSTotal InverterModel PartitionModel ExtraModel.
Import ListNotations.
Local Open Scope R_scope.

Lemma Na_two : forall g, grid_ok g -> (2 <= Na g)%nat.
Proof. intros g (A & B & C & _). unfold Na. nia. Qed.
Lemma Nr_two : forall g, grid_ok g -> (2 <= Nr g)%nat.
Proof. intros g (A & B & C & _). unfold Nr. nia. Qed.

(** The point shown at row i, column j, and on which side. *)
Definition plot_row (g : grid) (i : nat) : nat := if (i =? 0)%nat then 0%nat else if (i <=? Na g)%nat then (i - 1)%nat else (Na g - 1)%nat.
Definition plot_right (g : grid) (i j : nat) : bool :=
  if (i =? 0)%nat || (Na g <? i)%nat then (j <? Nr g)%nat else (Nr g <=? j)%nat.
Definition plot_col (g : grid) (j : nat) : nat := if (j <? Nr g)%nat then (Nr g - 1 - j)%nat else (j - Nr g)%nat.

Lemma plot_val : forall g s f i j, (i < Na g + 2)%nat -> (j < 2 * Nr g)%nat ->
  plot_array g s f i j = (if plot_right g i j then f (pos g (plot_row g i) (plot_col g j)) else s * f (pos g (plot_row g i) (plot_col g j))).
Proof.
  intros g s f i j Hi Hj. unfold plot_array, vcap, hpair, plot_right, plot_row, plot_col, square, pos.
  destruct (i =? 0)%nat eqn:E0; cbn [orb].
  - apply Nat.eqb_eq in E0. subst i.
    destruct (j <? Nr g)%nat eqn:E1; [apply Nat.ltb_lt in E1|apply Nat.ltb_ge in E1].
    + destruct (2 * Nr g - 1 - j <? Nr g)%nat eqn:E2; [apply Nat.ltb_lt in E2; lia|].
      f_equal. f_equal. f_equal. lia.
    + destruct (2 * Nr g - 1 - j <? Nr g)%nat eqn:E2; [|apply Nat.ltb_ge in E2; lia].
      f_equal. f_equal. f_equal. f_equal. lia.
  - apply Nat.eqb_neq in E0.
    destruct (i <=? Na g)%nat eqn:E1; [apply Nat.leb_le in E1|apply Nat.leb_gt in E1].
    + replace (Na g <? i)%nat with false by (symmetry; apply Nat.ltb_ge; lia).
      destruct (j <? Nr g)%nat eqn:E2; [apply Nat.ltb_lt in E2|apply Nat.ltb_ge in E2].
      * replace (Nr g <=? j)%nat with false by (symmetry; apply Nat.leb_gt; lia).
        f_equal. f_equal. f_equal. f_equal. lia.
      * replace (Nr g <=? j)%nat with true by (symmetry; apply Nat.leb_le; lia).
        f_equal. f_equal. f_equal. lia.
    + replace (Na g <? i)%nat with true by (symmetry; apply Nat.ltb_lt; lia).
      destruct (j <? Nr g)%nat eqn:E2; [apply Nat.ltb_lt in E2|apply Nat.ltb_ge in E2].
      * destruct (2 * Nr g - 1 - j <? Nr g)%nat eqn:E3; [apply Nat.ltb_lt in E3; lia|].
        f_equal. f_equal. f_equal. lia.
      * destruct (2 * Nr g - 1 - j <? Nr g)%nat eqn:E3; [|apply Nat.ltb_ge in E3; lia].
        f_equal. f_equal. f_equal. f_equal. lia.
Qed.

Lemma plot_point : forall g i j, (i < Na g + 2)%nat -> (j < 2 * Nr g)%nat -> is_point g (plot_row g i) (plot_col g j).
Proof.
  intros g i j Hi Hj. pose proof (Na_pos g). pose proof (Nr_pos g). unfold is_point, plot_row, plot_col. split.
  - destruct (i =? 0)%nat eqn:E0; [lia|]. apply Nat.eqb_neq in E0. destruct (i <=? Na g)%nat eqn:E1; [apply Nat.leb_le in E1; lia|lia].
  - destruct (j <? Nr g)%nat eqn:E; [apply Nat.ltb_lt in E|apply Nat.ltb_ge in E]; lia.
Qed.

Lemma Z0_gZ : forall g k, (k < Nelem g)%nat -> Z0 g k = gZ g k.
Proof. intros. rewrite gZ_val by auto. reflexivity. Qed.
Lemma Y0_gY : forall g k, (k < Nelem g)%nat -> Y0 g k = gY g k.
Proof. intros. rewrite gY_val by auto. reflexivity. Qed.

Lemma plotter_inv : forall g a s full Z X, plotter g a s = Ok (full, Z, X) ->
  (shape a = None \/ shape a = Some 1%nat) /\
  forall i j, (i < Na g + 2)%nat -> (j < 2 * Nr g)%nat ->
    let k := pos g (plot_row g i) (plot_col g j) in
    Z i j = gZ g k /\
    (plot_right g i j = true /\ X i j = gY g k /\ full i j = entry a k 0 \/
     plot_right g i j = false /\ X i j = - gY g k /\ full i j = s * entry a k 0).
Proof.
  intros g a s full Z X H. unfold plotter in H. destruct (_ || _)%bool; [discriminate|].
  assert (A : (shape a = None \/ shape a = Some 1%nat) /\ exists f, (forall k, f k = entry a k 0%nat) /\ full = plot_array g s f /\ Z = plot_array g 1 (Z0 g) /\ X = plot_array g (-1) (Y0 g)).
  { destruct a as [f|c f]; cbn in H.
    - injection H as <- <- <-. split; [now left|]. exists f. auto.
    - destruct (c =? 1)%nat eqn:E; [|discriminate]. apply Nat.eqb_eq in E. subst c. cbn in H. injection H as <- <- <-.
      split; [now right|]. exists (fun k => f k 0%nat). auto. }
  destruct A as (A & f & F & -> & -> & ->). split; [exact A|]. intros i j Hi Hj k.
  pose proof (plot_point g i j Hi Hj) as P. apply pos_lt in P. fold k in P.
  rewrite !plot_val by auto. fold k. rewrite Z0_gZ, Y0_gY by auto. rewrite <- F.
  destruct (plot_right g i j); (split; [lra|]); [left|right]; repeat split; lra.
Qed.

Lemma plotter_ok : forall g a s, grid_ok g -> shape a = None \/ shape a = Some 1%nat -> is_ok (plotter g a s).
Proof.
  intros g a s G S. unfold plotter. pose proof (Na_two g G). pose proof (Nr_two g G).
  replace (Na g <=? 1)%nat with false by (symmetry; apply Nat.leb_gt; lia).
  replace (Nr g <=? 1)%nat with false by (symmetry; apply Nat.leb_gt; lia). cbn [orb].
  destruct a as [f|c f]; cbn in S |- *; [eexists; reflexivity|].
  destruct S as [S|S]; [discriminate|]. injection S as ->. cbn. eexists; reflexivity.
Qed.
Lemma plotter_columns : forall g a s c, grid_ok g -> shape a = Some c -> c <> 1%nat -> plotter g a s = Err ValueError.
Proof.
  intros g a s c G S C. unfold plotter. destruct (_ || _)%bool; [reflexivity|]. destruct a as [f|c' f]; [discriminate|].
  cbn in S. injection S as ->. apply Nat.eqb_neq in C. rewrite C. reflexivity.
Qed.

(** Every point appears on both sides. *)
Lemma plot_cover : forall g ia ir, is_point g ia ir ->
  (plot_row g (S ia) = ia /\ plot_col g (Nr g + ir) = ir /\ plot_right g (S ia) (Nr g + ir) = true) /\
  (plot_col g (Nr g - 1 - ir) = ir /\ plot_right g (S ia) (Nr g - 1 - ir) = false).
Proof.
  intros g ia ir (A & B). unfold plot_row, plot_col, plot_right. cbn [Nat.eqb orb].
  replace (S ia <=? Na g)%nat with true by (symmetry; apply Nat.leb_le; lia).
  replace (Na g <? S ia)%nat with false by (symmetry; apply Nat.ltb_ge; lia).
  replace (Nr g + ir <? Nr g)%nat with false by (symmetry; apply Nat.ltb_ge; lia).
  replace (Nr g <=? Nr g + ir)%nat with true by (symmetry; apply Nat.leb_le; lia).
  replace (Nr g - 1 - ir <? Nr g)%nat with true by (symmetry; apply Nat.ltb_lt; lia).
  replace (Nr g <=? Nr g - 1 - ir)%nat with false by (symmetry; apply Nat.leb_gt; lia).
  repeat split; lia.
Qed.

(** The two added rows are the reflections of the first and last rows of points. *)
Lemma plot_caps : forall g j, (j < 2 * Nr g)%nat -> grid_ok g ->
  plot_row g 0 = plot_row g 1 /\ plot_row g (Na g + 1) = plot_row g (Na g) /\
  plot_right g 0 j = negb (plot_right g 1 j) /\ plot_right g (Na g + 1) j = negb (plot_right g (Na g) j).
Proof.
  intros g j Hj G. pose proof (Na_two g G). unfold plot_row, plot_right. cbn [Nat.eqb orb].
  replace (1 <=? Na g)%nat with true by (symmetry; apply Nat.leb_le; lia).
  replace (Na g + 1 =? 0)%nat with false by (symmetry; apply Nat.eqb_neq; lia).
  replace (Na g + 1 <=? Na g)%nat with false by (symmetry; apply Nat.leb_gt; lia).
  replace (Na g =? 0)%nat with false by (symmetry; apply Nat.eqb_neq; lia).
  replace (Na g <=? Na g)%nat with true by (symmetry; apply Nat.leb_le; lia).
  replace (Na g <? 1)%nat with false by (symmetry; apply Nat.ltb_ge; lia).
  replace (Na g <? Na g + 1)%nat with true by (symmetry; apply Nat.ltb_lt; lia).
  replace (Na g <? Na g)%nat with false by (symmetry; apply Nat.ltb_ge; lia). cbn [orb].
  destruct (j <? Nr g)%nat eqn:E; [apply Nat.ltb_lt in E|apply Nat.ltb_ge in E].
  - replace (Nr g <=? j)%nat with false by (symmetry; apply Nat.leb_gt; lia). repeat split; lia.
  - replace (Nr g <=? j)%nat with true by (symmetry; apply Nat.leb_le; lia). repeat split; lia.
Qed.

Lemma gY_pos_val : forall g ia ir, is_point g ia ir -> gY g (pos g ia ir) = ga g * sinh (xr g ir) * sin (xa g ia).
Proof. intros. rewrite gY_val by (apply pos_lt; auto). rewrite Xr_pos, Xa_pos by auto. reflexivity. Qed.
Lemma gY_up : forall g ia ir ir', grid_ok g -> is_point g ia ir -> is_point g ia ir' -> (ir < ir')%nat ->
  0 < gY g (pos g ia ir) < gY g (pos g ia ir').
Proof.
  intros g ia ir ir' G P P' L. rewrite !gY_pos_val by auto. destruct G as (N1 & N2 & N3 & A & LL).
  destruct P as (P1 & P2), P' as (_ & P3).
  pose proof (xa_range g ia P1) as (S1 & S2). pose proof (sin_gt_0 _ S1 S2) as SP.
  assert (G : grid_ok g) by (repeat split; auto).
  pose proof (xr_range g ir G P2) as (R1 & _).
  assert (xr g ir < xr g ir').
  { rewrite !xr_node. unfold node. pose proof (Nr_pos g) as NP. apply lt_0_INR in NP. apply lt_INR in L.
    apply Rmult_lt_compat_r; [apply Rinv_0_lt_compat; auto|]. apply Rmult_lt_compat_r; lra. }
  assert (0 < sinh (xr g ir)) by (apply sinh_pos; auto).
  assert (sinh (xr g ir) < sinh (xr g ir')) by (apply sinh_lt; auto).
  split; [apply Rmult_lt_0_compat; [apply Rmult_lt_0_compat|]; auto|].
  apply Rmult_lt_compat_r; auto. apply Rmult_lt_compat_l; auto.
Qed.

(** * Surprisal *)
Lemma ln2_pos : 0 < ln 2.
Proof. rewrite <- ln_1. apply ln_increasing; lra. Qed.
Lemma ln_below : forall x, 0 < x -> ln x <= x - 1.
Proof.
  intros x H. destruct (Req_dec (ln x) 0) as [E|E].
  - rewrite E. rewrite <- ln_1 in E. apply ln_inv in E; lra.
  - pose proof (exp_ineq1 (ln x) E). rewrite exp_ln in H0 by auto. lra.
Qed.
Lemma ln_strict : forall x, 0 < x -> x <> 1 -> ln x < x - 1.
Proof.
  intros x H N. assert (E : ln x <> 0). { intros E. rewrite <- ln_1 in E. apply ln_inv in E; lra. }
  pose proof (exp_ineq1 (ln x) E). rewrite exp_ln in H0 by auto. lra.
Qed.

(** Entropy, in bits, of a draw with weights a and b. *)
Definition mix_entropy (a b : R) : R := - (a / (a + b)) * (ln (a / (a + b)) / ln 2) - b / (a + b) * (ln (b / (a + b)) / ln 2).

Lemma mix_form : forall a b, 0 < a -> 0 < b -> mix_entropy a b = (ln (a + b) - (a * ln a + b * ln b) / (a + b)) / ln 2.
Proof.
  intros a b A B. unfold mix_entropy. rewrite !ln_div by lra. pose proof ln2_pos. field. lra.
Qed.
Lemma mix_sym : forall a b, mix_entropy a b = mix_entropy b a.
Proof. intros. unfold mix_entropy. rewrite (Rplus_comm b a). ring. Qed.
Lemma mix_derive : forall a b, 0 < a -> 0 < b -> is_derive (fun x => mix_entropy x b) a (b / (a + b) * (ln (b / a) / ln 2) / (a + b)).
Proof.
  intros a b A B. pose proof ln2_pos.
  apply is_derive_ext_loc with (f := fun x => (ln (x + b) - (x * ln x + b * ln b) / (x + b)) / ln 2).
  - exists (mkposreal a A). intros y Hy. symmetry. apply mix_form; auto.
    unfold ball in Hy. cbn in Hy. unfold AbsRing_ball, abs, minus, plus, opp in Hy. cbn in Hy. apply Rabs_def2 in Hy. lra.
  - auto_derive; [repeat split; lra|]. rewrite ln_div by auto. field. lra.
Qed.
Lemma mix_bounds : forall a b, 0 < a -> 0 < b -> 0 < mix_entropy a b <= 1 /\ (mix_entropy a b = 1 <-> a = b).
Proof.
  intros a b A B. pose proof ln2_pos as L. unfold mix_entropy.
  set (p := a / (a + b)). set (q := b / (a + b)).
  assert (P : 0 < p) by (apply Rdiv_lt_0_compat; lra). assert (Q : 0 < q) by (apply Rdiv_lt_0_compat; lra).
  assert (PQ : p + q = 1) by (unfold p, q; field; lra).
  assert (Lp : ln p < 0) by (rewrite <- ln_1; apply ln_increasing; lra).
  assert (Lq : ln q < 0) by (rewrite <- ln_1; apply ln_increasing; lra).
  assert (E : - p * (ln p / ln 2) - q * (ln q / ln 2) = (p * - ln p + q * - ln q) / ln 2) by (field; lra). rewrite E.
  assert (I : forall x, 0 < x -> - ln x = ln (/ (2 * x)) + ln 2).
  { intros x X. rewrite ln_Rinv, ln_mult by lra. ring. }
  assert (J : forall x, 0 < x -> x * ln (/ (2 * x)) <= / 2 - x).
  { intros x X. assert (0 < / (2 * x)) by (apply Rinv_0_lt_compat; lra). pose proof (ln_below _ H).
    apply Rle_trans with (x * (/ (2 * x) - 1)); [apply Rmult_le_compat_l; lra|]. right. field. lra. }
  assert (K : p * - ln p + q * - ln q = ln 2 + (p * ln (/ (2 * p)) + q * ln (/ (2 * q)))).
  { rewrite !I by auto. transitivity ((p + q) * ln 2 + (p * ln (/ (2 * p)) + q * ln (/ (2 * q)))); [ring|]. rewrite PQ. ring. }
  pose proof (J p P). pose proof (J q Q).
  split; [split|].
  - apply Rdiv_lt_0_compat; auto. assert (0 < p * - ln p) by (apply Rmult_lt_0_compat; lra).
    assert (0 < q * - ln q) by (apply Rmult_lt_0_compat; lra). lra.
  - apply Rmult_le_reg_r with (ln 2); auto. unfold Rdiv. rewrite Rmult_assoc, Rinv_l by lra. rewrite K. lra.
  - split.
    + intros F. apply Rmult_eq_compat_r with (r := ln 2) in F. unfold Rdiv in F. rewrite Rmult_assoc, Rinv_l in F by lra. rewrite K in F.
      destruct (Req_dec p (/ 2)) as [e|e].
      * apply Rmult_eq_compat_r with (r := a + b) in e. unfold p, Rdiv in e. rewrite Rmult_assoc, Rinv_l in e by lra. lra.
      * exfalso. assert (N : / (2 * p) <> 1). { intros N. apply e. apply Rmult_eq_compat_r with (r := 2 * p) in N. rewrite Rinv_l in N; lra. }
        assert (0 < / (2 * p)) by (apply Rinv_0_lt_compat; lra). pose proof (ln_strict _ H1 N).
        assert (p * ln (/ (2 * p)) < p * (/ (2 * p) - 1)) by (apply Rmult_lt_compat_l; lra).
        replace (p * (/ (2 * p) - 1)) with (/ 2 - p) in H3 by (field; lra). lra.
    + intros F. assert (p = / 2) by (unfold p; rewrite F; field; lra). assert (q = / 2) by (unfold q; rewrite F; field; lra).
      rewrite H1, H2, ln_Rinv by lra. field. lra.
Qed.

Lemma surprise_inv : forall g p s va vb, surprise g p = Ok (s, va, vb) ->
  exists na nb nf, p_na p = Some na /\ p_nb p = Some nb /\ p_nf p = Some nf /\
    let t := sum_cols (p_pol p) in
    (forall k, (k < Nelem g)%nat -> 0 < t na k /\ 0 < t nb k /\ 0 < t nf k) /\
    (forall k, s k = - (t na k / t nf k) * log2 (t na k / t nf k) - t nb k / t nf k * log2 (t nb k / t nf k)) /\
    (forall k, va k = t nb k / t nf k * log2 (t nb k / t nf k / (t na k / t nf k)) / t nf k) /\
    (forall k, vb k = t na k / t nf k * log2 (t na k / t nf k / (t nb k / t nf k)) / t nf k).
Proof.
  intros g p s va vb H. unfold surprise in H. destruct (p_na p) as [na|]; [|discriminate]. destruct (p_nf p) as [nf|]; [|discriminate].
  destruct (p_nb p) as [nb|]; [|discriminate]. cbn [axis1 have bind] in H.
  destruct (_ && _)%bool eqn:E; [|discriminate]. cbn [negb] in H. injection H as <- <- <-.
  apply andb_prop in E. destruct E as (E & E3). apply andb_prop in E. destruct E as (E1 & E2).
  exists na, nb, nf. do 3 (split; [reflexivity|]). cbn zeta. split; [|repeat split].
  assert (P : forall f, all_pos (Nelem g) f = true -> forall k, (k < Nelem g)%nat -> 0 < f k).
  { intros f F k K. unfold all_pos in F. rewrite forallb_forall in F. specialize (F k). destruct (Rlt_dec 0 (f k)); auto.
    discriminate F. apply in_seq. lia. }
  intros k K. repeat split; apply P; auto.
Qed.

Lemma surprise_spec : forall g p s va vb, surprise g p = Ok (s, va, vb) ->
  exists na nb nf, p_na p = Some na /\ p_nb p = Some nb /\ p_nf p = Some nf /\
   forall k, (k < Nelem g)%nat -> let a := sum_cols (p_pol p) na k in let b := sum_cols (p_pol p) nb k in
     sum_cols (p_pol p) nf k = a + b ->
     s k = mix_entropy a b /\ is_derive (fun x => mix_entropy x b) a (va k) /\ is_derive (fun x => mix_entropy a x) b (vb k).
Proof.
  intros g p s va vb H. apply surprise_inv in H. destruct H as (na & nb & nf & A & B & C & P & S & VA & VB).
  exists na, nb, nf. do 3 (split; [assumption|]). intros k K a b N. specialize (P k K). destruct P as (Pa & Pb & Pf).
  fold a in Pa. fold b in Pb. rewrite S, VA, VB. rewrite N. fold a b. split; [unfold mix_entropy, log2; ring|].
  assert (D : forall x y, 0 < x -> 0 < y -> y / (x + y) * log2 (y / (x + y) / (x / (x + y))) / (x + y) = y / (x + y) * (ln (y / x) / ln 2) / (x + y)).
  { intros x y X Y. unfold log2. replace (y / (x + y) / (x / (x + y))) with (y / x) by (field; lra). reflexivity. }
  split.
  - rewrite D by auto. apply mix_derive; auto.
  - rewrite (Rplus_comm a b), D by auto. apply is_derive_ext with (f := fun x => mix_entropy x a); [intros; apply mix_sym|].
    apply mix_derive; auto.
Qed.

(** * Statements about plots *)
Theorem plot_every_entry : forall g a s full Z X, plotter g a s = Ok (full, Z, X) -> forall i j, (i < Na g + 2)%nat -> (j < 2 * Nr g)%nat ->
  exists ia ir, is_point g ia ir /\ Z i j = gZ g (pos g ia ir) /\
    (X i j = gY g (pos g ia ir) /\ full i j = entry a (pos g ia ir) 0 \/ X i j = - gY g (pos g ia ir) /\ full i j = s * entry a (pos g ia ir) 0).
Proof.
  intros g a s full Z X H i j Hi Hj. destruct (plotter_inv _ _ _ _ _ _ H) as (_ & V). destruct (V i j Hi Hj) as (V1 & V2). cbv zeta in *.
  exists (plot_row g i), (plot_col g j). split; [apply plot_point; auto|]. split; auto. tauto.
Qed.
Theorem plot_every_point : forall g a s full Z X, plotter g a s = Ok (full, Z, X) -> forall ia ir, is_point g ia ir ->
  let k := pos g ia ir in
  Z (S ia) (Nr g + ir)%nat = gZ g k /\ X (S ia) (Nr g + ir)%nat = gY g k /\ full (S ia) (Nr g + ir)%nat = entry a k 0 /\
  Z (S ia) (Nr g - 1 - ir)%nat = gZ g k /\ X (S ia) (Nr g - 1 - ir)%nat = - gY g k /\ full (S ia) (Nr g - 1 - ir)%nat = s * entry a k 0.
Proof.
  intros g a s full Z X H ia ir P k. destruct (plotter_inv _ _ _ _ _ _ H) as (_ & V). destruct (plot_cover g ia ir P) as ((C1 & C2 & C3) & C4 & C5). destruct P as (P1 & P2).
  destruct (V (S ia) (Nr g + ir)%nat) as (A1 & A2); try lia. destruct (V (S ia) (Nr g - 1 - ir)%nat) as (B1 & B2); try lia. cbv zeta in *.
  rewrite C1, C2 in A1, A2. rewrite C1, C4 in B1, B2. rewrite C3 in A2. rewrite C5 in B2. destruct A2 as [(_ & A2 & A3)|(? & _)]; [|discriminate]. destruct B2 as [(? & _)|(_ & B2 & B3)]; [discriminate|].
  unfold k. auto 10.
Qed.
(** The rows at both ends repeat their neighbour with the sides exchanged, so that the picture closes on the axis. *)
Theorem plot_closed : forall g a s full Z X, grid_ok g -> plotter g a s = Ok (full, Z, X) -> forall i i' j, (j < 2 * Nr g)%nat -> (i = 0 /\ i' = 1 \/ i = Na g + 1 /\ i' = Na g)%nat ->
  Z i j = Z i' j /\ X i j = - X i' j /\ full i j = full i' (2 * Nr g - 1 - j)%nat.
Proof.
  intros g a s full Z X G H i i' j Hj HI. destruct (plotter_inv _ _ _ _ _ _ H) as (_ & V). pose proof (Na_two g G). destruct (plot_caps g j Hj G) as (C1 & C2 & C3 & C4). set (j' := (2 * Nr g - 1 - j)%nat).
  assert (CC : plot_col g j' = plot_col g j). { unfold plot_col, j'. destruct (Nat.ltb_spec (2 * Nr g - 1 - j) (Nr g)), (Nat.ltb_spec j (Nr g)); lia. }
  assert (RI : forall i0, (1 <= i0 <= Na g)%nat -> plot_right g i0 j' = negb (plot_right g i0 j)).
  { intros i0 I0. unfold plot_right, j'. replace (i0 =? 0)%nat with false by (symmetry; apply Nat.eqb_neq; lia). replace (Na g <? i0)%nat with false by (symmetry; apply Nat.ltb_ge; lia). cbn [orb].
    destruct (Nat.leb_spec (Nr g) (2 * Nr g - 1 - j)), (Nat.leb_spec (Nr g) j); cbn; auto; lia. }
  assert (R : plot_row g i = plot_row g i') by (destruct HI as [(-> & ->)|(-> & ->)]; auto).
  assert (R2 : plot_right g i j = negb (plot_right g i' j)) by (destruct HI as [(-> & ->)|(-> & ->)]; auto).
  assert (R3 : plot_right g i' j' = negb (plot_right g i' j)) by (apply RI; lia).
  destruct (V i j) as (A1 & A2); try lia. destruct (V i' j) as (B1 & B2); try lia. destruct (V i' j') as (D1 & D2); try (unfold j'; lia). cbv zeta in *.
  rewrite CC in D1, D2. rewrite R in A1, A2. rewrite R2 in A2. rewrite R3 in D2.
  destruct (plot_right g i' j); cbn [negb] in A2, D2;
  destruct A2 as [(? & A2 & A3)|(? & A2 & A3)]; try discriminate; destruct B2 as [(? & B2 & B3)|(? & B2 & B3)]; try discriminate; destruct D2 as [(? & D2 & D3)|(? & D2 & D3)]; try discriminate;
  rewrite A1, B1, A2, B2, A3; (split; [reflexivity|]); (split; [ring|]); (transitivity (full i' j'); [rewrite D3; ring|reflexivity]).
Qed.
(** Along every other row X increases. *)
Theorem plot_ordered : forall g a s full Z X, grid_ok g -> plotter g a s = Ok (full, Z, X) -> forall i j j', (1 <= i <= Na g)%nat -> (j < j' < 2 * Nr g)%nat -> X i j < X i j'.
Proof.
  intros g a s full Z X G H i j j' Hi Hj. destruct i as [|ia]; [lia|]. assert (PA : (ia < Na g)%nat) by lia.
  assert (R : forall ir, (ir < Nr g)%nat -> X (S ia) (Nr g + ir)%nat = gY g (pos g ia ir)) by (intros; eapply plot_every_point; eauto; split; auto).
  assert (L : forall ir, (ir < Nr g)%nat -> X (S ia) (Nr g - 1 - ir)%nat = - gY g (pos g ia ir)) by (intros; eapply plot_every_point; eauto; split; auto).
  assert (PO : forall ir ir', (ir < ir' < Nr g)%nat -> 0 < gY g (pos g ia ir) < gY g (pos g ia ir')) by (intros; apply gY_up; auto; try split; auto; lia).
  assert (P0 : forall ir, (ir < Nr g)%nat -> 0 < gY g (pos g ia ir)). { intros ir Hr. destruct (Nat.eq_dec ir 0) as [->|]; [destruct (PO 0 1)%nat; [pose proof (Nr_two g G); lia|lra]|destruct (PO 0%nat ir); [lia|lra]]. }
  destruct (le_lt_dec (Nr g) j) as [A|A].
  - replace j with (Nr g + (j - Nr g))%nat by lia. replace j' with (Nr g + (j' - Nr g))%nat by lia. rewrite !R by lia. apply PO. lia.
  - replace j with (Nr g - 1 - (Nr g - 1 - j))%nat by lia. rewrite L by lia. destruct (le_lt_dec (Nr g) j') as [B|B].
    + replace j' with (Nr g + (j' - Nr g))%nat by lia. rewrite R by lia. pose proof (P0 (Nr g - 1 - j)%nat ltac:(lia)). pose proof (P0 (j' - Nr g)%nat ltac:(lia)). lra.
    + replace j' with (Nr g - 1 - (Nr g - 1 - j'))%nat by lia. rewrite L by lia. destruct (PO (Nr g - 1 - j')%nat (Nr g - 1 - j)%nat); [lia|lra].
Qed.

(** * Statements about the surprisal *)
(** The call never returns; with positive densities V.s is the entropy of the assignment of an electron to the fragments. *)
Theorem surprise_left : forall g p, let (p', e) := vp_surprise g p in
  (exists s va vb, surprise g p = Ok (s, va, vb) /\ e = ValueError /\ p_V p' "s"%string = Some (fun k _ => s k)) \/ (surprise g p = Err e /\ p' = p).
Proof. intros g p. unfold vp_surprise. destruct (surprise g p) as [[[s va] vb]|e]; [left|right]; auto. exists s, va, vb. auto. Qed.
Theorem surprise_total : forall g p na nb nf, p_na p = Some na -> p_nb p = Some nb -> p_nf p = Some nf ->
  (forall k, (k < Nelem g)%nat -> 0 < sum_cols (p_pol p) na k /\ 0 < sum_cols (p_pol p) nb k /\ 0 < sum_cols (p_pol p) nf k) -> exists s va vb, surprise g p = Ok (s, va, vb).
Proof.
  intros g p na nb nf A B C H. unfold surprise. rewrite A, B, C. cbn [axis1 have bind]. cbv zeta.
  assert (AP : forall f, (forall k, (k < Nelem g)%nat -> 0 < f k) -> all_pos (Nelem g) f = true).
  { intros f F. unfold all_pos. apply forallb_forall. intros k K. apply in_seq in K. destruct (Rlt_dec 0 (f k)) as [|N]; auto. exfalso. apply N, F. lia. }
  rewrite !AP by (intros k K; apply H; auto). cbn. do 3 eexists. reflexivity.
Qed.
Theorem surprise_bits : forall g p s va vb na nb nf, surprise g p = Ok (s, va, vb) -> p_na p = Some na -> p_nb p = Some nb -> p_nf p = Some nf -> 
  (forall k j, nf k j = na k j + nb k j) -> forall k, (k < Nelem g)%nat -> 0 < s k <= 1 /\ (s k = 1 <-> sum_cols (p_pol p) na k = sum_cols (p_pol p) nb k).
Proof.
  intros g p s va vb na nb nf H A B C N k K. destruct (surprise_inv _ _ _ _ _ H) as (na' & nb' & nf' & A' & B' & C' & P & _). destruct (surprise_spec _ _ _ _ _ H) as (na0 & nb0 & nf0 & A0 & B0 & C0 & V).
  rewrite A in A', A0. injection A' as <-. injection A0 as <-. rewrite B in B', B0. injection B' as <-. injection B0 as <-. rewrite C in C', C0. injection C' as <-. injection C0 as <-.
  destruct (P k K) as (Pa & Pb & _). destruct (V k K) as (-> & _). { unfold sum_cols. rewrite <- sumR_plus. apply sumR_ext. intros; apply N. } apply mix_bounds; auto.
Qed.

(** * Routines that raise *)
Lemma ked_raises : forall pol, (0 < pol)%nat -> get_ked_WFI pol = Err AttributeError.
Proof. intros pol H. unfold get_ked_WFI. destruct pol as [|pol]; [lia|]. clear H. induction pol as [|pol IH]; [reflexivity|]. cbn [forN] in *. rewrite IH. reflexivity. Qed.
Theorem collected_raises : forall lv cols Nmo N opt sol i j, Pssolver lv cols Nmo N opt = Ok sol -> (i < lv)%nat -> (j < cols)%nat -> get_ked_WFI (s_pol (sol i j)) = Err AttributeError.
Proof. intros lv cols Nmo N opt sol i j H Hi Hj. apply ked_raises. pose proof (Pssolver_spec _ _ _ _ _ _ H i j Hi Hj) as E. unfold i_solver_init in E. destruct (configure SolverOptions opt); [|discriminate]. cbn [bind] in E. destruct (Req_EM_T (N i j) (-1)); [discriminate|]. injection E as <-. cbn [s_pol]. lia. Qed.
Theorem collected_case : exists sol, Pssolver 1 2 (fun _ _ => 1%nat) (fun _ _ => 1) [] = Ok sol /\ s_pol (sol 0%nat 1%nat) = 2%nat.
Proof.
  assert (C : exists c, configure SolverOptions [] = Ok c) by (eexists; reflexivity). destruct C as (c & C). unfold Pssolver, i_solver_init. cbn [forN bind]. rewrite C. cbn [bind].
  destruct (Req_EM_T 1 (-1)) as [E|_]; [lra|]. cbn [bind]. eexists. split; [reflexivity|]. reflexivity.
Qed.
