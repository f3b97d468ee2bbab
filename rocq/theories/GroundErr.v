(** Distance between computed and exact levels on three-point grids. *)
From Coq Require Import Reals List Arith Lia Lra ZArith Bool.
From Coquelicot Require Import Coquelicot.
From Verif Require Import Base BaseLemmas GridModel Poly GridSpec GridProofs FDProofs OpProofs LapCont GridWitness GridMore SolverModel SolverSpec SolverResp
  HartreeModel HartreeSpec MaxPrinciple NCSigns Accuracy AccuracyOp Convergence ZMatrix ZSym Ground GroundThms GroundSym.
Import ListNotations.
Local Open Scope R_scope.
Local Opaque sinh cosh.

(** The factor a sin t sinh m of a row. *)
Definition row (g : grid) (k : nat) : R := ga g * sin (t_at g k) * sinh (m_at g k).
(** What the row at the outer boundary misses of the value psi beyond it. *)
Definition lost (g : grid) (psi : nat -> R) (k : nat) : R :=
  if (k / Na g + 1 =? Nr g)%nat then 1 / 2 * cN g (k mod Na g) (k / Na g) * psi (k mod Na g)%nat else 0.

Section E.
Variable g : grid.
Hypothesis T : three_point g.
Let Hg : grid_ok g. Proof. apply T. Qed.
Let Hf : fd_ok g 1. Proof. apply T. Qed.
Let Hh : gL g / INR (Nr g) <= 1. Proof. apply T. Qed.

(** Weighted residual of an arbitrary function. *)
Lemma level_residual : forall m v e p E f, eigenpair g (hamiltonian g m) v e p ->
  (e - E) * wdot g p f = sumR (Nelem g) (fun k => balance g k * p k * (happ g m v f k - E * gw g k * f k)).
Proof.
  intros m v e p E f P. pose proof (form_sym (Nelem g) (hmat g m v) (balance g) (hmat_balance g T m v) p f) as S.
  assert (A : form (Nelem g) (hmat g m v) (balance g) p f = e * wdot g p f).
  { unfold form, wdot. rewrite <- sumR_scal. apply sumR_ext. intros k K. rewrite hmat_apply by auto. rewrite (P k K). ring. }
  assert (B : form (Nelem g) (hmat g m v) (balance g) f p = sumR (Nelem g) (fun k => balance g k * p k * happ g m v f k)).
  { apply sumR_ext. intros k K. unfold happ. rewrite <- hmat_apply by auto. reflexivity. }
  rewrite A, B in S. rewrite Rmult_minus_distr_r, S. unfold wdot. rewrite <- sumR_scal, <- sumR_minus. apply sumR_ext. intros k K. ring.
Qed.
Lemma row_pos : forall k, (k < Nelem g)%nat -> 0 < row g k.
Proof.
  intros k K. destruct (pos_surj g k K) as (ia & ir & Hp & ->). unfold row, t_at, m_at. destruct Hp as [A B]. rewrite pos_div, pos_mod by auto.
  apply Rmult_lt_0_compat; [apply Rmult_lt_0_compat; [apply Hg|apply snP, A]|apply shP; auto].
Qed.
(** Residual of a smooth solution. *)
Lemma smooth_residual : forall u uz uy uzz uzy uyy Ma Mr v E f, fits g 1 1 u uz uy uzz uzy uyy -> fourth g (seen u (ga g)) Ma Mr -> sampled g (seen u (ga g)) f ->
  (forall ia ir, is_point g ia ir -> let t := node (Na g) PI ia in let m := node (Nr g) (gL g) ir in
     - (1 / 2) * lap_at uy uzz uyy (ga g) t m + v (pos g ia ir) * seen u (ga g) t m = E * seen u (ga g) t m) ->
  forall k, (k < Nelem g)%nat ->
  Rabs (happ g 0 v f k - E * gw g k * f k - lost g (fun ia => seen u (ga g) (node (Na g) PI ia) (outer g)) k) <= 1 / 2 * second_order g Ma Mr * row g k.
Proof.
  intros u uz uy uzz uzy uyy Ma Mr v E f F M S Q k K. destruct (pos_surj g k K) as (ia & ir & Hp & ->).
  set (out := fun (ja : nat) (_ : nat) => seen u (ga g) (node (Na g) PI ja) (outer g)).
  pose proof (consistent u uz uy uzz uzy uyy g Ma Mr Hg Hf F M f out ia ir Hp S eq_refl) as C. cbv zeta in C.
  pose proof (SolverResp.hamiltonian_apply g 0 f (pos g ia ir) Hg K) as HA. rewrite lap_parity in HA by auto. unfold gapply, matvec in HA.
  unfold parity in HA. change (Z.even 0) with true in HA. cbv iota in HA.
  assert (L0 : lap_form g 1 1 f (fun _ _ => 0) ia ir = lap_form g 1 1 f out ia ir - (if (ir + 1 =? Nr g)%nat then cN g ia ir * out ia 0%nat else 0)).
  { rewrite !lap_form_sg by auto. cbv zeta. unfold nbN. destruct (ir + 1 =? Nr g)%nat; ring. }
  unfold happ. rewrite HA, L0. simpl (IZR 0 ^ 2). unfold lost, row, t_at, m_at. destruct Hp as [A B]. rewrite pos_div, pos_mod by auto.
  pose proof (Q ia ir (conj A B)) as QQ. cbv zeta in QQ. rewrite (S ia ir (conj A B)).
  set (t := node (Na g) PI ia) in *. set (m := node (Nr g) (gL g) ir) in *. set (w := gw g (pos g ia ir)) in *. set (l := lap_form g 1 1 f out ia ir) in *.
  set (y := seen u (ga g) t m) in *. set (la := lap_at uy uzz uyy (ga g) t m) in *.
  replace (- (1 / 2) * (l - (if (ir + 1 =? Nr g)%nat then cN g ia ir * out ia 0%nat else 0)) + w * (0 * (0 * 1) / (2 * gY g (pos g ia ir) ^ 2)) * y + w * v (pos g ia ir) * y - E * w * y
    - (if (ir + 1 =? Nr g)%nat then 1 / 2 * cN g ia ir * seen u (ga g) t (outer g) else 0)) with (- (1 / 2) * (l - w * la)).
  - rewrite Rabs_mult, Rabs_Ropp, (Rabs_pos_eq (1 / 2)) by lra. nra.
  - replace (0 * (0 * 1) / (2 * gY g (pos g ia ir) ^ 2)) with 0 by (unfold Rdiv; rewrite !Rmult_0_l; reflexivity). replace (E * w * y) with (w * (E * y)) by ring. rewrite <- QQ. unfold out. fold t.
    destruct (ir + 1 =? Nr g)%nat; field.
Qed.
Lemma lost_abs : forall psi k, (k < Nelem g)%nat -> Rabs (lost g psi k) = lost g (fun ia => Rabs (psi ia)) k.
Proof.
  intros psi k K. destruct (pos_surj g k K) as (ia & ir & Hp & ->). unfold lost. destruct Hp as [A B]. rewrite pos_div, pos_mod by auto. destruct (_ =? _)%nat; [|apply Rabs_R0].
  pose proof (cN_pos g Hg ia ir (conj A B)). rewrite Rabs_mult, Rabs_pos_eq by lra. reflexivity.
Qed.
Lemma level_error : forall u uz uy uzz uzy uyy Ma Mr v E f e p, fits g 1 1 u uz uy uzz uzy uyy -> fourth g (seen u (ga g)) Ma Mr -> sampled g (seen u (ga g)) f ->
  (forall ia ir, is_point g ia ir -> let t := node (Na g) PI ia in let m := node (Nr g) (gL g) ir in
     - (1 / 2) * lap_at uy uzz uyy (ga g) t m + v (pos g ia ir) * seen u (ga g) t m = E * seen u (ga g) t m) ->
  eigenpair g (hamiltonian g 0) v e p ->
  Rabs (e - E) * Rabs (wdot g p f) <= 1 / 2 * second_order g Ma Mr * sumR (Nelem g) (fun k => balance g k * Rabs (p k) * row g k)
    + sumR (Nelem g) (fun k => balance g k * Rabs (p k) * lost g (fun ia => Rabs (seen u (ga g) (node (Na g) PI ia) (outer g))) k).
Proof.
  intros u uz uy uzz uzy uyy Ma Mr v E f e p F M S Q P. rewrite <- Rabs_mult, (level_residual 0 v e p E f P).
  apply Rle_trans with (1 := sumR_abs_le _ _). rewrite <- sumR_scal, <- sumR_plus. apply sumR_le. intros k K.
  pose proof (smooth_residual u uz uy uzz uzy uyy Ma Mr v E f F M S Q k K) as R1. pose proof (balance_pos g T k K) as B.
  set (lo := lost g (fun ia => seen u (ga g) (node (Na g) PI ia) (outer g)) k) in *. rewrite !Rabs_mult, (Rabs_pos_eq (balance g k)) by lra.
  rewrite <- lost_abs by auto. fold lo.
  assert (X : Rabs (happ g 0 v f k - E * gw g k * f k) <= 1 / 2 * second_order g Ma Mr * row g k + Rabs lo).
  { replace (happ g 0 v f k - E * gw g k * f k) with ((happ g 0 v f k - E * gw g k * f k - lo) + lo) by ring. apply Rle_trans with (1 := Rabs_triang _ _). lra. }
  assert (Y : 0 <= balance g k * Rabs (p k)) by (apply Rmult_le_pos; [lra|apply Rabs_pos]).
  apply Rle_trans with (1 := Rmult_le_compat_l _ _ _ Y X). right. ring.
Qed.
(** For positive solutions the part beyond the boundary only raises the computed level. *)
Lemma ground_below : forall u uz uy uzz uzy uyy Ma Mr v E f a x, fits g 1 1 u uz uy uzz uzy uyy -> fourth g (seen u (ga g)) Ma Mr -> sampled g (seen u (ga g)) f ->
  (forall ia ir, is_point g ia ir -> let t := node (Na g) PI ia in let m := node (Nr g) (gL g) ir in
     - (1 / 2) * lap_at uy uzz uyy (ga g) t m + v (pos g ia ir) * seen u (ga g) t m = E * seen u (ga g) t m) ->
  (forall k, (k < Nelem g)%nat -> 0 < f k) -> (forall ia, (ia < Na g)%nat -> 0 <= seen u (ga g) (node (Na g) PI ia) (outer g)) ->
  ground g 0 v a x ->
  E - 1 / 2 * second_order g Ma Mr * sumR (Nelem g) (fun k => balance g k * x k * row g k) / wdot g x f <= a.
Proof.
  intros u uz uy uzz uzy uyy Ma Mr v E f a x F M S Q P OU [X Ex].
  assert (W0 : 0 < wdot g x f).
  { pose proof (Nelem_pos g) as N0. apply Rlt_le_trans with (balance g 0%nat * gw g 0%nat * (x 0%nat * f 0%nat)).
    - apply Rmult_lt_0_compat; apply Rmult_lt_0_compat; auto using balance_pos. apply gw_pos; auto.
    - apply (term_le (Nelem g) (fun k => balance g k * gw g k * (x k * f k)) 0%nat N0). intros k K. left.
      apply Rmult_lt_0_compat; apply Rmult_lt_0_compat; auto using balance_pos. apply gw_pos; auto. }
  pose proof (level_residual 0 v a x E f Ex) as L.
  assert (B : - (1 / 2 * second_order g Ma Mr * sumR (Nelem g) (fun k => balance g k * x k * row g k)) <= (a - E) * wdot g x f).
  { rewrite L, <- Ropp_mult_distr_l_reverse, <- sumR_scal. apply sumR_le. intros k K.
    pose proof (smooth_residual u uz uy uzz uzy uyy Ma Mr v E f F M S Q k K) as R1. pose proof (Rmult_lt_0_compat _ _ (balance_pos g T k K) (X k K)) as BX.
    assert (LO : 0 <= lost g (fun ia => seen u (ga g) (node (Na g) PI ia) (outer g)) k).
    { destruct (pos_surj g k K) as (ia & ir & Hp & ->). unfold lost. destruct Hp as [A B]. rewrite pos_div, pos_mod by auto. destruct (_ =? _)%nat; [|lra].
      pose proof (cN_pos g Hg ia ir (conj A B)). pose proof (OU ia A). apply Rmult_le_pos; lra. }
    apply Rabs_le_between in R1. destruct R1 as [R1 _].
    replace (- (1 / 2 * second_order g Ma Mr) * (balance g k * x k * row g k)) with (balance g k * x k * - (1 / 2 * second_order g Ma Mr * row g k)) by ring.
    apply Rmult_le_compat_l; lra. }
  apply Rmult_le_reg_r with (1 := W0). set (c := 1 / 2 * _ * _) in *. replace ((E - c / wdot g x f) * wdot g x f) with (E * wdot g x f - c) by (field; lra). lra.
Qed.
End E.
