(** Accuracy of the gradient, of sigma and of the divergence on smooth functions. *)
From Coq Require Import Reals List Lia Lra ZArith.
From Coquelicot Require Import Coquelicot.
From Verif Require Import Base BaseLemmas GridModel Poly GridSpec GridProofs FDProofs OpProofs LapCont
  SolverModel Accuracy AccuracyOp AccuracyWit.
Import ListNotations.
Local Open Scope R_scope.
Local Opaque sinh cosh.

(** Length of the coordinate vectors at (t, m), without the factor a. *)
Definition metric (t m : R) : R := sqrt (sinh m ^ 2 + sin t ^ 2).
(** Components of the vector (vz, vy) along the angular and the radial coordinate line through (t, m). *)
Definition along_t (vz vy t m : R) : R := (- (cosh m * sin t) * vz + sinh m * cos t * vy) / metric t m.
Definition along_m (vz vy t m : R) : R := (sinh m * cos t * vz + cosh m * sin t * vy) / metric t m.

Lemma metric_sq : forall t m, metric t m ^ 2 = sinh m ^ 2 + sin t ^ 2.
Proof. intros. unfold metric. rewrite <- Rsqr_pow2, Rsqr_sqrt; [reflexivity|]. pose proof (pow2_ge_0 (sinh m)). pose proof (pow2_ge_0 (sin t)). lra. Qed.
Lemma metric_pos : forall t m, 0 < m -> 0 < metric t m.
Proof. intros t m H. unfold metric. apply sqrt_lt_R0. pose proof (sinh_pos m H). pose proof (pow2_ge_0 (sin t)). pose proof (pow_lt (sinh m) 2 H0). lra. Qed.
Lemma sc2 : forall t, cos t ^ 2 = 1 - sin t ^ 2.
Proof. intros. pose proof (sin2_cos2 t) as H. rewrite !Rsqr_pow2 in H. lra. Qed.
Lemma hc2 : forall m, cosh m ^ 2 = 1 + sinh m ^ 2.
Proof. intros m. pose proof (cosh2_sinh2 m). lra. Qed.
(** The two coordinate directions are orthonormal. *)
Lemma along_sq : forall vz vy t m, 0 < m -> along_t vz vy t m ^ 2 + along_m vz vy t m ^ 2 = vz ^ 2 + vy ^ 2.
Proof.
  intros vz vy t m Hm. pose proof (metric_pos t m Hm) as P. unfold along_t, along_m.
  replace (_ + _) with (((cosh m ^ 2 * sin t ^ 2 + sinh m ^ 2 * cos t ^ 2) * (vz ^ 2 + vy ^ 2)) / metric t m ^ 2) by (field; lra).
  rewrite metric_sq, sc2, hc2. field. rewrite <- metric_sq. apply pow_nonzero. lra.
Qed.

Section Point.
Variables (g : grid) (ia ir : nat).
Hypothesis Hok : grid_ok g.
Hypothesis Hp : is_point g ia ir.
Let t := node (Na g) PI ia.
Let m := node (Nr g) (gL g) ir.
Lemma pt_t : 0 < t < PI. Proof. apply node_range; [apply Hp|exact PI_RGT_0]. Qed.
Lemma pt_m : 0 < m. Proof. apply (node_range (Nr g) (gL g) ir); [apply Hp|apply Hok]. Qed.
Lemma h1_point : h1 g (pos g ia ir) = ga g * metric t m.
Proof. rewrite h1_val by (apply pos_lt, Hp). rewrite Xa_pos, Xr_pos, xa_node, xr_node by (auto; apply Hp). reflexivity. Qed.
Lemma h2_point : h2 g (pos g ia ir) = ga g * metric t m.
Proof. rewrite h2_h1 by (apply pos_lt, Hp). apply h1_point. Qed.
Lemma h3_point : h3 g (pos g ia ir) = py (ga g) t m.
Proof. rewrite h3_val by (apply pos_lt, Hp). rewrite Xa_pos, Xr_pos, xa_node, xr_node by (auto; apply Hp). reflexivity. Qed.
Lemma gw_point : gw g (pos g ia ir) = h1 g (pos g ia ir) * h2 g (pos g ia ir) * h3 g (pos g ia ir).
Proof.
  rewrite gw_val, h1_point, h2_point, h3_point by (apply pos_lt, Hp). rewrite Xa_pos, Xr_pos, xa_node, xr_node by (auto; apply Hp).
  fold t m. unfold py. transitivity (ga g ^ 3 * sinh m * sin t * (sinh m ^ 2 + sin t ^ 2)); [ring|]. rewrite <- metric_sq. ring.
Qed.
End Point.

(** * Gradient *)
Section Grad.
Variables (u uz uy uzz uzy uyy : R -> R -> R) (g : grid) (b : nat) (f : vec) (ia ir : nat) (Ma Ma2 Mr Mr2 : R).
Hypothesis Hfine : fine g b.
Hypothesis Hfits : fits g b 1 u uz uy uzz uzy uyy.
Hypothesis Hf : sampled g (seen u (ga g)) f.
Hypothesis Hp : is_point g ia ir.
Let t := node (Na g) PI ia.
Let m := node (Nr g) (gL g) ir.
Hypothesis Hout : forall q, (q < b)%nat -> (Nr g <= ir + q + 1)%nat -> seen u (ga g) t (node (Nr g) (gL g) (ir + q + 1)%nat) = 0.
Hypothesis HB : lap_bound g b (seen u (ga g)) t m Ma Ma2 Mr Mr2.
Let Gz := seen uz (ga g) t m.
Let Gy := seen uy (ga g) t m.
Let h := ga g * metric t m.
Let Ea := fd_const b (2 * b + 1) (d1 g) * Ma * (PI / INR (Na g)) ^ (2 * b) / h.
Let Er := fd_const b (2 * b + 1) (d1 g) * Mr * (gL g / INR (Nr g)) ^ (2 * b) / h.

Lemma h_pos : 0 < h.
Proof. destruct Hfine as (Hok & _). unfold h. apply Rmult_lt_0_compat; [apply Hok|apply metric_pos, (pt_m g ia ir); auto]. Qed.
Lemma grada_error : Rabs (gapply g (grada g) f (pos g ia ir) - along_t Gz Gy t m) <= Ea.
Proof.
  pose proof h_pos as H0. destruct Hfine as (Hok & Hfd & [U1 U2] & HNa & HNr). destruct Hfits as (Hu & Hpar & St & Sm). destruct HB as [Ba _].
  rewrite (grada_form g b) by auto. rewrite h1_point by auto. fold t m h. rewrite ha_val.
  assert (SA : samples b (reflect (Na g) 1 (aline g f ir)) ia (fun t => seen u (ga g) t m) t (PI / INR (Na g))).
  { pose proof (reflect_samples (Na g) PI 1 (fun t => seen u (ga g) t m) b ia (Na_pos g) HNa (proj1 Hp) (seen_t0 u g 1 Hpar m) (seen_tpi u g 1 Hpar m)) as Q.
    intros j Hj. refine (eq_trans _ (Q j Hj)). unfold reflect, aline. destruct Hp.
    repeat match goal with |- context [Z.ltb ?x ?y] => destruct (Z.ltb_spec x y) end; try rewrite Hf; try reflexivity; split; auto; lia. }
  pose proof (stencil1_error g b _ ia (fun t => seen u (ga g) t m) t _ Ma Hfd U1 (da_pos g) SA (smooth_le (2 * b + 2) (2 * b + 1) _ ltac:(lia) (St m)) (fun s Hs => proj1 (Ba s Hs))) as E.
  pose proof (is_derive_unique _ _ _ (F_t u uz uy uzz uzy uyy Hu (ga g) m t)) as D.
  unfold along_t. set (x := stencil _ _ _ _ / _) in *.
  assert (E' : Rabs (x - (Gz * - (ga g * cosh m * sin t) + Gy * (ga g * sinh m * cos t))) <= fd_const b (2 * b + 1) (d1 g) * Ma * (PI / INR (Na g)) ^ (2 * b))
    by exact (eq_ind _ (fun d => Rabs (x - d) <= _) E _ D). clear E D.
  assert (HA : 0 < ga g) by apply Hok. assert (HM : 0 < metric t m) by (apply metric_pos, (pt_m g ia ir); auto).
  replace (1 / h * x - _) with ((x - (Gz * - (ga g * cosh m * sin t) + Gy * (ga g * sinh m * cos t))) / h) by (unfold h; field; lra).
  unfold Rdiv at 1. rewrite Rabs_mult, (Rabs_right (/ h)) by (left; apply Rinv_0_lt_compat, H0).
  apply Rmult_le_compat_r; [left; apply Rinv_0_lt_compat, H0|exact E'].
Qed.
Lemma gradr_error : Rabs (gapply g (gradr g) f (pos g ia ir) - along_m Gz Gy t m) <= Er.
Proof.
  pose proof h_pos as H0. destruct Hfine as (Hok & Hfd & [U1 U2] & HNa & HNr). destruct Hfits as (Hu & Hpar & St & Sm). destruct HB as [_ Br].
  assert (HL : 0 < gL g) by apply Hok.
  rewrite (gradr_form g b) by auto. rewrite h2_point by auto. fold t m h. rewrite hr_val.
  assert (SR : samples b (reflect_inner (Nr g) 1 (rline g f ia) (fun _ => 0)) ir (fun m => seen u (ga g) t m) m (gL g / INR (Nr g))).
  { pose proof (inner_samples (Nr g) (gL g) 1 (fun m => seen u (ga g) t m) (fun _ => 0) b ir (Nr_pos g) HNr (proj2 Hp) (seen_m0 u g 1 Hpar t) (fun q A B => eq_sym (Hout q A B))) as Q.
    intros j Hj. refine (eq_trans _ (Q j Hj)). unfold reflect_inner, rline. destruct Hp.
    repeat match goal with |- context [Z.ltb ?x ?y] => destruct (Z.ltb_spec x y) end; try rewrite Hf; try reflexivity; split; auto; lia. }
  pose proof (stencil1_error g b _ ir (fun m => seen u (ga g) t m) m _ Mr Hfd U1 (dr_pos g HL) SR (smooth_le (2 * b + 2) (2 * b + 1) _ ltac:(lia) (Sm t)) (fun s Hs => proj1 (Br s Hs))) as E.
  pose proof (is_derive_unique _ _ _ (F_m u uz uy uzz uzy uyy Hu (ga g) t m)) as D.
  unfold along_m. set (x := stencil _ _ _ _ / _) in *.
  assert (E' : Rabs (x - (Gz * (ga g * sinh m * cos t) + Gy * (ga g * cosh m * sin t))) <= fd_const b (2 * b + 1) (d1 g) * Mr * (gL g / INR (Nr g)) ^ (2 * b))
    by exact (eq_ind _ (fun d => Rabs (x - d) <= _) E _ D). clear E D.
  assert (HA : 0 < ga g) by apply Hok. assert (HM : 0 < metric t m) by (apply metric_pos, (pt_m g ia ir); auto).
  replace (1 / h * x - _) with ((x - (Gz * (ga g * sinh m * cos t) + Gy * (ga g * cosh m * sin t))) / h) by (unfold h; field; lra).
  unfold Rdiv at 1. rewrite Rabs_mult, (Rabs_right (/ h)) by (left; apply Rinv_0_lt_compat, H0).
  apply Rmult_le_compat_r; [left; apply Rinv_0_lt_compat, H0|exact E'].
Qed.
Lemma square_error : forall x X e G, Rabs (x - X) <= e -> Rabs X <= G -> Rabs (x ^ 2 - X ^ 2) <= e * (2 * G + e).
Proof.
  intros x X e G A B. replace (x ^ 2 - X ^ 2) with ((x - X) * (2 * X + (x - X))) by ring.
  apply Rabs_mult_le; [exact A|]. eapply Rle_trans; [apply Rabs_triang|]. rewrite Rabs_mult, (Rabs_right 2) by lra. lra.
Qed.
Lemma sigma_error :
  Rabs (gapply g (grada g) f (pos g ia ir) ^ 2 + gapply g (gradr g) f (pos g ia ir) ^ 2 - (Gz ^ 2 + Gy ^ 2))
  <= Ea * (2 * sqrt (Gz ^ 2 + Gy ^ 2) + Ea) + Er * (2 * sqrt (Gz ^ 2 + Gy ^ 2) + Er).
Proof.
  pose proof grada_error as A. pose proof gradr_error as B. assert (Hm : 0 < m) by (apply (pt_m g ia ir); auto; apply Hfine).
  pose proof (along_sq Gz Gy t m Hm) as Q.
  assert (Z : forall x y, x ^ 2 + y ^ 2 = Gz ^ 2 + Gy ^ 2 -> Rabs x <= sqrt (Gz ^ 2 + Gy ^ 2)).
  { intros x y E. rewrite <- E, <- sqrt_Rsqr_abs. apply sqrt_le_1_alt. rewrite Rsqr_pow2. pose proof (pow2_ge_0 y). lra. }
  pose proof (square_error _ _ _ _ A (Z _ _ Q)) as A'. pose proof (square_error _ _ _ _ B (Z _ _ (eq_trans (Rplus_comm _ _) Q))) as B'.
  eapply Rle_trans; [|apply Rplus_le_compat; [exact A'|exact B']]. rewrite <- Q.
  match goal with |- Rabs ?x <= Rabs ?y + Rabs ?z => replace x with (y + z) by ring end. apply Rabs_triang.
Qed.
End Grad.

(** * Divergence *)
(** Metric-weighted components (fluxes) of the field (Vz, Vy) along the two coordinates. *)
Definition flux_t (Vz Vy : R -> R -> R) (a t m : R) : R :=
  a ^ 2 * sinh m * (sin t * (- (cosh m * sin t) * seen Vz a t m + sinh m * cos t * seen Vy a t m)).
Definition flux_m (Vz Vy : R -> R -> R) (a t m : R) : R :=
  a ^ 2 * sin t * (sinh m * (sinh m * cos t * seen Vz a t m + cosh m * sin t * seen Vy a t m)).
(** Divergence of an axially symmetric field at the point seen at (t, m). *)
Definition div_at (Vz Vy Vzz Vyy : R -> R -> R) (a t m : R) : R :=
  seen Vzz a t m + seen Vyy a t m + seen Vy a t m / py a t m.

Section Field.
Variables (Vz Vy Vzz Vzy Vyz Vyy : R -> R -> R).
Hypothesis Dz : forall z y, differentiable_pt_lim Vz z y (Vzz z y) (Vzy z y).
Hypothesis Dy : forall z y, differentiable_pt_lim Vy z y (Vyz z y) (Vyy z y).
Variable a : R.

Lemma seen_dt : forall (U Uz Uy : R -> R -> R), (forall z y, differentiable_pt_lim U z y (Uz z y) (Uy z y)) -> forall t m,
  is_derive (fun t : R => seen U a t m) t (seen Uz a t m * - (a * cosh m * sin t) + seen Uy a t m * (a * sinh m * cos t)).
Proof. intros U Uz Uy D t m. unfold seen, pz, py. apply (chain2 U (fun t => a * cosh m * cos t) (fun t => a * sinh m * sin t)); [apply D|apply dZt|apply dYt]. Qed.
Lemma seen_dm : forall (U Uz Uy : R -> R -> R), (forall z y, differentiable_pt_lim U z y (Uz z y) (Uy z y)) -> forall t m,
  is_derive (fun m : R => seen U a t m) m (seen Uz a t m * (a * sinh m * cos t) + seen Uy a t m * (a * cosh m * sin t)).
Proof. intros U Uz Uy D t m. unfold seen, pz, py. apply (chain2 U (fun m => a * cosh m * cos t) (fun m => a * sinh m * sin t)); [apply D|apply dZm|apply dYm]. Qed.

Lemma flux_dt : forall t m, is_derive (fun t : R => flux_t Vz Vy a t m) t
  (a ^ 2 * sinh m * (cos t * (- (cosh m * sin t) * seen Vz a t m + sinh m * cos t * seen Vy a t m)
   + sin t * (- (cosh m * cos t) * seen Vz a t m - sinh m * sin t * seen Vy a t m
      - cosh m * sin t * (seen Vzz a t m * - (a * cosh m * sin t) + seen Vzy a t m * (a * sinh m * cos t))
      + sinh m * cos t * (seen Vyz a t m * - (a * cosh m * sin t) + seen Vyy a t m * (a * sinh m * cos t))))).
Proof.
  intros t m. pose proof (seen_dt Vz Vzz Vzy Dz t m) as A. pose proof (seen_dt Vy Vyz Vyy Dy t m) as B.
  set (A' := _ + _) in A. set (B' := _ + _) in B. unfold flux_t.
  auto_derive. { repeat split; eexists; [exact A|exact B]. }
  rewrite (is_derive_unique _ _ _ A), (is_derive_unique _ _ _ B). fold A' B'. ring.
Qed.
Lemma flux_dm : forall t m, is_derive (fun m : R => flux_m Vz Vy a t m) m
  (a ^ 2 * sin t * (cosh m * (sinh m * cos t * seen Vz a t m + cosh m * sin t * seen Vy a t m)
   + sinh m * (cosh m * cos t * seen Vz a t m + sinh m * sin t * seen Vy a t m
      + sinh m * cos t * (seen Vzz a t m * (a * sinh m * cos t) + seen Vzy a t m * (a * cosh m * sin t))
      + cosh m * sin t * (seen Vyz a t m * (a * sinh m * cos t) + seen Vyy a t m * (a * cosh m * sin t))))).
Proof.
  intros t m. pose proof (seen_dm Vz Vzz Vzy Dz t m) as A. pose proof (seen_dm Vy Vyz Vyy Dy t m) as B.
  pose proof (is_derive_sinh m) as S. pose proof (is_derive_cosh m) as C.
  set (A' := _ + _) in A. set (B' := _ + _) in B. unfold flux_m.
  auto_derive. { repeat split; eexists; eauto. }
  rewrite (is_derive_unique _ _ _ A), (is_derive_unique _ _ _ B). fold A' B'. ring.
Qed.
(** The fluxes through a small cell balance to the divergence times its volume. *)
Lemma flux_balance : forall t m, 0 < a -> 0 < t < PI -> 0 < m ->
  Derive (fun t => flux_t Vz Vy a t m) t + Derive (fun m => flux_m Vz Vy a t m) m
  = (a * metric t m) * (a * metric t m) * py a t m * div_at Vz Vy Vzz Vyy a t m.
Proof.
  intros t m Ha Ht Hm. rewrite (is_derive_unique _ _ _ (flux_dt t m)), (is_derive_unique _ _ _ (flux_dm t m)).
  replace (a * metric t m * (a * metric t m)) with (a ^ 2 * metric t m ^ 2) by ring. rewrite metric_sq.
  assert (S0 : 0 < sin t) by (apply sin_gt_0; lra). pose proof (sinh_pos m Hm) as H0.
  unfold div_at. assert (P : py a t m <> 0) by (unfold py; apply Rgt_not_eq; repeat apply Rmult_lt_0_compat; auto).
  replace (a ^ 2 * (sinh m ^ 2 + sin t ^ 2) * py a t m * (seen Vzz a t m + seen Vyy a t m + seen Vy a t m / py a t m))
    with (a ^ 2 * (sinh m ^ 2 + sin t ^ 2) * (py a t m * (seen Vzz a t m + seen Vyy a t m) + seen Vy a t m)) by (field; exact P).
  unfold py. pose proof (sc2 t) as Ec. pose proof (hc2 m) as Eh.
  set (vz := seen Vz a t m). set (vy := seen Vy a t m). set (vzz := seen Vzz a t m). set (vzy := seen Vzy a t m). set (vyz := seen Vyz a t m). set (vyy := seen Vyy a t m).
  set (s := sin t) in *. set (c := cos t) in *. set (S := sinh m) in *. set (C := cosh m) in *. clearbody vz vy vzz vzy vyz vyy s c S C.
  transitivity (a ^ 2 * ((S ^ 2 * c ^ 2 + s ^ 2 * C ^ 2) * (a * S * s * (vzz + vyy)) + vy * (S ^ 2 * c ^ 2 + s ^ 2 * C ^ 2))); [ring|].
  rewrite Ec, Eh. ring.
Qed.
End Field.

(** Away from the ends no reflected value is used. *)
Lemma mid_point : forall n len (f : R -> R) b p j, (0 < n)%nat -> (b <= p)%nat -> (p + b < n)%nat -> (j < 2 * b + 1)%nat ->
  let z := (Z.of_nat p + (Z.of_nat j - Z.of_nat b))%Z in
  (z <? 0)%Z = false /\ (z <? Z.of_nat n)%Z = true /\ f (node n len (Z.to_nat z)) = f (node n len p + offset b j * (len / INR n)).
Proof.
  intros n len f b p j Hn H1 H2 Hj z. split; [apply Z.ltb_ge; unfold z; lia|]. split; [apply Z.ltb_lt; unfold z; lia|].
  f_equal. assert (N : INR n <> 0) by (apply not_0_INR; lia). unfold node, offset.
  replace (INR (Z.to_nat z)) with (INR p + INR j - INR b).
  - field. auto.
  - unfold z. rewrite (INR_IZR_INZ (Z.to_nat _)), Z2Nat.id by lia. rewrite plus_IZR, minus_IZR, <- !INR_IZR_INZ. ring.
Qed.

(** fa and fr hold the two components of the field at the grid points. *)
Definition field_sampled (g : grid) (Vz Vy : R -> R -> R) (fa fr : vec) : Prop := forall ja jr, is_point g ja jr ->
  let t := node (Na g) PI ja in let m := node (Nr g) (gL g) jr in
  fa (pos g ja jr) = along_t (seen Vz (ga g) t m) (seen Vy (ga g) t m) t m /\
  fr (pos g ja jr) = along_m (seen Vz (ga g) t m) (seen Vy (ga g) t m) t m.

Lemma flux_nodes : forall g Vz Vy fa fr ja jr, grid_ok g -> field_sampled g Vz Vy fa fr -> is_point g ja jr ->
  let t := node (Na g) PI ja in let m := node (Nr g) (gL g) jr in let k := pos g ja jr in
  h2 g k * h3 g k * fa k = flux_t Vz Vy (ga g) t m /\ h1 g k * h3 g k * fr k = flux_m Vz Vy (ga g) t m.
Proof.
  intros g Vz Vy fa fr ja jr Hok H Hp t m k. destruct (H ja jr Hp) as [A B]. unfold k. rewrite A, B, h1_point, h2_point, h3_point by auto. fold t m.
  assert (P : 0 < metric t m) by (apply metric_pos, (pt_m g ja jr); auto).
  unfold flux_t, flux_m, along_t, along_m, py. split; field; lra.
Qed.

Section Div.
Variables (Vz Vy Vzz Vzy Vyz Vyy : R -> R -> R) (g : grid) (b : nat) (fa fr : vec) (ia ir : nat) (Ma Mr : R).
Hypothesis Dz : forall z y, differentiable_pt_lim Vz z y (Vzz z y) (Vzy z y).
Hypothesis Dy : forall z y, differentiable_pt_lim Vy z y (Vyz z y) (Vyy z y).
Hypothesis Hfine : fine g b.
Hypothesis Hf : field_sampled g Vz Vy fa fr.
Hypothesis Hp : is_point g ia ir.
Let t := node (Na g) PI ia.
Let m := node (Nr g) (gL g) ir.
Hypothesis Ia : (b <= ia)%nat /\ (ia + b < Na g)%nat.
Hypothesis Ir : (b <= ir)%nat /\ (ir + b < Nr g)%nat.
Hypothesis St : smooth (2 * b + 1) (fun t => flux_t Vz Vy (ga g) t m).
Hypothesis Sm : smooth (2 * b + 1) (fun m => flux_m Vz Vy (ga g) t m).
Hypothesis Ba : forall s, Rabs (s - t) <= INR b * (PI / INR (Na g)) -> Rabs (Derive_n (fun t => flux_t Vz Vy (ga g) t m) (2 * b + 1) s) <= Ma.
Hypothesis Br : forall s, Rabs (s - m) <= INR b * (gL g / INR (Nr g)) -> Rabs (Derive_n (fun m => flux_m Vz Vy (ga g) t m) (2 * b + 1) s) <= Mr.

Lemma div_error : Rabs (gapply g (diva g) fa (pos g ia ir) + gapply g (divr g) fr (pos g ia ir) - div_at Vz Vy Vzz Vyy (ga g) t m)
  <= fd_const b (2 * b + 1) (d1 g) * (Ma * (PI / INR (Na g)) ^ (2 * b) + Mr * (gL g / INR (Nr g)) ^ (2 * b)) / gw g (pos g ia ir).
Proof.
  destruct Hfine as (Hok & Hfd & [U1 U2] & HNa & HNr).
  pose proof (pt_t g ia ir Hp) as Ht. pose proof (pt_m g ia ir Hok Hp) as Hm. fold t in Ht. fold m in Hm.
  assert (HA : 0 < ga g) by apply Hok. assert (HL : 0 < gL g) by apply Hok.
  rewrite (diva_form g b), (divr_form g b) by auto. rewrite <- gw_point by auto. rewrite ha_val, hr_val.
  assert (W : gw g (pos g ia ir) = ga g * metric t m * (ga g * metric t m) * py (ga g) t m) by (rewrite gw_point, h1_point, h2_point, h3_point by auto; reflexivity).
  assert (P : 0 < gw g (pos g ia ir)).
  { rewrite W. pose proof (metric_pos t m Hm). unfold py. assert (0 < sin t) by (apply sin_gt_0; lra). pose proof (sinh_pos m Hm). repeat apply Rmult_lt_0_compat; auto. }
  assert (SA : samples b (reflect (Na g) (-1) (aline g (fun k => h2 g k * h3 g k * fa k) ir)) ia (fun t => flux_t Vz Vy (ga g) t m) t (PI / INR (Na g))).
  { intros j Hj. destruct (mid_point (Na g) PI (fun t => flux_t Vz Vy (ga g) t m) b ia j (Na_pos g) (proj1 Ia) (proj2 Ia) Hj) as (A & B & C).
    unfold reflect. rewrite A, B. unfold t. rewrite <- C. unfold aline.
    apply (flux_nodes g Vz Vy fa fr _ ir Hok Hf). split; [|apply Hp]. apply Z.ltb_ge in A. apply Z.ltb_lt in B. lia. }
  assert (SR : samples b (reflect_inner (Nr g) (-1) (rline g (fun k => h1 g k * h3 g k * fr k) ia) (fun _ => 0)) ir (fun m => flux_m Vz Vy (ga g) t m) m (gL g / INR (Nr g))).
  { intros j Hj. destruct (mid_point (Nr g) (gL g) (fun m => flux_m Vz Vy (ga g) t m) b ir j (Nr_pos g) (proj1 Ir) (proj2 Ir) Hj) as (A & B & C).
    unfold reflect_inner. rewrite A, B. unfold m. rewrite <- C. unfold rline.
    apply (flux_nodes g Vz Vy fa fr ia _ Hok Hf). split; [apply Hp|]. apply Z.ltb_ge in A. apply Z.ltb_lt in B. lia. }
  pose proof (stencil1_error g b _ ia _ t _ Ma Hfd U1 (da_pos g) SA St Ba) as E1.
  pose proof (stencil1_error g b _ ir _ m _ Mr Hfd U1 (dr_pos g HL) SR Sm Br) as E2.
  pose proof (flux_balance Vz Vy Vzz Vzy Vyz Vyy Dz Dy (ga g) t m HA Ht Hm) as F. rewrite <- W in F.
  change (Derive_n (fun t => flux_t Vz Vy (ga g) t m) 1 t) with (Derive (fun t => flux_t Vz Vy (ga g) t m) t) in E1.
  change (Derive_n (fun m => flux_m Vz Vy (ga g) t m) 1 m) with (Derive (fun m => flux_m Vz Vy (ga g) t m) m) in E2.
  set (x := stencil _ _ _ _ / _) in *. set (y := stencil b _ (reflect_inner _ _ _ _) _ / _) in *.
  set (D1 := Derive _ t) in *. set (D2 := Derive _ m) in *. set (w := gw g (pos g ia ir)) in *. set (d := div_at _ _ _ _ _ _ _) in *.
  replace (1 / w * x + 1 / w * y - d) with ((x - D1 + (y - D2)) / w).
  2:{ replace d with ((D1 + D2) / w) by (rewrite F; field; lra). field. lra. }
  unfold Rdiv at 1. rewrite Rabs_mult, (Rabs_right (/ w)) by (left; apply Rinv_0_lt_compat, P).
  unfold Rdiv at 3. apply Rmult_le_compat_r; [left; apply Rinv_0_lt_compat, P|].
  eapply Rle_trans; [apply Rabs_triang|]. lra.
Qed.
End Div.

