(** Lemmas about the grid: indices, coordinates, volume element, integration. *)
From Coq Require Import Reals List Arith Lia Lra ZArith Bool.
From Coquelicot Require Import Coquelicot.
From Verif Require Import Base BaseLemmas GridModel Poly GridSpec.
Import ListNotations.
Local Open Scope R_scope.

Lemma Na_pos : forall g, (0 < Na g)%nat.
Proof. intros; unfold Na; rewrite Nat.add_1_r; apply Nat.lt_0_succ. Qed.
Lemma Nr_pos : forall g, (0 < Nr g)%nat.
Proof. intros; unfold Nr; rewrite Nat.add_1_r; apply Nat.lt_0_succ. Qed.

Lemma pos_lt : forall g ia ir, is_point g ia ir -> (pos g ia ir < Nelem g)%nat.
Proof. intros g ia ir [H1 H2]. apply flat_lt; auto. Qed.

Lemma pos_mod : forall g ia ir, (ia < Na g)%nat -> (pos g ia ir mod Na g = ia)%nat.
Proof. intros. apply flat_mod; auto. Qed.
Lemma pos_div : forall g ia ir, (ia < Na g)%nat -> (pos g ia ir / Na g = ir)%nat.
Proof. intros. apply flat_div; auto. Qed.

(** every flat index is the position of a point *)
Lemma pos_surj : forall g k, (k < Nelem g)%nat ->
  exists ia ir, is_point g ia ir /\ k = pos g ia ir.
Proof.
  intros g k Hk. exists (k mod Na g)%nat, (k / Na g)%nat. split.
  - split.
    + apply Nat.mod_upper_bound. pose proof (Na_pos g); lia.
    + apply flat_div_lt. exact Hk.
  - apply flat_inv. apply Na_pos.
Qed.

Lemma mirror_flat_pos : forall A g (f : nat -> A) ia ir s,
  is_point g ia ir ->
  mirror_flat g f (pos g ia ir + Nelem g * s)%nat = f (pos g (Na g - 1 - ia) ir + Nelem g * s)%nat.
Proof.
  intros A g f ia ir s [Ha Hr]. unfold mirror_flat, ravel3, square, pos, Nelem.
  assert (E1 : ((ia + Na g * ir + Na g * Nr g * s) mod Na g = ia)%nat).
  { replace (ia + Na g * ir + Na g * Nr g * s)%nat with (ia + Na g * (ir + Nr g * s))%nat by ring.
    apply flat_mod; auto. }
  assert (E2 : ((ia + Na g * ir + Na g * Nr g * s) / Na g = ir + Nr g * s)%nat).
  { replace (ia + Na g * ir + Na g * Nr g * s)%nat with (ia + Na g * (ir + Nr g * s))%nat by ring.
    apply flat_div; auto. }
  rewrite E1, E2. rewrite flat_mod, flat_div by auto. f_equal. ring.
Qed.

Lemma mirror1_pos : forall A g (f : nat -> A) ia ir,
  is_point g ia ir -> mirror1 g f (pos g ia ir) = f (pos g (Na g - 1 - ia) ir).
Proof.
  intros. unfold mirror1. pose proof (mirror_flat_pos A g f ia ir 0 H) as E.
  rewrite Nat.mul_0_r, !Nat.add_0_r in E. exact E.
Qed.

Lemma mirror_point : forall g ia ir, is_point g ia ir -> is_point g (Na g - 1 - ia) ir.
Proof. intros g ia ir [H1 H2]. split; lia. Qed.

Lemma mirror2_pos : forall A g (f : nat -> nat -> A) ia ir s,
  is_point g ia ir -> mirror2 g f (pos g ia ir) s = f (pos g (Na g - 1 - ia) ir) s.
Proof.
  intros. unfold mirror2. rewrite mirror_flat_pos by auto. unfold flattenF.
  pose proof (pos_lt _ _ _ (mirror_point _ _ _ H)) as HL.
  rewrite flat_mod, flat_div by auto. reflexivity.
Qed.

Lemma mirror_entry : forall A g (x : arr A) ia ir s, is_point g ia ir ->
  entry (mirror g x) (pos g ia ir) s = entry x (pos g (Na g - 1 - ia) ir) s.
Proof.
  intros A g x ia ir s H. destruct x as [f|c f].
  - exact (mirror1_pos A g f ia ir H).
  - exact (mirror2_pos A g f ia ir s H).
Qed.

Lemma mirror_shape : forall A g (x : arr A), shape (mirror g x) = shape x.
Proof. intros A g [f|c f]; reflexivity. Qed.

Lemma mirror1_invol : forall A g (f : nat -> A) k, (k < Nelem g)%nat ->
  mirror1 g (mirror1 g f) k = f k.
Proof.
  intros A g f k Hk. destruct (pos_surj g k Hk) as (ia & ir & Hp & ->).
  rewrite !mirror1_pos by (auto using mirror_point). f_equal. unfold pos. destruct Hp. lia.
Qed.

Lemma mirror1_ext : forall A g (f f' : nat -> A) k, (k < Nelem g)%nat ->
  (forall i, (i < Nelem g)%nat -> f i = f' i) -> mirror1 g f k = mirror1 g f' k.
Proof.
  intros A g f f' k Hk H. destruct (pos_surj g k Hk) as (ia & ir & Hp & ->).
  rewrite !mirror1_pos by auto. apply H. apply pos_lt. apply mirror_point; auto.
Qed.

(** mirror of a pointwise operation *)
Lemma mirror1_map : forall A B g (h : A -> B) (f : nat -> A) k, (k < Nelem g)%nat ->
  mirror1 g (fun i => h (f i)) k = h (mirror1 g f k).
Proof.
  intros A B g h f k Hk. destruct (pos_surj g k Hk) as (ia & ir & Hp & ->).
  rewrite !mirror1_pos by auto. reflexivity.
Qed.
Lemma mirror1_map2 : forall A B C g (h : A -> B -> C) (f : nat -> A) (f' : nat -> B) k,
  (k < Nelem g)%nat ->
  mirror1 g (fun i => h (f i) (f' i)) k = h (mirror1 g f k) (mirror1 g f' k).
Proof.
  intros A B C g h f f' k Hk. destruct (pos_surj g k Hk) as (ia & ir & Hp & ->).
  rewrite !mirror1_pos by auto. reflexivity.
Qed.

(** mirror image index *)
Lemma mirror1_index : forall g k, (k < Nelem g)%nat ->
  exists k', (k' < Nelem g)%nat /\ (forall A (f : nat -> A), mirror1 g f k = f k')
          /\ (forall A (f : nat -> A), mirror1 g f k' = f k).
Proof.
  intros g k Hk. destruct (pos_surj g k Hk) as (ia & ir & Hp & ->).
  exists (pos g (Na g - 1 - ia) ir). split; [apply pos_lt, mirror_point; auto|]. split; intros.
  - apply mirror1_pos; auto.
  - rewrite mirror1_pos by (apply mirror_point; auto). f_equal. unfold pos. destruct Hp; lia.
Qed.

Lemma mirror2_mirror1 : forall A g (f : nat -> nat -> A) k s, (k < Nelem g)%nat ->
  mirror2 g f k s = mirror1 g (fun i => f i s) k.
Proof.
  intros A g f k s Hk. destruct (pos_surj g k Hk) as (ia & ir & Hp & ->).
  rewrite mirror2_pos, mirror1_pos by auto. reflexivity.
Qed.

(** Coordinates *)
Lemma xa_node : forall g ia, (ia < Na g)%nat -> xa g ia = node (Na g) PI ia.
Proof.
  intros g ia H. unfold xa, xa1, ha, xa0, linspace, node.
  replace (Na g + 1 - 1)%nat with (Na g) by lia.
  assert (INR (Na g) <> 0) by (apply not_0_INR; lia).
  rewrite !minus_INR by lia. simpl INR. field. auto.
Qed.

Lemma xa_reflect : forall g ia, (ia < Na g)%nat -> xa g (Na g - 1 - ia)%nat = PI - xa g ia.
Proof.
  intros g ia H. rewrite !xa_node by lia. unfold node.
  assert (INR (Na g) <> 0) by (apply not_0_INR; lia).
  rewrite !minus_INR by lia. simpl INR. field. auto.
Qed.

Lemma xr_node : forall g ir, xr g ir = node (Nr g) (gL g) ir.
Proof.
  intros g ir. unfold xr, hr, xr0, linspace, node.
  replace (Nr g + 1 - 1)%nat with (Nr g) by lia.
  assert (INR (Nr g) <> 0) by (apply not_0_INR; pose proof (Nr_pos g); lia).
  simpl INR. field. auto.
Qed.

Lemma ha_val : forall g, ha g = PI / INR (Na g).
Proof.
  intros. unfold ha, xa0, linspace. replace (Na g + 1 - 1)%nat with (Na g) by lia.
  assert (INR (Na g) <> 0) by (apply not_0_INR; pose proof (Na_pos g); lia). simpl INR. field; auto.
Qed.
Lemma hr_val : forall g, hr g = gL g / INR (Nr g).
Proof.
  intros. unfold hr, xr0, linspace. replace (Nr g + 1 - 1)%nat with (Nr g) by lia.
  assert (INR (Nr g) <> 0) by (apply not_0_INR; pose proof (Nr_pos g); lia). simpl INR. field; auto.
Qed.

Lemma node_range : forall n len i, (i < n)%nat -> 0 < len -> 0 < node n len i < len.
Proof.
  intros n len i Hi Hl. unfold node.
  assert (0 < INR n) by (apply lt_0_INR; lia).
  assert (INR i + 1 <= INR n) by (rewrite <- S_INR; apply le_INR; lia).
  pose proof (pos_INR i).
  split.
  - apply Rdiv_lt_0_compat; auto. apply Rmult_lt_0_compat; lra.
  - apply (Rmult_lt_reg_r (INR n)); auto. unfold Rdiv. rewrite Rmult_assoc, Rinv_l, Rmult_1_r by lra.
    rewrite Rmult_comm. apply Rmult_lt_compat_l; lra.
Qed.

Lemma Xa_pos : forall g ia ir, is_point g ia ir -> Xa g (pos g ia ir) = xa g ia.
Proof. intros g ia ir [H1 H2]. unfold Xa, flattenF, meshgrid_y. rewrite pos_mod; auto. Qed.
Lemma Xr_pos : forall g ia ir, is_point g ia ir -> Xr g (pos g ia ir) = xr g ir.
Proof. intros g ia ir [H1 H2]. unfold Xr, flattenF, meshgrid_x. rewrite pos_div; auto. Qed.

Lemma xa_range : forall g ia, (ia < Na g)%nat -> 0 < xa g ia < PI.
Proof. intros. rewrite xa_node by auto. apply node_range; auto. apply PI_RGT_0. Qed.
Lemma xr_range : forall g ir, grid_ok g -> (ir < Nr g)%nat -> 0 < xr g ir < gL g.
Proof. intros g ir Hg H. rewrite xr_node by auto. apply node_range; auto. apply Hg. Qed.

Lemma Xa_range : forall g k, (k < Nelem g)%nat -> 0 < Xa g k < PI.
Proof.
  intros g k Hk. destruct (pos_surj g k Hk) as (ia & ir & Hp & ->).
  rewrite Xa_pos by auto. apply xa_range. apply Hp.
Qed.
Lemma Xr_range : forall g k, grid_ok g -> (k < Nelem g)%nat -> 0 < Xr g k < gL g.
Proof.
  intros g k Hg Hk. destruct (pos_surj g k Hk) as (ia & ir & Hp & ->).
  rewrite Xr_pos by auto. apply xr_range; auto. apply Hp.
Qed.

Lemma Xa_mirror : forall g k, (k < Nelem g)%nat -> mirror1 g (Xa g) k = PI - Xa g k.
Proof.
  intros g k Hk. destruct (pos_surj g k Hk) as (ia & ir & Hp & ->).
  rewrite mirror1_pos, !Xa_pos by (auto using mirror_point). apply xa_reflect. apply Hp.
Qed.
Lemma Xr_mirror : forall g k, (k < Nelem g)%nat -> mirror1 g (Xr g) k = Xr g k.
Proof.
  intros g k Hk. destruct (pos_surj g k Hk) as (ia & ir & Hp & ->).
  rewrite mirror1_pos, !Xr_pos by (auto using mirror_point). reflexivity.
Qed.

(** mirror of a function of the two coordinates *)
Lemma mirror_coord : forall g (h : R -> R -> R) k, (k < Nelem g)%nat ->
  mirror1 g (fun i => h (Xa g i) (Xr g i)) k = h (PI - Xa g k) (Xr g k).
Proof.
  intros. rewrite (mirror1_map2 _ _ _ g h (Xa g) (Xr g)) by auto.
  rewrite Xa_mirror, Xr_mirror; auto.
Qed.

Lemma sin_PI_minus : forall x, sin (PI - x) = sin x.
Proof. intros. rewrite sin_minus, sin_PI, cos_PI. lra. Qed.
Lemma cos_PI_minus : forall x, cos (PI - x) = - cos x.
Proof. intros. rewrite cos_minus, sin_PI, cos_PI. lra. Qed.

Lemma gZ_val : forall g k, (k < Nelem g)%nat -> gZ g k = ga g * cosh (Xr g k) * cos (Xa g k).
Proof.
  intros. unfold gZ, Z0.
  rewrite (mirror_coord g (fun A R => ga g * cosh R * cos A)) by auto.
  rewrite cos_PI_minus. lra.
Qed.
Lemma gY_val : forall g k, (k < Nelem g)%nat -> gY g k = ga g * sinh (Xr g k) * sin (Xa g k).
Proof.
  intros. unfold gY, Y0.
  rewrite (mirror_coord g (fun A R => ga g * sinh R * sin A)) by auto.
  rewrite sin_PI_minus. lra.
Qed.
Lemma gZ_mirror : forall g k, (k < Nelem g)%nat -> mirror1 g (gZ g) k = - gZ g k.
Proof.
  intros. destruct (mirror1_index g k H) as (k' & Hk' & E & E').
  unfold gZ at 1 2. rewrite (E R). rewrite (E' R (Z0 g)), (E R (Z0 g)). lra.
Qed.
Lemma gY_mirror : forall g k, (k < Nelem g)%nat -> mirror1 g (gY g) k = gY g k.
Proof.
  intros. destruct (mirror1_index g k H) as (k' & Hk' & E & E').
  unfold gY at 1 2. rewrite (E R). rewrite (E' R (Y0 g)), (E R (Y0 g)). lra.
Qed.

(** Hyperbolic / trigonometric facts *)
Lemma cosh2_sinh2 : forall x, cosh x ^ 2 = 1 + sinh x ^ 2.
Proof.
  intros. unfold cosh, sinh.
  assert (exp x * exp (- x) = 1) by (rewrite <- exp_plus, Rplus_opp_r; apply exp_0).
  set (u := exp x) in *. set (v := exp (-x)) in *. simpl. nra.
Qed.
Lemma sin2c : forall x, sin x ^ 2 = 1 - cos x ^ 2.
Proof. intros. pose proof (sin2_cos2 x) as H. unfold Rsqr in H. simpl. nra. Qed.
Lemma sinh_pos : forall x, 0 < x -> 0 < sinh x.
Proof.
  intros. unfold sinh. assert (exp (- x) < exp x) by (apply exp_increasing; lra). lra.
Qed.
Lemma cosh_pos : forall x, 0 < cosh x.
Proof. intros. unfold cosh. pose proof (exp_pos x). pose proof (exp_pos (-x)). lra. Qed.
Lemma cosh_gt1 : forall x, 0 < x -> 1 < cosh x.
Proof.
  intros x H. pose proof (cosh2_sinh2 x). pose proof (sinh_pos x H). pose proof (cosh_pos x).
  assert (0 < sinh x ^ 2) by (apply pow_lt; auto). nra.
Qed.
Lemma sin_pos_0PI : forall x, 0 < x < PI -> 0 < sin x.
Proof. intros. apply sin_gt_0; lra. Qed.

Lemma sin_Xa_pos : forall g k, (k < Nelem g)%nat -> 0 < sin (Xa g k).
Proof. intros. apply sin_pos_0PI. apply Xa_range; auto. Qed.
Lemma sinh_Xr_pos : forall g k, grid_ok g -> (k < Nelem g)%nat -> 0 < sinh (Xr g k).
Proof. intros. apply sinh_pos. apply Xr_range; auto. Qed.

Lemma den_pos : forall x y, 0 < x -> cosh x ^ 2 - cos y ^ 2 > 0.
Proof.
  intros. pose proof (cosh_gt1 x H). pose proof (COS_bound y). nra.
Qed.

Local Opaque sinh cosh.

(** Volume element *)
Lemma h1_val : forall g k, (k < Nelem g)%nat ->
  h1 g k = ga g * sqrt (sinh (Xr g k) ^ 2 + sin (Xa g k) ^ 2).
Proof.
  intros. unfold h1, h1_0.
  rewrite (mirror_coord g (fun A R => ga g * sqrt (sinh R ^ 2 + sin A ^ 2))) by auto.
  rewrite sin_PI_minus. lra.
Qed.
Lemma h2_val : forall g k, (k < Nelem g)%nat ->
  h2 g k = ga g * sqrt (sinh (Xr g k) ^ 2 + sin (Xa g k) ^ 2).
Proof.
  intros. unfold h2, h2_0.
  rewrite (mirror_coord g (fun A R => ga g * sqrt (sinh R ^ 2 + sin A ^ 2))) by auto.
  rewrite sin_PI_minus. lra.
Qed.
Lemma h3_val : forall g k, (k < Nelem g)%nat -> h3 g k = ga g * sinh (Xr g k) * sin (Xa g k).
Proof.
  intros. unfold h3, h3_0.
  rewrite (mirror_coord g (fun A R => ga g * sinh R * sin A)) by auto.
  rewrite sin_PI_minus. lra.
Qed.
Lemma gw_val : forall g k, (k < Nelem g)%nat ->
  gw g k = ga g ^ 3 * sin (Xa g k) * sinh (Xr g k) * (sin (Xa g k) ^ 2 + sinh (Xr g k) ^ 2).
Proof.
  intros. unfold gw, w0.
  rewrite (mirror_coord g (fun A R => ga g ^ 3 * sin A * sinh R * (sin A ^ 2 + sinh R ^ 2))) by auto.
  rewrite sin_PI_minus. lra.
Qed.
Lemma gf_val0 : forall g k, (k < Nelem g)%nat ->
  gf g k = (2 / (2 * ga g) ^ 2) * 1 / (cosh (Xr g k) ^ 2 - cos (Xa g k) ^ 2)
           * (1 / (cosh (Xr g k) ^ 2 - 1) + 1 / (1 - cos (Xa g k) ^ 2)).
Proof.
  intros. unfold gf, f0.
  rewrite (mirror_coord g (fun A R => (2 / (2 * ga g) ^ 2) * 1 / (cosh R ^ 2 - cos A ^ 2)
           * (1 / (cosh R ^ 2 - 1) + 1 / (1 - cos A ^ 2)))) by auto.
  rewrite cos_PI_minus. replace ((- cos (Xa g k)) ^ 2) with (cos (Xa g k) ^ 2) by ring. lra.
Qed.

Lemma gw_pos : forall g k, grid_ok g -> (k < Nelem g)%nat -> 0 < gw g k.
Proof.
  intros g k Hg Hk. rewrite gw_val by auto.
  pose proof (sin_Xa_pos g k Hk). pose proof (sinh_Xr_pos g k Hg Hk).
  assert (0 < ga g) by apply Hg.
  assert (0 < sin (Xa g k) ^ 2) by (apply pow_lt; auto).
  assert (0 < sinh (Xr g k) ^ 2) by (apply pow_lt; auto).
  repeat apply Rmult_lt_0_compat; auto; try lra.
Qed.

Lemma h_prod : forall g k, grid_ok g -> (k < Nelem g)%nat -> gw g k = h1 g k * h2 g k * h3 g k.
Proof.
  intros g k Hg Hk. rewrite gw_val, h1_val, h2_val, h3_val by auto.
  assert (0 <= sinh (Xr g k) ^ 2 + sin (Xa g k) ^ 2).
  { pose proof (pow2_ge_0 (sinh (Xr g k))). pose proof (pow2_ge_0 (sin (Xa g k))). lra. }
  pose proof (sqrt_sqrt _ H) as E.
  set (q := sqrt (sinh (Xr g k) ^ 2 + sin (Xa g k) ^ 2)) in *.
  replace (ga g * q * (ga g * q) * (ga g * sinh (Xr g k) * sin (Xa g k)))
    with (ga g ^ 3 * sin (Xa g k) * sinh (Xr g k) * (q * q)) by ring.
  rewrite E. ring.
Qed.

Lemma h1_pos : forall g k, grid_ok g -> (k < Nelem g)%nat -> 0 < h1 g k.
Proof.
  intros g k Hg Hk. rewrite h1_val by auto. apply Rmult_lt_0_compat; [apply Hg|].
  apply sqrt_lt_R0. pose proof (pow_lt _ 2 (sin_Xa_pos g k Hk)).
  pose proof (pow2_ge_0 (sinh (Xr g k))). lra.
Qed.
Lemma h2_h1 : forall g k, (k < Nelem g)%nat -> h2 g k = h1 g k.
Proof. intros. rewrite h2_val, h1_val by auto. reflexivity. Qed.
Lemma h3_pos : forall g k, grid_ok g -> (k < Nelem g)%nat -> 0 < h3 g k.
Proof.
  intros g k Hg Hk. rewrite h3_val by auto.
  pose proof (sin_Xa_pos g k Hk). pose proof (sinh_Xr_pos g k Hg Hk).
  repeat apply Rmult_lt_0_compat; auto. apply Hg.
Qed.

Lemma half_mirror_sym : forall g (f : vec) k, (k < Nelem g)%nat ->
  mirror1 g (fun i => 1 / 2 * (f i + mirror1 g f i)) k = 1 / 2 * (f k + mirror1 g f k).
Proof.
  intros g f k Hk. destruct (mirror1_index g k Hk) as (k' & Hk' & E & E').
  rewrite (E R). rewrite (E' R), (E R). lra.
Qed.
Lemma gw_mirror : forall g k, (k < Nelem g)%nat -> mirror1 g (gw g) k = gw g k.
Proof. intros. unfold gw. apply half_mirror_sym; auto. Qed.
Lemma h1_mirror : forall g k, (k < Nelem g)%nat -> mirror1 g (h1 g) k = h1 g k.
Proof. intros. unfold h1. apply half_mirror_sym; auto. Qed.
Lemma h3_mirror : forall g k, (k < Nelem g)%nat -> mirror1 g (h3 g) k = h3 g k.
Proof. intros. unfold h3. apply half_mirror_sym; auto. Qed.
Lemma gf_mirror : forall g k, (k < Nelem g)%nat -> mirror1 g (gf g) k = gf g k.
Proof. intros. unfold gf. apply half_mirror_sym; auto. Qed.

Lemma gf_val : forall g k, grid_ok g -> (k < Nelem g)%nat -> gf g k = 1 / (2 * gY g k ^ 2).
Proof.
  intros g k Hg Hk. rewrite gf_val0, gY_val by auto.
  pose proof (sin_Xa_pos g k Hk) as Hs. pose proof (sinh_Xr_pos g k Hg Hk) as Hh.
  assert (Ha : 0 < ga g) by apply Hg.
  rewrite cosh2_sinh2.
  replace (1 - cos (Xa g k) ^ 2) with (sin (Xa g k) ^ 2) by (rewrite sin2c; ring).
  replace (1 + sinh (Xr g k) ^ 2 - cos (Xa g k) ^ 2) with (sinh (Xr g k) ^ 2 + sin (Xa g k) ^ 2)
    by (rewrite (sin2c (Xa g k)); ring).
  replace (1 + sinh (Xr g k) ^ 2 - 1) with (sinh (Xr g k) ^ 2) by ring.
  pose proof (pow_lt _ 2 Hs). pose proof (pow_lt _ 2 Hh).
  field. repeat split; try lra. 
Qed.

(** Coulomb *)
Lemma dist_A : forall g k, grid_ok g -> (k < Nelem g)%nat ->
  dist2 (gZ g k) (gY g k) (- ga g) 0 = ga g * (cosh (Xr g k) + cos (Xa g k)).
Proof.
  intros g k Hg Hk. unfold dist2. rewrite gZ_val, gY_val by auto.
  assert (Ha : 0 < ga g) by apply Hg.
  pose proof (cosh_gt1 (Xr g k) (proj1 (Xr_range g k Hg Hk))). pose proof (COS_bound (Xa g k)).
  rewrite <- (sqrt_square (ga g * (cosh (Xr g k) + cos (Xa g k)))).
  2:{ apply Rmult_le_pos; lra. }
  f_equal. pose proof (cosh2_sinh2 (Xr g k)) as E1. pose proof (sin2c (Xa g k)) as E2.
  set (C := cosh (Xr g k)) in *. set (S := sinh (Xr g k)) in *. set (c := cos (Xa g k)) in *.
  set (s := sin (Xa g k)) in *.
  replace ((ga g * C * c - - ga g) * (ga g * C * c - - ga g) + (ga g * S * s - 0) * (ga g * S * s - 0))
    with (ga g * ga g * ((C * c + 1) * (C * c + 1) + S ^ 2 * s ^ 2)) by ring.
  replace (S ^ 2) with (C ^ 2 - 1) by lra. rewrite E2. ring.
Qed.
Lemma dist_B : forall g k, grid_ok g -> (k < Nelem g)%nat ->
  dist2 (gZ g k) (gY g k) (ga g) 0 = ga g * (cosh (Xr g k) - cos (Xa g k)).
Proof.
  intros g k Hg Hk. unfold dist2. rewrite gZ_val, gY_val by auto.
  assert (Ha : 0 < ga g) by apply Hg.
  pose proof (cosh_gt1 (Xr g k) (proj1 (Xr_range g k Hg Hk))). pose proof (COS_bound (Xa g k)).
  rewrite <- (sqrt_square (ga g * (cosh (Xr g k) - cos (Xa g k)))).
  2:{ apply Rmult_le_pos; lra. }
  f_equal. pose proof (cosh2_sinh2 (Xr g k)) as E1. pose proof (sin2c (Xa g k)) as E2.
  set (C := cosh (Xr g k)) in *. set (S := sinh (Xr g k)) in *. set (c := cos (Xa g k)) in *.
  set (s := sin (Xa g k)) in *.
  replace ((ga g * C * c - ga g) * (ga g * C * c - ga g) + (ga g * S * s - 0) * (ga g * S * s - 0))
    with (ga g * ga g * ((C * c - 1) * (C * c - 1) + S ^ 2 * s ^ 2)) by ring.
  replace (S ^ 2) with (C ^ 2 - 1) by lra. rewrite E2. ring.
Qed.

Lemma coulomb_val : forall g Za Zb k, grid_ok g -> (k < Nelem g)%nat ->
  coulomb g Za Zb k = - Za / dist2 (gZ g k) (gY g k) (- ga g) 0 - Zb / dist2 (gZ g k) (gY g k) (ga g) 0.
Proof.
  intros g Za Zb k Hg Hk. rewrite dist_A, dist_B by auto. unfold coulomb.
  assert (Ha : 0 < ga g) by apply Hg.
  pose proof (cosh_gt1 (Xr g k) (proj1 (Xr_range g k Hg Hk))). pose proof (COS_bound (Xa g k)).
  replace (cosh (Xr g k) ^ 2 - cos (Xa g k) ^ 2)
    with ((cosh (Xr g k) + cos (Xa g k)) * (cosh (Xr g k) - cos (Xa g k))) by ring.
  field. repeat split; lra.
Qed.

Lemma dist_A_pos : forall g k, grid_ok g -> (k < Nelem g)%nat ->
  0 < dist2 (gZ g k) (gY g k) (- ga g) 0.
Proof.
  intros g k Hg Hk. rewrite dist_A by auto.
  pose proof (cosh_gt1 (Xr g k) (proj1 (Xr_range g k Hg Hk))). pose proof (COS_bound (Xa g k)).
  apply Rmult_lt_0_compat; [apply Hg|lra].
Qed.
Lemma dist_B_pos : forall g k, grid_ok g -> (k < Nelem g)%nat ->
  0 < dist2 (gZ g k) (gY g k) (ga g) 0.
Proof.
  intros g k Hg Hk. rewrite dist_B by auto.
  pose proof (cosh_gt1 (Xr g k) (proj1 (Xr_range g k Hg Hk))). pose proof (COS_bound (Xa g k)).
  apply Rmult_lt_0_compat; [apply Hg|lra].
Qed.

Lemma coulomb_mirror : forall g Za Zb k, (k < Nelem g)%nat ->
  mirror1 g (coulomb g Za Zb) k = coulomb g Zb Za k.
Proof.
  intros. unfold coulomb.
  rewrite (mirror_coord g (fun A R => - 1 / ga g * ((Za + Zb) * cosh R - (Za - Zb) * cos A)
           / (cosh R ^ 2 - cos A ^ 2))) by auto.
  rewrite cos_PI_minus. replace ((- cos (Xa g k)) ^ 2) with (cos (Xa g k) ^ 2) by ring.
  unfold Rdiv. f_equal. ring.
Qed.

Lemma coulomb_lin : forall g Za Zb Za' Zb' s k,
  coulomb g (s * Za + Za') (s * Zb + Zb') k = s * coulomb g Za Zb k + coulomb g Za' Zb' k.
Proof. intros. unfold coulomb, Rdiv. ring. Qed.

(** Integration *)
Lemma gwi_pos_square : forall g ia ir, Na g = Nr g -> is_point g ia ir ->
  gwi g (pos g ia ir) = wa g ir * wr g ia.
Proof.
  intros g ia ir E [H1 H2]. unfold gwi, flattenC. rewrite <- E.
  unfold pos. rewrite flat_mod, flat_div by auto. reflexivity.
Qed.

Lemma gwi_pos : forall g ia ir, gNMa g = gNMr g -> is_point g ia ir ->
  gwi g (pos g ia ir) = wa g ia * wr g ir.
Proof.
  intros g ia ir E Hp. rewrite gwi_pos_square; auto.
  - unfold wa, wr. rewrite E. apply Rmult_comm.
  - unfold Na, Nr. rewrite E. reflexivity.
Qed.

Lemma integrate1_lin : forall g c f f',
  integrate1 g (fun k => c * f k + f' k) = c * integrate1 g f + integrate1 g f'.
Proof.
  intros. unfold integrate1.
  rewrite (sumR_ext _ _ (fun k => c * (gwi g k * gw g k * f k) + gwi g k * gw g k * f' k))
    by (intros; ring).
  rewrite sumR_plus, sumR_scal. ring.
Qed.
Lemma integrate1_ext : forall g f f', (forall k, (k < Nelem g)%nat -> f k = f' k) ->
  integrate1 g f = integrate1 g f'.
Proof. intros. unfold integrate1. f_equal. apply sumR_ext. intros. rewrite H; auto. Qed.
Lemma integrate1_scal : forall g c f, integrate1 g (fun k => c * f k) = c * integrate1 g f.
Proof.
  intros. unfold integrate1. rewrite (sumR_ext _ _ (fun k => c * (gwi g k * gw g k * f k))) by (intros; ring).
  rewrite sumR_scal. ring.
Qed.
Lemma integrate1_plus : forall g f f', integrate1 g (fun k => f k + f' k) = integrate1 g f + integrate1 g f'.
Proof.
  intros. pose proof (integrate1_lin g 1 f f') as E.
  rewrite (integrate1_ext g (fun k => f k + f' k) (fun k => 1 * f k + f' k)) by (intros; ring).
  rewrite E. ring.
Qed.
Lemma integrate1_zero : forall g, integrate1 g (fun _ => 0) = 0.
Proof. intros. unfold integrate1. rewrite sumR_zero; [ring|intros; ring]. Qed.
Lemma integrate1_sum : forall n g f, integrate1 g (fun k => sumR n (fun i => f i k)) = sumR n (fun i => integrate1 g (f i)).
Proof.
  induction n; intros; simpl.
  - apply integrate1_zero.
  - rewrite integrate1_plus, IHn. reflexivity.
Qed.

(** the 2-D weights as an iterated sum *)
Lemma sum_points : forall g f, sumR (Nelem g) f = sumR (Nr g) (fun ir => sumR (Na g) (fun ia => f (pos g ia ir))).
Proof. intros. unfold Nelem. apply sumR_flat. Qed.

Lemma integrate1_mirror : forall g f,
  gNMa g = gNMr g -> (forall i, (i < Na g)%nat -> wa g (Na g - 1 - i)%nat = wa g i) ->
  integrate1 g (mirror1 g f) = integrate1 g f.
Proof.
  intros g f E Hp. unfold integrate1. f_equal. rewrite !sum_points.
  apply sumR_ext. intros ir Hr.
  rewrite <- (sumR_rev (Na g)). apply sumR_ext. intros ia Ha.
  assert (P : is_point g ia ir) by (split; auto).
  pose proof (mirror_point g ia ir P) as P'.
  rewrite !gwi_pos by auto. rewrite Hp by auto.
  rewrite mirror1_pos by auto.
  rewrite <- (mirror1_pos _ g (gw g) ia ir P).
  rewrite gw_mirror by (apply pos_lt; auto).
  replace (Na g - 1 - (Na g - 1 - ia))%nat with ia by (destruct P; lia). reflexivity.
Qed.

Lemma integrate_col_val : forall g f,
  integrate_col g f = iprefac g * (sumR (Nelem g) (fun k => gwi g k * gw g k)) * sumR (Nelem g) f.
Proof.
  intros. unfold integrate_col. rewrite Rmult_assoc. f_equal.
  rewrite (sumR_ext _ _ (fun i => sumR (Nelem g) (fun k => gwi g k * gw g k) * f i)).
  - rewrite sumR_scal. reflexivity.
  - intros. rewrite sumR_scal_r. reflexivity.
Qed.
