(** Kronecker operators: Laplacian, gradient, divergence, sigma (CADMium/psgrid/operators.py, sigma.py). *)
From Coq Require Import Reals List Arith Lia Lra ZArith Bool.
From Coquelicot Require Import Coquelicot.
From Verif Require Import Base BaseLemmas GridModel Poly GridSpec GridProofs FDProofs.
Import ListNotations.
Local Open Scope R_scope.
Local Opaque sinh cosh.

(** Angular line (fixed ir) and radial line (fixed ia) of a flat array. *)
Definition aline (g : grid) (f : vec) (ir : nat) : vec := fun ia => f (pos g ia ir).
Definition rline (g : grid) (f : vec) (ia : nat) : vec := fun ir => f (pos g ia ir).

Lemma kron_apply : forall g A B f ia ir, is_point g ia ir ->
  gapply g (kron (Na g) A B) f (pos g ia ir)
  = sumR (Nr g) (fun jr => A ir jr * sumR (Na g) (fun ja => B ia ja * f (pos g ja jr))).
Proof.
  intros g A B f ia ir [Ha Hr]. unfold gapply, matvec. rewrite sum_points.
  apply sumR_ext. intros jr Hjr. rewrite <- sumR_scal. apply sumR_ext. intros ja Hja.
  unfold kron. rewrite !pos_mod, !pos_div by auto. ring.
Qed.

Lemma gapply_madd : forall g A B f k, gapply g (madd A B) f k = gapply g A f k + gapply g B f k.
Proof. intros. unfold gapply, matvec, madd. rewrite <- sumR_plus. apply sumR_ext. intros; ring. Qed.
Lemma gapply_dmul : forall g d A f k, gapply g (dmul d A) f k = d k * gapply g A f k.
Proof. intros. unfold gapply, matvec, dmul. rewrite <- sumR_scal. apply sumR_ext. intros; ring. Qed.
Lemma gapply_muld : forall g d A f k, gapply g (muld A d) f k = gapply g A (fun i => d i * f i) k.
Proof. intros. unfold gapply, matvec, muld. apply sumR_ext. intros; ring. Qed.
Lemma gapply_ext : forall g A f f' k, (forall i, (i < Nelem g)%nat -> f i = f' i) -> gapply g A f k = gapply g A f' k.
Proof. intros. unfold gapply. apply matvec_ext; auto. Qed.

Lemma kron_diag_l : forall g d B f ia ir, is_point g ia ir ->
  gapply g (kron (Na g) (diagflat d) B) f (pos g ia ir) = d ir * matvec (Na g) B (aline g f ir) ia.
Proof.
  intros g d B f ia ir H. rewrite kron_apply by auto. rewrite (sumR_single _ ir).
  - unfold diagflat. rewrite Nat.eqb_refl. reflexivity.
  - apply H.
  - intros i Hi Hne. unfold diagflat. destruct (Nat.eqb_spec ir i); [congruence|ring].
Qed.
Lemma kron_diag_r : forall g d A f ia ir, is_point g ia ir ->
  gapply g (kron (Na g) A (diagflat d)) f (pos g ia ir) = d ia * matvec (Nr g) A (rline g f ia) ir.
Proof.
  intros g d A f ia ir H. rewrite kron_apply by auto. unfold matvec. rewrite <- sumR_scal.
  apply sumR_ext. intros jr Hjr. rewrite (sumR_single _ ia).
  - unfold diagflat. rewrite Nat.eqb_refl. unfold rline. ring.
  - apply H.
  - intros i Hi Hne. unfold diagflat. destruct (Nat.eqb_spec ia i); [congruence|ring].
Qed.
Lemma eye_diag : forall i j, eye i j = diagflat (fun _ => 1) i j.
Proof. reflexivity. Qed.
Lemma kron_eye_l : forall g B f ia ir, is_point g ia ir ->
  gapply g (kron (Na g) eye B) f (pos g ia ir) = matvec (Na g) B (aline g f ir) ia.
Proof.
  intros. change eye with (diagflat (fun _ => 1)). rewrite kron_diag_l by auto. ring.
Qed.
Lemma kron_eye_r : forall g A f ia ir, is_point g ia ir ->
  gapply g (kron (Na g) A eye) f (pos g ia ir) = matvec (Nr g) A (rline g f ia) ir.
Proof.
  intros. change eye with (diagflat (fun _ => 1)). rewrite kron_diag_r by auto. ring.
Qed.

Lemma matvec_lin2 : forall n (A B : mat) c (d e : vec) v i,
  matvec n (mscal c (madd (dmul d A) (dmul e B))) v i
  = c * (d i * matvec n A v i + e i * matvec n B v i).
Proof.
  intros. unfold matvec, mscal, madd, dmul. rewrite <- !sumR_scal, <- sumR_plus, <- sumR_scal.
  apply sumR_ext. intros; ring.
Qed.

Lemma Xa1d_val : forall g ia, (ia < Na g)%nat -> Xa1d g ia = xa g ia.
Proof.
  intros. unfold Xa1d. apply (Xa_pos g ia 0). split; auto. apply Nr_pos.
Qed.
Lemma Xr1d_val : forall g ir, (ir < Nr g)%nat -> Xr1d g ir = xr g ir.
Proof.
  intros. unfold Xr1d. apply (Xr_pos g 0 ir). split; auto. apply Na_pos.
Qed.

(** Laplacian in terms of one-dimensional matrices *)
Lemma elap_lines : forall g f ia ir, is_point g ia ir ->
  gapply g (elap g) f (pos g ia ir)
  = sinh (xr g ir) * (ga g * (sin (xa g ia) * matvec (Na g) (eDa2 g) (aline g f ir) ia
                              + cos (xa g ia) * matvec (Na g) (eDa1 g) (aline g f ir) ia))
    + sin (xa g ia) * (ga g * (sinh (xr g ir) * matvec (Nr g) (eDr2 g) (rline g f ia) ir
                              + cosh (xr g ir) * matvec (Nr g) (eDr1 g) (rline g f ia) ir)).
Proof.
  intros g f ia ir H. unfold elap. rewrite gapply_madd, kron_diag_l, kron_diag_r by auto.
  unfold eLa, eLr. rewrite !matvec_lin2. rewrite Xa1d_val, Xr1d_val by apply H. reflexivity.
Qed.
Lemma olap_lines : forall g f ia ir, is_point g ia ir ->
  gapply g (olap g) f (pos g ia ir)
  = sinh (xr g ir) * (ga g * (sin (xa g ia) * matvec (Na g) (oDa2 g) (aline g f ir) ia
                              + cos (xa g ia) * matvec (Na g) (oDa1 g) (aline g f ir) ia))
    + sin (xa g ia) * (ga g * (sinh (xr g ir) * matvec (Nr g) (oDr2 g) (rline g f ia) ir
                              + cosh (xr g ir) * matvec (Nr g) (oDr1 g) (rline g f ia) ir)).
Proof.
  intros g f ia ir H. unfold olap. rewrite gapply_madd, kron_diag_l, kron_diag_r by auto.
  unfold oLa, oLr. rewrite !matvec_lin2. rewrite Xa1d_val, Xr1d_val by apply H. reflexivity.
Qed.

(** Independent form: stencils on reflected data; [sg] = 1 for even, -1 for odd reflection;
    [out ia] are values beyond the outer boundary on the radial line ia. *)
Definition lap_form (g : grid) (b : nat) (sg : R) (f : vec) (out : nat -> vec) (ia ir : nat) : R :=
  let th := node (Na g) PI ia in
  let mu := node (Nr g) (gL g) ir in
  let da := PI / INR (Na g) in
  let dr := gL g / INR (Nr g) in
  let ua := reflect (Na g) sg (aline g f ir) in
  let ur := reflect_inner (Nr g) sg (rline g f ia) (out ia) in
  ga g * ( sinh mu * (sin th * (stencil b (d2 g) ua ia / da ^ 2) + cos th * (stencil b (d1 g) ua ia / da))
         + sin th * (sinh mu * (stencil b (d2 g) ur ir / dr ^ 2) + cosh mu * (stencil b (d1 g) ur ir / dr))).

Lemma elap_form : forall g b f ia ir, fd_ok g b -> (b <= Na g)%nat -> (b <= Nr g)%nat -> is_point g ia ir ->
  gapply g (elap g) f (pos g ia ir) = lap_form g b 1 f (fun _ _ => 0) ia ir.
Proof.
  intros g b f ia ir H Hna Hnr Hp. rewrite elap_lines by auto. unfold lap_form.
  destruct Hp as [Ha Hr].
  rewrite (eDa2_apply g b), (eDa1_apply g b), (eDr2_apply g b), (eDr1_apply g b) by auto.
  rewrite xa_node, xr_node, ha_val, hr_val by auto. ring.
Qed.
Lemma olap_form : forall g b f ia ir, fd_ok g b -> (b <= Na g)%nat -> (b <= Nr g)%nat -> is_point g ia ir ->
  gapply g (olap g) f (pos g ia ir) = lap_form g b (-1) f (fun _ _ => 0) ia ir.
Proof.
  intros g b f ia ir H Hna Hnr Hp. rewrite olap_lines by auto. unfold lap_form.
  destruct Hp as [Ha Hr].
  rewrite (oDa2_apply g b), (oDa1_apply g b), (oDr2_apply g b), (oDr1_apply g b) by auto.
  rewrite xa_node, xr_node, ha_val, hr_val by auto. ring.
Qed.

(** blap on the boundary mesh (flat index ia + Na*q, q < b). *)
Lemma blap_apply : forall g b out ia p, fd_ok g b -> (b <= Nr g)%nat -> (ia < Na g)%nat -> (p < b)%nat ->
  matvec (Na g * b) (blap g) out (ia + Na g * p)%nat
  = sin (xa g ia) * (ga g * (sinh (xr g (Nr g - b + p)%nat) * matvec b (bc2 g) (fun q => out (ia + Na g * q)%nat) p
                           + cosh (xr g (Nr g - b + p)%nat) * matvec b (bc1 g) (fun q => out (ia + Na g * q)%nat) p)).
Proof.
  intros g b out ia p H Hn Ha Hp. unfold matvec at 1. rewrite sumR_flat. unfold blap, kron.
  rewrite (sumR_ext b _ (fun q => sin (xa g ia) * (bLr g p q * out (ia + Na g * q)%nat))).
  2:{ intros q Hq. rewrite (sumR_single _ ia); auto.
      - rewrite !flat_mod, !flat_div by auto. unfold diagflat. rewrite Nat.eqb_refl, Xa1d_val by auto. ring.
      - intros i Hi Hne. rewrite !flat_mod, !flat_div by auto. unfold diagflat.
        destruct (Nat.eqb_spec ia i); [congruence|ring]. }
  rewrite sumR_scal. f_equal.
  change (sumR b (fun q => bLr g p q * out (ia + Na g * q)%nat))
    with (matvec b (bLr g) (fun q => out (ia + Na g * q)%nat) p).
  unfold bLr. rewrite matvec_lin2. rewrite (fd_ok_bcN g b H). rewrite Xr1d_val by lia. reflexivity.
Qed.

Lemma elap_blap : forall g b f out ia ir, fd_ok g b -> (b <= Na g)%nat -> (b <= Nr g)%nat -> is_point g ia ir ->
  gapply g (elap g) f (pos g ia ir)
  + (if (Nr g - b <=? ir)%nat then matvec (Na g * b) (blap g) out (ia + Na g * (ir - (Nr g - b)))%nat else 0)
  = lap_form g b 1 f (fun i q => out (i + Na g * q)%nat) ia ir.
Proof.
  intros g b f out ia ir H Hna Hnr Hp. rewrite (elap_form g b) by auto.
  destruct Hp as [Ha Hr]. unfold lap_form.
  rewrite <- !xa_node, <- !xr_node, <- !ha_val, <- !hr_val by auto.
  rewrite <- (ghost_rows1 g b 1 (rline g f ia) (fun q => out (ia + Na g * q)%nat) ir) by auto.
  rewrite <- (ghost_rows2 g b 1 (rline g f ia) (fun q => out (ia + Na g * q)%nat) ir) by auto.
  destruct (Nat.leb_spec (Nr g - b) ir).
  - rewrite blap_apply by (auto; lia).
    replace (Nr g - b + (ir - (Nr g - b)))%nat with ir by lia. ring.
  - ring.
Qed.

(** Mirror equivariance *)
Lemma aline_mirror : forall g f ia ir, is_point g ia ir ->
  aline g (mirror1 g f) ir ia = aline g f ir (Na g - 1 - ia)%nat.
Proof. intros. unfold aline. apply mirror1_pos; auto. Qed.
Lemma rline_mirror : forall g f ia ir, is_point g ia ir ->
  rline g (mirror1 g f) ia ir = rline g f (Na g - 1 - ia)%nat ir.
Proof. intros. unfold rline. apply mirror1_pos; auto. Qed.

Lemma matvec_flip : forall n (M : mat) eps v p,
  (forall i j, (i < n)%nat -> (j < n)%nat -> M (n - 1 - i)%nat (n - 1 - j)%nat = eps * M i j) ->
  (p < n)%nat ->
  matvec n M v (n - 1 - p)%nat = eps * matvec n M (fun q => v (n - 1 - q)%nat) p.
Proof.
  intros n M eps v p H Hp. unfold matvec. rewrite <- (sumR_rev n), <- sumR_scal.
  apply sumR_ext. intros q Hq. rewrite H by auto. ring.
Qed.

Lemma both_flip_mat : forall (M : mat) b n ds sg eps h,
  (forall j, (j < 2 * b + 1)%nat -> ds (2 * b + 1 - 1 - j)%nat = eps * ds j) ->
  (forall p q, (p < n)%nat -> (q < n)%nat -> M p q = both_entry b n ds sg p q / h) ->
  forall i j, (i < n)%nat -> (j < n)%nat -> M (n - 1 - i)%nat (n - 1 - j)%nat = eps * M i j.
Proof.
  intros M b n ds sg eps h Hpar HM i j Hi Hj. rewrite !HM by lia.
  rewrite (both_flip b n ds eps Hpar) by auto. unfold Rdiv. ring.
Qed.

Lemma matvec_flip_lines : forall g (M : mat) eps f ia ir,
  (forall i j, (i < Na g)%nat -> (j < Na g)%nat -> M (Na g - 1 - i)%nat (Na g - 1 - j)%nat = eps * M i j) ->
  is_point g ia ir ->
  matvec (Na g) M (aline g f ir) (Na g - 1 - ia)%nat = eps * matvec (Na g) M (aline g (mirror1 g f) ir) ia.
Proof.
  intros g M eps f ia ir HM Hp. rewrite (matvec_flip _ _ eps) by (auto; apply Hp). f_equal.
  apply matvec_ext; auto. intros j Hj. rewrite aline_mirror; auto. split; [auto|apply Hp].
Qed.
Lemma matvec_rline_mirror : forall g (M : mat) f ia ir, is_point g ia ir ->
  matvec (Nr g) M (rline g f (Na g - 1 - ia)%nat) ir = matvec (Nr g) M (rline g (mirror1 g f) ia) ir.
Proof.
  intros. apply matvec_ext; auto. intros j Hj. rewrite rline_mirror; auto. split; [apply H|auto].
Qed.

Lemma elap_mirror : forall g b f k, fd_ok g b -> (b <= Na g)%nat -> (k < Nelem g)%nat ->
  gapply g (elap g) (mirror1 g f) k = mirror1 g (gapply g (elap g) f) k.
Proof.
  intros g b f k H Hna Hk. destruct (pos_surj g k Hk) as (ia & ir & Hp & ->).
  rewrite mirror1_pos by auto. rewrite !elap_lines by (auto using mirror_point).
  rewrite (matvec_flip_lines g (eDa2 g) 1) by
    (auto; apply (both_flip_mat _ b _ (d2 g) 1 1 (ha g ^ 2) (d2_parity g b H)); intros; apply eDa2_entry; auto).
  rewrite (matvec_flip_lines g (eDa1 g) (-1)) by
    (auto; apply (both_flip_mat _ b _ (d1 g) 1 (-1) (ha g) (d1_parity g b H)); intros; apply eDa1_entry; auto).
  rewrite !matvec_rline_mirror by auto.
  rewrite xa_reflect by apply Hp. rewrite sin_PI_minus, cos_PI_minus. ring.
Qed.
Lemma olap_mirror : forall g b f k, fd_ok g b -> (b <= Na g)%nat -> (k < Nelem g)%nat ->
  gapply g (olap g) (mirror1 g f) k = mirror1 g (gapply g (olap g) f) k.
Proof.
  intros g b f k H Hna Hk. destruct (pos_surj g k Hk) as (ia & ir & Hp & ->).
  rewrite mirror1_pos by auto. rewrite !olap_lines by (auto using mirror_point).
  rewrite (matvec_flip_lines g (oDa2 g) 1) by
    (auto; apply (both_flip_mat _ b _ (d2 g) (-1) 1 (ha g ^ 2) (d2_parity g b H)); intros; apply oDa2_entry; auto).
  rewrite (matvec_flip_lines g (oDa1 g) (-1)) by
    (auto; apply (both_flip_mat _ b _ (d1 g) (-1) (-1) (ha g) (d1_parity g b H)); intros; apply oDa1_entry; auto).
  rewrite !matvec_rline_mirror by auto.
  rewrite xa_reflect by apply Hp. rewrite sin_PI_minus, cos_PI_minus. ring.
Qed.

(** Gradient, divergence *)
Lemma grada_form : forall g b f ia ir, fd_ok g b -> (b <= Na g)%nat -> is_point g ia ir ->
  gapply g (grada g) f (pos g ia ir)
  = 1 / h1 g (pos g ia ir) * (stencil b (d1 g) (reflect (Na g) 1 (aline g f ir)) ia / ha g).
Proof.
  intros. unfold grada. rewrite gapply_dmul, kron_eye_l by auto. rewrite (eDa1_apply g b); auto. apply H1.
Qed.
Lemma gradr_form : forall g b f ia ir, fd_ok g b -> (b <= Nr g)%nat -> is_point g ia ir ->
  gapply g (gradr g) f (pos g ia ir)
  = 1 / h2 g (pos g ia ir) * (stencil b (d1 g) (reflect_inner (Nr g) 1 (rline g f ia) (fun _ => 0)) ir / hr g).
Proof.
  intros. unfold gradr. rewrite gapply_dmul, kron_eye_r by auto. rewrite (eDr1_apply g b); auto. apply H1.
Qed.
Lemma diva_form : forall g b f ia ir, fd_ok g b -> (b <= Na g)%nat -> is_point g ia ir ->
  gapply g (diva g) f (pos g ia ir)
  = 1 / (h1 g (pos g ia ir) * h2 g (pos g ia ir) * h3 g (pos g ia ir))
    * (stencil b (d1 g) (reflect (Na g) (-1) (aline g (fun k => h2 g k * h3 g k * f k) ir)) ia / ha g).
Proof.
  intros. unfold diva. rewrite gapply_muld, gapply_dmul, kron_eye_l by auto.
  rewrite (oDa1_apply g b); auto. apply H1.
Qed.
Lemma divr_form : forall g b f ia ir, fd_ok g b -> (b <= Nr g)%nat -> is_point g ia ir ->
  gapply g (divr g) f (pos g ia ir)
  = 1 / (h1 g (pos g ia ir) * h2 g (pos g ia ir) * h3 g (pos g ia ir))
    * (stencil b (d1 g) (reflect_inner (Nr g) (-1) (rline g (fun k => h1 g k * h3 g k * f k) ia) (fun _ => 0)) ir / hr g).
Proof.
  intros. unfold divr. rewrite gapply_muld, gapply_dmul, kron_eye_r by auto.
  rewrite (oDr1_apply g b); auto. apply H1.
Qed.

Lemma h1_pos_mirror : forall g ia ir, is_point g ia ir -> h1 g (pos g (Na g - 1 - ia) ir) = h1 g (pos g ia ir).
Proof. intros. rewrite <- mirror1_pos by auto. apply h1_mirror. apply pos_lt; auto. Qed.
Lemma h2_pos_mirror : forall g ia ir, is_point g ia ir -> h2 g (pos g (Na g - 1 - ia) ir) = h2 g (pos g ia ir).
Proof. intros. rewrite !h2_h1 by (apply pos_lt; auto using mirror_point). apply h1_pos_mirror; auto. Qed.
Lemma h3_pos_mirror : forall g ia ir, is_point g ia ir -> h3 g (pos g (Na g - 1 - ia) ir) = h3 g (pos g ia ir).
Proof. intros. rewrite <- mirror1_pos by auto. apply h3_mirror. apply pos_lt; auto. Qed.

Lemma grada_mirror : forall g b f k, fd_ok g b -> (b <= Na g)%nat -> (k < Nelem g)%nat ->
  gapply g (grada g) (mirror1 g f) k = - mirror1 g (gapply g (grada g) f) k.
Proof.
  intros g b f k H Hna Hk. destruct (pos_surj g k Hk) as (ia & ir & Hp & ->).
  rewrite mirror1_pos by auto. unfold grada. rewrite !gapply_dmul, !kron_eye_l by (auto using mirror_point).
  rewrite (matvec_flip_lines g (eDa1 g) (-1)) by
    (auto; apply (both_flip_mat _ b _ (d1 g) 1 (-1) (ha g) (d1_parity g b H)); intros; apply eDa1_entry; auto).
  rewrite h1_pos_mirror by auto. ring.
Qed.
Lemma gradr_mirror : forall g f k, (k < Nelem g)%nat ->
  gapply g (gradr g) (mirror1 g f) k = mirror1 g (gapply g (gradr g) f) k.
Proof.
  intros g f k Hk. destruct (pos_surj g k Hk) as (ia & ir & Hp & ->).
  rewrite mirror1_pos by auto. unfold gradr. rewrite !gapply_dmul, !kron_eye_r by (auto using mirror_point).
  rewrite matvec_rline_mirror, h2_pos_mirror by auto. ring.
Qed.
Lemma aline_prod_mirror : forall g (d f : vec) ia ir, is_point g ia ir ->
  (forall k, (k < Nelem g)%nat -> mirror1 g d k = d k) ->
  aline g (mirror1 g (fun k => d k * f k)) ir ia = aline g (fun k => d k * mirror1 g f k) ir ia.
Proof.
  intros. unfold aline. rewrite (mirror1_map2 _ _ _ g Rmult d f) by (apply pos_lt; auto).
  rewrite H0 by (apply pos_lt; auto). reflexivity.
Qed.
Lemma rline_prod_mirror : forall g (d f : vec) ia ir, is_point g ia ir ->
  (forall k, (k < Nelem g)%nat -> mirror1 g d k = d k) ->
  rline g (mirror1 g (fun k => d k * f k)) ia ir = rline g (fun k => d k * mirror1 g f k) ia ir.
Proof.
  intros. unfold rline. rewrite (mirror1_map2 _ _ _ g Rmult d f) by (apply pos_lt; auto).
  rewrite H0 by (apply pos_lt; auto). reflexivity.
Qed.
Lemma h2_mirror : forall g k, (k < Nelem g)%nat -> mirror1 g (h2 g) k = h2 g k.
Proof. intros. unfold h2. apply half_mirror_sym; auto. Qed.
Lemma hh_mirror : forall g (u v : vec),
  (forall k, (k < Nelem g)%nat -> mirror1 g u k = u k) -> (forall k, (k < Nelem g)%nat -> mirror1 g v k = v k) ->
  forall k, (k < Nelem g)%nat -> mirror1 g (fun i => u i * v i) k = u k * v k.
Proof. intros. rewrite (mirror1_map2 _ _ _ g Rmult) by auto. rewrite H, H0; auto. Qed.

Lemma diva_mirror : forall g b f k, fd_ok g b -> (b <= Na g)%nat -> (k < Nelem g)%nat ->
  gapply g (diva g) (mirror1 g f) k = - mirror1 g (gapply g (diva g) f) k.
Proof.
  intros g b f k H Hna Hk. destruct (pos_surj g k Hk) as (ia & ir & Hp & ->).
  rewrite mirror1_pos by auto. unfold diva.
  rewrite !gapply_muld, !gapply_dmul, !kron_eye_l by (auto using mirror_point).
  rewrite (matvec_flip_lines g (oDa1 g) (-1)) by
    (auto; apply (both_flip_mat _ b _ (d1 g) (-1) (-1) (ha g) (d1_parity g b H)); intros; apply oDa1_entry; auto).
  unfold C123. rewrite h1_pos_mirror, h2_pos_mirror, h3_pos_mirror by auto.
  rewrite (matvec_ext (Na g) (oDa1 g) (oDa1 g) (aline g (mirror1 g (fun k => h2 g k * h3 g k * f k)) ir)
             (aline g (fun k => h2 g k * h3 g k * mirror1 g f k) ir)); auto.
  - ring.
  - intros j Hj. apply (aline_prod_mirror g (fun k => h2 g k * h3 g k)); [split; [auto|apply Hp]|].
    apply hh_mirror; [apply h2_mirror|apply h3_mirror].
Qed.
Lemma divr_mirror : forall g f k, (k < Nelem g)%nat ->
  gapply g (divr g) (mirror1 g f) k = mirror1 g (gapply g (divr g) f) k.
Proof.
  intros g f k Hk. destruct (pos_surj g k Hk) as (ia & ir & Hp & ->).
  rewrite mirror1_pos by auto. unfold divr.
  rewrite !gapply_muld, !gapply_dmul, !kron_eye_r by (auto using mirror_point).
  unfold C123. rewrite h1_pos_mirror, h2_pos_mirror, h3_pos_mirror, matvec_rline_mirror by auto.
  f_equal. apply matvec_ext; auto.
  intros j Hj. symmetry. apply (rline_prod_mirror g (fun k => h1 g k * h3 g k)); [split; [apply Hp|auto]|].
  apply hh_mirror; [apply h1_mirror|apply h3_mirror].
Qed.

(** Constants have zero gradient. *)
Lemma d1_sum0 : forall g b, fd_ok g b -> sumR (2 * b + 1) (d1 g) = 0.
Proof.
  intros g b H. pose proof (sumR_rev (2 * b + 1) (d1 g)) as E.
  rewrite (sumR_ext _ _ (fun j => -1 * d1 g j)) in E by (intros; apply (d1_parity g b H); auto).
  rewrite sumR_scal in E. lra.
Qed.
Lemma grada_const : forall g b c ia ir, fd_ok g b -> (b <= Na g)%nat -> is_point g ia ir ->
  gapply g (grada g) (fun _ => c) (pos g ia ir) = 0.
Proof.
  intros g b c ia ir H Hn Hp. rewrite (grada_form g b) by auto.
  assert (E : stencil b (d1 g) (reflect (Na g) 1 (aline g (fun _ => c) ir)) ia = sumR (2 * b + 1) (d1 g) * c).
  { unfold stencil. rewrite <- sumR_scal_r. apply sumR_ext. intros. f_equal. unfold reflect, aline.
    destruct (_ <? 0)%Z; [ring|]. destruct (_ <? _)%Z; ring. }
  rewrite E, (d1_sum0 g b H). unfold Rdiv. ring.
Qed.
Lemma gradr_const : forall g b c ia ir, fd_ok g b -> (ir + b < Nr g)%nat -> is_point g ia ir ->
  gapply g (gradr g) (fun _ => c) (pos g ia ir) = 0.
Proof.
  intros g b c ia ir H Hn Hp. rewrite (gradr_form g b) by (auto; lia).
  assert (E : stencil b (d1 g) (reflect_inner (Nr g) 1 (rline g (fun _ => c) ia) (fun _ => 0)) ir = sumR (2 * b + 1) (d1 g) * c).
  { unfold stencil. rewrite <- sumR_scal_r. apply sumR_ext. intros. f_equal. unfold reflect_inner, rline.
    destruct (_ <? 0)%Z; [ring|]. destruct (Z.ltb_spec (Z.of_nat ir + (Z.of_nat i - Z.of_nat b)) (Z.of_nat (Nr g))); [ring|lia]. }
  rewrite E, (d1_sum0 g b H). unfold Rdiv. ring.
Qed.

(** sigma *)
Lemma rowtimes_dot : forall g A u v,
  gdot g (rowtimes g u A) v = gdot g u (gapply g A v).
Proof.
  intros. unfold gdot, rowtimes, gapply, matvec.
  rewrite (sumR_ext _ _ (fun j => sumR (Nelem g) (fun i => u i * A i j * v j))).
  2:{ intros. rewrite <- sumR_scal_r. reflexivity. }
  rewrite sumR_swap. apply sumR_ext. intros i Hi. rewrite <- sumR_scal. apply sumR_ext. intros; ring.
Qed.
