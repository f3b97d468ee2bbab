(** Properties C01-C19, C23, C69: the prolate spheroidal grid. Each theorem is followed by a lemma
    [.._witness] showing a concrete case that meets its hypotheses. *)
From Coq Require Import Reals List Arith Lia Lra ZArith Bool Permutation Sorted.
From Coquelicot Require Import Coquelicot.
From Verif Require Import Base BaseLemmas GridModel Poly GridSpec GridProofs NCProofs FDProofs OpProofs
  LapCont GridWitness GridMore AxisProofs.
Import ListNotations.
Local Open Scope R_scope.
Local Opaque sinh cosh.

(** * C01 *)
Theorem C01_mirror_reflects : forall (A : Type) (g : grid) (x : arr A) ia ir s, is_point g ia ir ->
  entry (mirror g x) (pos g ia ir) s = entry x (pos g (Na g - 1 - ia) ir) s
  /\ shape (mirror g x) = shape x.
Proof. intros. split; [apply mirror_entry; auto|apply mirror_shape]. Qed.
Print Assumptions C01_mirror_reflects.

Theorem C01_mirror_involution : forall (A : Type) (g : grid) (x : arr A) ia ir s, is_point g ia ir ->
  entry (mirror g (mirror g x)) (pos g ia ir) s = entry x (pos g ia ir) s.
Proof.
  intros. rewrite !mirror_entry by (auto using mirror_point). f_equal. unfold pos. destruct H. lia.
Qed.
Print Assumptions C01_mirror_involution.

Theorem C01_mirror_linear : forall (g : grid) c (f h : nat -> nat -> R) cols ia ir s, is_point g ia ir ->
  entry (mirror g (A2 cols (fun k s => c * f k s + h k s))) (pos g ia ir) s
  = c * entry (mirror g (A2 cols f)) (pos g ia ir) s + entry (mirror g (A2 cols h)) (pos g ia ir) s
  /\ entry (mirror g (A1 (fun k => c * f k s + h k s))) (pos g ia ir) s
  = c * entry (mirror g (A1 (fun k => f k s))) (pos g ia ir) s + entry (mirror g (A1 (fun k => h k s))) (pos g ia ir) s.
Proof. intros. rewrite !mirror_entry by auto. split; reflexivity. Qed.
Print Assumptions C01_mirror_linear.

(** column s of the result depends on column s of the input only *)
Theorem C01_mirror_columns_separate : forall (A : Type) (g : grid) (f h : nat -> nat -> A) cols k s, (k < Nelem g)%nat ->
  (forall i, (i < Nelem g)%nat -> f i s = h i s) ->
  entry (mirror g (A2 cols f)) k s = entry (mirror g (A2 cols h)) k s.
Proof.
  intros A g f h cols k s Hk H. destruct (pos_surj g k Hk) as (ia & ir & Hp & ->).
  rewrite !mirror_entry by auto. apply H. apply pos_lt, mirror_point; auto.
Qed.
Print Assumptions C01_mirror_columns_separate.

Theorem C01_mirror_coordinates : forall (g : grid) k s, (k < Nelem g)%nat ->
  entry (mirror g (A1 (gZ g))) k s = - gZ g k /\ entry (mirror g (A1 (gY g))) k s = gY g k.
Proof. intros. split; [exact (gZ_mirror g k H)|exact (gY_mirror g k H)]. Qed.
Print Assumptions C01_mirror_coordinates.

Lemma C01_witness : is_point g_test 3 5 /\ (pos g_test 3 5 = 128 /\ pos g_test (Na g_test - 1 - 3) 5 = 146)%nat.
Proof. repeat split; compute; lia. Qed.

(** * C02 *)
Theorem C02_nodes_and_coordinates : forall (g : grid) ia ir, is_point g ia ir ->
  Xa g (pos g ia ir) = node (Na g) PI ia /\ Xr g (pos g ia ir) = node (Nr g) (gL g) ir /\
  gZ g (pos g ia ir) = ga g * cosh (node (Nr g) (gL g) ir) * cos (node (Na g) PI ia) /\
  gY g (pos g ia ir) = ga g * sinh (node (Nr g) (gL g) ir) * sin (node (Na g) PI ia).
Proof.
  intros g ia ir H. assert (HP := pos_lt g ia ir H).
  rewrite gZ_val, gY_val, !Xa_pos, !Xr_pos, xa_node, xr_node by (auto; apply H). auto.
Qed.
Print Assumptions C02_nodes_and_coordinates.

Theorem C02_nodes_inside : forall (g : grid) ia ir, grid_ok g -> is_point g ia ir ->
  0 < Xa g (pos g ia ir) < PI /\ 0 < Xr g (pos g ia ir) < gL g.
Proof.
  intros g ia ir Hg H. assert (HP := pos_lt g ia ir H). split; [apply Xa_range|apply Xr_range]; auto.
Qed.
Print Assumptions C02_nodes_inside.

(** nodes are equally spaced by the grid's own ha, hr *)
Theorem C02_spacing : forall (g : grid) ia ir, is_point g ia ir -> is_point g (ia + 1) (ir + 1) ->
  Xa g (pos g (ia + 1) ir) - Xa g (pos g ia ir) = ha g /\ Xr g (pos g ia (ir + 1)) - Xr g (pos g ia ir) = hr g
  /\ ha g = PI / INR (Na g) /\ hr g = gL g / INR (Nr g).
Proof.
  intros g ia ir [H1 H2] [H3 H4].
  rewrite !Xa_pos, !Xr_pos, !xa_node, !xr_node, ha_val, hr_val by (auto; split; auto).
  assert (INR (Na g) <> 0) by (apply not_0_INR; lia). assert (INR (Nr g) <> 0) by (apply not_0_INR; lia).
  unfold node. rewrite !plus_INR. simpl INR. repeat split; field; auto.
Qed.
Print Assumptions C02_spacing.

Theorem C02_boundary_mesh_outside : forall (g : grid) b ia q, grid_ok g -> gloc g = sym_stencil b ->
  (ia < Na g)%nat -> (q < b)%nat ->
  bXr g (ia + Na g * q)%nat = node (Nr g) (gL g) (Nr g + q) /\ gL g < bXr g (ia + Na g * q)%nat
  /\ bXa g (ia + Na g * q)%nat = node (Na g) PI ia.
Proof.
  intros g b ia q Hg E Ha Hq.
  assert (Hb : bcN g = b).
  { unfold bcN. rewrite E, sym_stencil_length, Nat.max_id. symmetry. apply (Nat.div_unique _ 2 b 1); lia. }
  rewrite (bXr_val g b ia q Hb Ha Hq), bXa_val by auto. repeat split.
  apply node_outside; [lia|apply Nr_pos|apply Hg].
Qed.
Print Assumptions C02_boundary_mesh_outside.

Lemma C02_witness : grid_ok g_test /\ is_point g_test 3 5 /\ is_point g_test (3 + 1) (5 + 1)
  /\ gloc g_test = sym_stencil 4.
Proof. repeat split; try (compute; lia); simpl; lra. Qed.

(** * C03 *)
Theorem C03_two_point_charges : forall (g : grid) Za Zb k, grid_ok g -> (k < Nelem g)%nat ->
  let rA := dist2 (gZ g k) (gY g k) (- ga g) 0 in
  let rB := dist2 (gZ g k) (gY g k) (ga g) 0 in
  0 < rA /\ 0 < rB /\ coulomb g Za Zb k = - Za / rA - Zb / rB.
Proof.
  intros. split; [apply dist_A_pos; auto|]. split; [apply dist_B_pos; auto|]. apply coulomb_val; auto.
Qed.
Print Assumptions C03_two_point_charges.
Theorem C03_attractive : forall (g : grid) Za Zb k, grid_ok g -> (k < Nelem g)%nat ->
  0 <= Za -> 0 <= Zb -> 0 < Za + Zb -> coulomb g Za Zb k < 0.
Proof.
  intros g Za Zb k Hg Hk HA HB HAB. rewrite coulomb_val by auto.
  pose proof (dist_A_pos g k Hg Hk). pose proof (dist_B_pos g k Hg Hk).
  set (x := dist2 _ _ (- ga g) 0) in *. set (y := dist2 _ _ (ga g) 0) in *.
  assert (0 < / x) by (apply Rinv_0_lt_compat; auto). assert (0 < / y) by (apply Rinv_0_lt_compat; auto).
  unfold Rdiv. destruct (Rle_lt_or_eq_dec 0 Za HA) as [PA|<-]; [|nra].
  assert (0 < Za * / x) by (apply Rmult_lt_0_compat; auto). assert (0 <= Zb * / y) by nra. lra.
Qed.
Print Assumptions C03_attractive.
Lemma C03_witness : grid_ok g_test /\ (3 < Nelem g_test)%nat /\ 0 <= 1 /\ 0 <= 2 /\ 0 < 1 + 2.
Proof. repeat split; try (compute; lia); simpl; lra. Qed.

(** * C04 *)
Theorem C04_swap_is_mirror : forall (g : grid) Za Zb k, (k < Nelem g)%nat ->
  mirror1 g (coulomb g Za Zb) k = coulomb g Zb Za k.
Proof. exact coulomb_mirror. Qed.
Print Assumptions C04_swap_is_mirror.
Theorem C04_linear_in_charges : forall (g : grid) Za Zb Za' Zb' s k,
  coulomb g (s * Za + Za') (s * Zb + Zb') k = s * coulomb g Za Zb k + coulomb g Za' Zb' k.
Proof. exact coulomb_lin. Qed.
Print Assumptions C04_linear_in_charges.
Theorem C04_molecule_is_sum_of_fragments : forall (g : grid) Za Zb k,
  coulomb g Za Zb k = coulomb g Za 0 k + coulomb g 0 Zb k.
Proof. intros. pose proof (coulomb_lin g Za 0 0 Zb 1 k) as E. rewrite !Rmult_1_l, Rplus_0_r, Rplus_0_l in E. exact E. Qed.
Print Assumptions C04_molecule_is_sum_of_fragments.
Lemma C04_witness : (128 < Nelem g_test)%nat /\ coulomb g_test 1 2 128%nat <> 0.
Proof.
  split; [compute; lia|]. apply Rlt_not_eq. apply (C03_attractive g_test 1 2 128%nat g_test_ok); [compute; lia|lra..].
Qed.

(** * C05 *)
Theorem C05_volume_element : forall (g : grid) k, grid_ok g -> (k < Nelem g)%nat ->
  gw g k = h1 g k * h2 g k * h3 g k /\ 0 < gw g k /\ mirror1 g (gw g) k = gw g k
  /\ h3 g k = gY g k.
Proof.
  intros g k Hg Hk. split; [apply h_prod; auto|]. split; [apply gw_pos; auto|]. split; [apply gw_mirror; auto|].
  rewrite h3_val, gY_val by auto. reflexivity.
Qed.
Print Assumptions C05_volume_element.
Theorem C05_scale_factors_are_metric : forall (g : grid) k, grid_ok g -> (k < Nelem g)%nat ->
  let Z t m := ga g * cosh m * cos t in let Y t m := ga g * sinh m * sin t in
  let t := Xa g k in let m := Xr g k in
  h1 g k ^ 2 = Derive (fun t => Z t m) t ^ 2 + Derive (fun t => Y t m) t ^ 2 /\
  h2 g k ^ 2 = Derive (fun m => Z t m) m ^ 2 + Derive (fun m => Y t m) m ^ 2 /\
  0 < h1 g k /\ 0 < h2 g k /\ 0 < h3 g k.
Proof.
  intros g k Hg Hk Z Y t m. unfold Z, Y. rewrite metric_a, metric_r. unfold t, m.
  assert (E2 := h2_h1 g k Hk). rewrite E2.
  pose proof (h_sq g k Hg Hk). pose proof (h1_pos g k Hg Hk). pose proof (h3_pos g k Hg Hk). auto.
Qed.
Print Assumptions C05_scale_factors_are_metric.
Lemma C05_witness : grid_ok g_test /\ (128 < Nelem g_test)%nat.
Proof. repeat split; try (compute; lia); simpl; lra. Qed.

(** * C06 *)
Theorem C06_centrifugal : forall (g : grid) k (m : R), grid_ok g -> (k < Nelem g)%nat ->
  0 < gY g k /\ gf g k = 1 / (2 * gY g k ^ 2) /\ m ^ 2 * gf g k = m ^ 2 / (2 * gY g k ^ 2) /\
  cosh (Xr g k) ^ 2 - cos (Xa g k) ^ 2 <> 0 /\ cosh (Xr g k) ^ 2 - 1 <> 0 /\ 1 - cos (Xa g k) ^ 2 <> 0.
Proof.
  intros g k m Hg Hk.
  assert (HY : 0 < gY g k).
  { pose proof (h3_pos g k Hg Hk) as P. rewrite h3_val in P by auto. rewrite gY_val by auto. exact P. }
  rewrite gf_val by auto. split; [auto|]. split; [reflexivity|]. split; [field; lra|].
  pose proof (den_pos (Xr g k) (Xa g k) (proj1 (Xr_range g k Hg Hk))).
  pose proof (pow_lt _ 2 (sinh_Xr_pos g k Hg Hk)). pose proof (pow_lt _ 2 (sin_Xa_pos g k Hk)).
  pose proof (cosh2_sinh2 (Xr g k)). pose proof (sin2c (Xa g k)). repeat split; lra.
Qed.
Print Assumptions C06_centrifugal.
Lemma C06_witness : grid_ok g_test /\ (128 < Nelem g_test)%nat.
Proof. split; [apply g_test_ok|compute; lia]. Qed.

(** * C07 *)
Theorem C07_quadrature_exact : forall N Nm w sol1 wi, (2 <= N)%nat -> (2 <= Nm)%nat ->
  solves N nc_A (nc_b N) w -> solves N nc_A1 nc_b1 sol1 -> NC N Nm w sol1 = Ok wi ->
  let n := ((N - 1) * Nm + 1)%nat in
  forall p, (length p <= N)%nat -> peval p 0 = 0 -> peval p (INR n) = 0 ->
  sumR n (fun i => wi i * peval p (INR i + / 2)) = RInt (peval p) 0 (INR n).
Proof.
  intros N Nm w sol1 wi HN Hm Hw Hs E n p Hl H0 H1. unfold NC in E.
  destruct (Nat.leb_spec N 1); [lia|]. destruct (Nat.eqb_spec Nm 0); [lia|]. simpl in E. injection E as <-.
  exact (nc_exact N Nm w sol1 HN (nc_NP_ge N Nm HN Hm) Hw Hs p Hl H0 H1).
Qed.
Print Assumptions C07_quadrature_exact.
Theorem C07_no_failure : forall N Nm w sol1, (2 <= N)%nat -> (1 <= Nm)%nat -> exists wi, NC N Nm w sol1 = Ok wi.
Proof.
  intros. unfold NC. destruct (Nat.leb_spec N 1); [lia|]. destruct (Nat.eqb_spec Nm 0); [lia|]. eexists; reflexivity.
Qed.
Print Assumptions C07_no_failure.
Theorem C07_single_block_refuted : exists w sol1 wi,
  solves 3 nc_A (nc_b 3) w /\ solves 3 nc_A1 nc_b1 sol1 /\ NC 3 1 w sol1 = Ok wi /\
  exists p, (length p <= 3)%nat /\ peval p 0 = 0 /\ peval p (INR 3) = 0 /\
  sumR 3 (fun i => wi i * peval p (INR i + / 2)) <> RInt (peval p) 0 (INR 3).
Proof.
  destruct (nc_exists 3) as (w & s & Hw & Hs). exists w, s, (nc_weights 3 1 w s).
  repeat split; auto. exists [0; 3; -1]. split; [simpl; lia|]. exact (nc_3_1_not_exact w s Hw Hs).
Qed.
Print Assumptions C07_single_block_refuted.
Lemma C07_witness : exists w sol1 wi, solves 7 nc_A (nc_b 7) w /\ solves 7 nc_A1 nc_b1 sol1 /\ NC 7 4 w sol1 = Ok wi /\
  let p := plin 1 (-25) [0; 1; 0; 2] in (length p <= 7)%nat /\ peval p 0 = 0 /\ peval p (INR 25) = 0 /\ peval p 1 <> 0.
Proof.
  destruct (nc_exists 7) as (w & s & Hw & Hs). exists w, s, (nc_weights 7 4 w s). repeat split; auto;
  try (simpl; lia); rewrite peval_plin; simpl; lra.
Qed.

(** * C08 *)
Theorem C08_palindromic : forall N Nm w sol1 wi, (2 <= N)%nat -> (2 <= Nm)%nat ->
  solves N nc_A (nc_b N) w -> NC N Nm w sol1 = Ok wi ->
  let n := ((N - 1) * Nm + 1)%nat in
  forall i, (i < n)%nat -> wi (n - 1 - i)%nat = wi i.
Proof.
  intros N Nm w sol1 wi HN Hm Hw E n i Hi. unfold NC in E.
  destruct (Nat.leb_spec N 1); [lia|]. destruct (Nat.eqb_spec Nm 0); [lia|]. simpl in E. injection E as <-.
  exact (nc_palin N Nm w sol1 HN (nc_NP_ge N Nm HN Hm) Hw i Hi).
Qed.
Print Assumptions C08_palindromic.
Lemma C08_witness : exists w sol1 wi, solves 7 nc_A (nc_b 7) w /\ NC 7 4 w sol1 = Ok wi.
Proof. destruct (nc_exists 7) as (w & s & Hw & Hs). exists w, s, (nc_weights 7 4 w s). split; [exact Hw|reflexivity]. Qed.
Theorem C08_single_block_refuted : exists w sol1 wi,
  solves 4 nc_A (nc_b 4) w /\ solves 4 nc_A1 nc_b1 sol1 /\ NC 4 1 w sol1 = Ok wi /\ wi 1%nat <> wi 2%nat.
Proof.
  destruct (nc_exists 4) as (w & s & Hw & Hs). exists w, s, (nc_weights 4 1 w s).
  repeat split; auto. exact (nc_4_1_not_palin w s Hw Hs).
Qed.
Print Assumptions C08_single_block_refuted.

(** * C09 *)
Theorem C09_weights_paired : forall (g : grid) ia ir, gNMa g = gNMr g -> is_point g ia ir ->
  gwi g (pos g ia ir) = wa g ia * wr g ir.
Proof. exact gwi_pos. Qed.
Print Assumptions C09_weights_paired.
(** the one-dimensional weights are those of NC *)
Theorem C09_weights_are_NC : forall (g : grid), grid_ok g ->
  NC (gNP g) (gNMa g) (ls_nc g) (ls_nc1 g) = Ok (wa g) /\ NC (gNP g) (gNMr g) (ls_nc g) (ls_nc1 g) = Ok (wr g).
Proof.
  intros g (H1 & H2 & H3 & _). unfold NC. destruct (Nat.leb_spec (gNP g) 1); [lia|].
  destruct (Nat.eqb_spec (gNMa g) 0); [lia|]. destruct (Nat.eqb_spec (gNMr g) 0); [lia|]. split; reflexivity.
Qed.
Print Assumptions C09_weights_are_NC.
Theorem C09_unequal_blocks_refuted : exists g, grid_ok g /\ lstsq_ok g /\ gNMa g <> gNMr g /\
  (exists ia ir, is_point g ia ir /\ gwi g (pos g ia ir) <> wa g ia * wr g ir) /\
  (exists f, integrate1 g f <> ideal_integral g f).
Proof.
  exists g23. split; [apply g23_ok|]. split; [apply grid_of_lstsq|]. split; [compute; discriminate|].
  split; [|exact wi_wrong_integral]. exists 1%nat, 0%nat. split; [split; compute; lia|exact wi_wrong].
Qed.
Print Assumptions C09_unequal_blocks_refuted.
Lemma C09_witness : grid_ok g_test /\ gNMa g_test = gNMr g_test /\ is_point g_test 3 5.
Proof. repeat split; try (compute; lia); simpl; lra. Qed.

(** * C10 *)
Theorem C10_weighted_sum : forall (g : grid) (f : nat -> nat -> R) cols, gNMa g = gNMr g -> (2 <= cols)%nat ->
  integrate g (A1 (fun k => f k 0%nat)) = IScal (ideal_integral g (fun k => f k 0%nat)) /\
  exists r, integrate g (A2 cols f) = IArr cols r /\ forall k s, r k s = ideal_integral g (fun k => f k s).
Proof.
  intros g f cols E Hc. simpl. rewrite integrate1_ideal by auto. split; [reflexivity|].
  destruct (Nat.eqb_spec cols 1); [lia|]. eexists. split; [reflexivity|]. intros. simpl. apply integrate1_ideal; auto.
Qed.
Print Assumptions C10_weighted_sum.
Theorem C10_linear : forall (g : grid) c f h,
  integrate g (A1 (fun k => c * f k + h k)) = IScal (c * integrate1 g f + integrate1 g h).
Proof. intros. simpl. rewrite integrate1_lin. reflexivity. Qed.
Print Assumptions C10_linear.
Theorem C10_mirror_invariant : forall (g : grid) f, grid_ok g -> lstsq_ok g -> gNMa g = gNMr g -> (2 <= gNMa g)%nat ->
  integrate g (mirror g (A1 f)) = integrate g (A1 f).
Proof.
  intros g f Hg (HN & _) E H2. simpl. f_equal. apply (integrate1_mirror g f E).
  intros i Hi. unfold wa. apply (nc_palin (gNP g) (gNMa g)); auto; try apply Hg.
  apply nc_NP_ge; auto. apply Hg.
Qed.
Print Assumptions C10_mirror_invariant.
Lemma C10_witness : grid_ok g_test /\ lstsq_ok g_test /\ gNMa g_test = gNMr g_test /\ (2 <= gNMa g_test)%nat.
Proof. split; [apply g_test_ok|]. split; [apply g_test_lstsq|]. split; [reflexivity|compute; lia]. Qed.

(** * C11 *)
Theorem C11_single_column_value : forall (g : grid) (f : nat -> nat -> R),
  integrate g (A2 1 f) = IScal (iprefac g * sumR (Nelem g) (fun k => gwi g k * gw g k) * sumR (Nelem g) (fun k => f k 0%nat)).
Proof. intros. simpl. rewrite integrate_col_val. reflexivity. Qed.
Print Assumptions C11_single_column_value.
Theorem C11_constant_columns : forall (g : grid) c,
  integrate g (A2 1 (fun _ _ => c)) = IScal (INR (Nelem g) * integrate1 g (fun _ => c)).
Proof. intros. simpl. rewrite col_const. reflexivity. Qed.
Print Assumptions C11_constant_columns.
Theorem C11_single_column_refuted : exists g f, grid_ok g /\ lstsq_ok g /\ gNMa g = gNMr g /\
  integrate g (A2 1 f) <> IScal (ideal_integral g (fun k => f k 0%nat)).
Proof.
  exists g22, (fun _ _ => 1). split; [apply g22_ok|]. split; [apply grid_of_lstsq|]. split; [reflexivity|].
  rewrite <- integrate1_ideal by reflexivity. intros E. injection E as E.
  pose proof wtot_g22. apply (col_wrong g22 g22_ok) in E; auto. lra.
Qed.
Print Assumptions C11_single_column_refuted.
Theorem C11_scf_ratio_is_unweighted : forall (g : grid) (n n_old : vec), grid_ok g ->
  sumR (Nelem g) (fun k => gwi g k * gw g k) <> 0 -> sumR (Nelem g) (fun k => Rabs (n k)) <> 0 ->
  integrate_col g (fun k => Rabs (n k - n_old k)) / integrate_col g (fun k => Rabs (n k))
  = sumR (Nelem g) (fun k => Rabs (n k - n_old k)) / sumR (Nelem g) (fun k => Rabs (n k)).
Proof. intros. apply col_ratio; auto. Qed.
Print Assumptions C11_scf_ratio_is_unweighted.
Lemma C11_witness : grid_ok g22 /\ sumR (Nelem g22) (fun k => gwi g22 k * gw g22 k) <> 0.
Proof. split; [apply g22_ok|]. pose proof wtot_g22 as H. unfold wtot in H. lra. Qed.

(** * C12 *)
Theorem C12_fd_exact : forall loc d raw, (d < length loc)%nat ->
  solves (length loc) (transp (fd_table loc)) (fd_rhs d) raw ->
  (forall j, (j < length loc)%nat -> raw j = 0 \/ / 10 ^ 10 <= Rabs (raw j)) ->
  forall p, (length p <= length loc)%nat ->
  sumR (length loc) (fun j => fd_coef raw j * peval p (IZR (nth j loc 0%Z))) = Derive_n (peval p) d 0.
Proof. intros. apply fd_coef_exact; auto. Qed.
Print Assumptions C12_fd_exact.
Theorem C12_fd_error : forall loc d raw, (d < length loc)%nat ->
  solves (length loc) (transp (fd_table loc)) (fd_rhs d) raw ->
  forall p, (length p <= length loc)%nat ->
  Rabs (sumR (length loc) (fun j => fd_coef raw j * peval p (IZR (nth j loc 0%Z))) - Derive_n (peval p) d 0)
  <= / 10 ^ 10 * sumR (length loc) (fun j => Rabs (peval p (IZR (nth j loc 0%Z)))).
Proof. intros. apply fd_coef_error; auto. Qed.
Print Assumptions C12_fd_error.
(** The system has a solution for every stencil of distinct offsets: the contract is satisfiable. *)
Lemma C12_witness : forall b d, solves (length (sym_stencil b)) (transp (fd_table (sym_stencil b))) (fd_rhs d) (fd_sol b d).
Proof. exact fd_sol_ok. Qed.
(** ... and for b = 1 all coefficients are zero or large, so the exact version applies. *)
Lemma C12_witness_exact : let raw := fd_sol 1 1 in
  forall j, (j < 3)%nat -> raw j = 0 \/ / 10 ^ 10 <= Rabs (raw j).
Proof.
  intros raw j Hj. pose proof (fd_sol_ok 1 1) as H. fold raw in H.
  pose proof (H 0%nat ltac:(simpl; lia)) as A0. pose proof (H 1%nat ltac:(simpl; lia)) as A1.
  pose proof (H 2%nat ltac:(simpl; lia)) as A2. unfold transp, fd_table, fd_rhs in *. rewrite sym_stencil_length in *.
  simpl in A0, A1, A2. unfold fd_x in *. simpl in A0, A1, A2.
  assert (P : / 10 ^ 10 <= / 2) by (apply Rinv_le_contravar; [lra|simpl; lra]).
  destruct j as [|[|[|j]]]; try lia.
  - right. replace (raw 0%nat) with (- / 2) by lra. unfold Rabs; destruct (Rcase_abs _); lra.
  - left. lra.
  - right. replace (raw 2%nat) with (/ 2) by lra. unfold Rabs; destruct (Rcase_abs _); lra.
Qed.

(** * C13 *)
Theorem C13_parity : forall loc d raw,
  (forall i j, (i < length loc)%nat -> (j < length loc)%nat -> i <> j -> IZR (nth i loc 0%Z) <> IZR (nth j loc 0%Z)) ->
  (forall j, (j < length loc)%nat -> IZR (nth (length loc - 1 - j) loc 0%Z) = - IZR (nth j loc 0%Z)) ->
  solves (length loc) (transp (fd_table loc)) (fd_rhs d) raw ->
  forall j, (j < length loc)%nat -> fd_coef raw (length loc - 1 - j)%nat = (-1) ^ d * fd_coef raw j.
Proof. exact fd_coef_parity. Qed.
Print Assumptions C13_parity.
Theorem C13_first_derivative_centre_zero : forall (g : grid) b, fd_ok g b -> d1 g b = 0.
Proof. exact d1_centre. Qed.
Print Assumptions C13_first_derivative_centre_zero.
Theorem C13_symmetrisation_is_noop : forall (g : grid) b p q, fd_ok g b ->
  D1 g p q = fd_band (gloc g) (d1 g) p q /\ fd_band (gloc g) (d1 g) q p = - fd_band (gloc g) (d1 g) p q /\
  fd_band (gloc g) (d2 g) q p = fd_band (gloc g) (d2 g) p q.
Proof. exact fd_band_sym. Qed.
Print Assumptions C13_symmetrisation_is_noop.
Lemma C13_witness : fd_ok g_test 4.
Proof. exact g_test_fd. Qed.

(** * C14 *)
Theorem C14_angular_matrices : forall (g : grid) b v p, fd_ok g b -> (b <= Na g)%nat -> (p < Na g)%nat ->
  matvec (Na g) (eDa1 g) v p = stencil b (d1 g) (reflect (Na g) 1 v) p / (PI / INR (Na g)) /\
  matvec (Na g) (oDa1 g) v p = stencil b (d1 g) (reflect (Na g) (-1) v) p / (PI / INR (Na g)) /\
  matvec (Na g) (eDa2 g) v p = stencil b (d2 g) (reflect (Na g) 1 v) p / (PI / INR (Na g)) ^ 2 /\
  matvec (Na g) (oDa2 g) v p = stencil b (d2 g) (reflect (Na g) (-1) v) p / (PI / INR (Na g)) ^ 2.
Proof.
  intros. rewrite <- ha_val. repeat split;
  [apply eDa1_apply|apply oDa1_apply|apply eDa2_apply|apply oDa2_apply]; auto.
Qed.
Print Assumptions C14_angular_matrices.
Theorem C14_radial_matrices : forall (g : grid) b v p, fd_ok g b -> (b <= Nr g)%nat -> (p < Nr g)%nat ->
  matvec (Nr g) (eDr1 g) v p = stencil b (d1 g) (reflect_inner (Nr g) 1 v (fun _ => 0)) p / (gL g / INR (Nr g)) /\
  matvec (Nr g) (oDr1 g) v p = stencil b (d1 g) (reflect_inner (Nr g) (-1) v (fun _ => 0)) p / (gL g / INR (Nr g)) /\
  matvec (Nr g) (eDr2 g) v p = stencil b (d2 g) (reflect_inner (Nr g) 1 v (fun _ => 0)) p / (gL g / INR (Nr g)) ^ 2 /\
  matvec (Nr g) (oDr2 g) v p = stencil b (d2 g) (reflect_inner (Nr g) (-1) v (fun _ => 0)) p / (gL g / INR (Nr g)) ^ 2.
Proof.
  intros. rewrite <- hr_val. repeat split;
  [apply eDr1_apply|apply oDr1_apply|apply eDr2_apply|apply oDr2_apply]; auto.
Qed.
Print Assumptions C14_radial_matrices.
(** the coefficients in these stencils are the ones of C12 for derivative 1 and 2 *)
Theorem C14_stencil_coefficients : forall (g : grid) b, fd_ok g b ->
  (forall j, d1 g j = fd_coef (ls_fd1 g) j /\ d2 g j = fd_coef (ls_fd2 g) j) /\
  solves (2 * b + 1) (transp (fd_table (sym_stencil b))) (fd_rhs 1) (ls_fd1 g) /\
  solves (2 * b + 1) (transp (fd_table (sym_stencil b))) (fd_rhs 2) (ls_fd2 g).
Proof.
  intros g b (E & Hb & H1 & H2). split; [intros; split; reflexivity|].
  rewrite E, sym_stencil_length in H1, H2. auto.
Qed.
Print Assumptions C14_stencil_coefficients.
Lemma C14_witness : fd_ok g_test 4 /\ (4 <= Na g_test)%nat /\ (4 <= Nr g_test)%nat.
Proof. split; [exact g_test_fd|]. split; compute; lia. Qed.

(** * C15 *)
Theorem C15_ghost_points : forall (g : grid) b sg v out p, fd_ok g b -> (b <= Nr g)%nat -> (p < Nr g)%nat ->
  sg = 1 \/ sg = -1 ->
  let D1r := if Req_EM_T sg 1 then eDr1 g else oDr1 g in
  let D2r := if Req_EM_T sg 1 then eDr2 g else oDr2 g in
  matvec (Nr g) D1r v p + (if (Nr g - b <=? p)%nat then matvec b (bc1 g) out (p - (Nr g - b))%nat else 0)
  = stencil b (d1 g) (reflect_inner (Nr g) sg v out) p / (gL g / INR (Nr g)) /\
  matvec (Nr g) D2r v p + (if (Nr g - b <=? p)%nat then matvec b (bc2 g) out (p - (Nr g - b))%nat else 0)
  = stencil b (d2 g) (reflect_inner (Nr g) sg v out) p / (gL g / INR (Nr g)) ^ 2.
Proof.
  intros g b sg v out p H Hb Hp [-> | ->]; cbv zeta; destruct (Req_EM_T _ _) as [E|E]; try lra; rewrite <- hr_val.
  - rewrite (eDr1_apply g b), (eDr2_apply g b) by auto. split; [apply ghost_rows1|apply ghost_rows2]; auto.
  - rewrite (oDr1_apply g b), (oDr2_apply g b) by auto. split; [apply ghost_rows1|apply ghost_rows2]; auto.
Qed.
Print Assumptions C15_ghost_points.
(** the same for the Laplacian: elap inside plus blap on the boundary layers *)
Theorem C15_laplacian_ghosts : forall (g : grid) b f out ia ir,
  fd_ok g b -> (b <= Na g)%nat -> (b <= Nr g)%nat -> is_point g ia ir ->
  gapply g (elap g) f (pos g ia ir)
  + (if (Nr g - b <=? ir)%nat then matvec (Na g * b) (blap g) out (ia + Na g * (ir - (Nr g - b)))%nat else 0)
  = lap_form g b 1 f (fun i q => out (i + Na g * q)%nat) ia ir.
Proof. exact elap_blap. Qed.
Print Assumptions C15_laplacian_ghosts.
Lemma C15_witness : fd_ok g_test 4 /\ (4 <= Na g_test)%nat /\ (4 <= Nr g_test)%nat /\ is_point g_test 3 (Nr g_test - 2) /\ (Nr g_test - 4 <=? Nr g_test - 2)%nat = true.
Proof. split; [exact g_test_fd|]. repeat split; compute; lia. Qed.

(** * C16 *)
Theorem C16_laplacian_structure : forall (g : grid) b f ia ir,
  fd_ok g b -> (b <= Na g)%nat -> (b <= Nr g)%nat -> is_point g ia ir ->
  let lap sg :=
    let th := node (Na g) PI ia in let mu := node (Nr g) (gL g) ir in
    let da := PI / INR (Na g) in let dr := gL g / INR (Nr g) in
    let ua := reflect (Na g) sg (fun i => f (pos g i ir)) in
    let ur := reflect_inner (Nr g) sg (fun i => f (pos g ia i)) (fun _ => 0) in
    ga g * ( sinh mu * (sin th * (stencil b (d2 g) ua ia / da ^ 2) + cos th * (stencil b (d1 g) ua ia / da))
           + sin th * (sinh mu * (stencil b (d2 g) ur ir / dr ^ 2) + cosh mu * (stencil b (d1 g) ur ir / dr))) in
  gapply g (elap g) f (pos g ia ir) = lap 1 /\ gapply g (olap g) f (pos g ia ir) = lap (-1).
Proof. intros g b f ia ir H Ha Hr Hp lap. split; [apply elap_form|apply olap_form]; auto. Qed.
Print Assumptions C16_laplacian_structure.
Theorem C16_continuous_laplacian : forall (u uz uy uzz uzy uyy : R -> R -> R),
  twice_diff u uz uy uzz uzy uyy -> forall a t m, 0 < a -> 0 < t < PI -> 0 < m ->
  let Z t m := a * cosh m * cos t in let Y t m := a * sinh m * sin t in
  let F t m := u (Z t m) (Y t m) in
  a * (sinh m * (sin t * Derive_n (fun t => F t m) 2 t + cos t * Derive (fun t => F t m) t)
     + sin t * (sinh m * Derive_n (fun m => F t m) 2 m + cosh m * Derive (fun m => F t m) m))
  = a ^ 3 * sin t * sinh m * (sin t ^ 2 + sinh m ^ 2)
    * (uzz (Z t m) (Y t m) + uyy (Z t m) (Y t m) + uy (Z t m) (Y t m) / Y t m).
Proof. intros u uz uy uzz uzy uyy H a t m Ha Ht Hm. exact (lap_identity u uz uy uzz uzy uyy H a t m Ha Ht Hm). Qed.
Print Assumptions C16_continuous_laplacian.
(** the prefactor is the grid's volume element *)
Theorem C16_prefactor_is_w : forall (g : grid) ia ir, is_point g ia ir ->
  let th := node (Na g) PI ia in let mu := node (Nr g) (gL g) ir in
  gw g (pos g ia ir) = ga g ^ 3 * sin th * sinh mu * (sin th ^ 2 + sinh mu ^ 2).
Proof.
  intros g ia ir H. assert (HP := pos_lt g ia ir H).
  rewrite gw_val, !Xa_pos, !Xr_pos, xa_node, xr_node by (auto; apply H). reflexivity.
Qed.
Print Assumptions C16_prefactor_is_w.
Lemma C16_witness : twice_diff (fun z y => z * y) (fun _ y => y) (fun z _ => z) (fun _ _ => 0) (fun _ _ => 1) (fun _ _ => 0).
Proof. exact twice_diff_zy. Qed.

(** * C17 *)
Theorem C17_laplacian_mirror : forall (g : grid) b f k, fd_ok g b -> (b <= Na g)%nat -> (k < Nelem g)%nat ->
  gapply g (elap g) (mirror1 g f) k = mirror1 g (gapply g (elap g) f) k /\
  gapply g (olap g) (mirror1 g f) k = mirror1 g (gapply g (olap g) f) k.
Proof. intros. split; [apply (elap_mirror g b)|apply (olap_mirror g b)]; auto. Qed.
Print Assumptions C17_laplacian_mirror.
Theorem C17_parity_preserved : forall (g : grid) b f s, fd_ok g b -> (b <= Na g)%nat ->
  (forall k, (k < Nelem g)%nat -> mirror1 g f k = s * f k) ->
  forall k, (k < Nelem g)%nat ->
  mirror1 g (gapply g (elap g) f) k = s * gapply g (elap g) f k /\
  mirror1 g (gapply g (olap g) f) k = s * gapply g (olap g) f k.
Proof. exact lap_parity. Qed.
Print Assumptions C17_parity_preserved.
(** the coordinate Z along the axis is odd and does not vanish *)
Lemma C17_witness : fd_ok g_test 4 /\ (4 <= Na g_test)%nat /\ (128 < Nelem g_test)%nat /\ (forall k, (k < Nelem g_test)%nat -> mirror1 g_test (gZ g_test) k = -1 * gZ g_test k) /\
  exists k, (k < Nelem g_test)%nat /\ gZ g_test k <> 0.
Proof.
  split; [exact g_test_fd|]. split; [compute; lia|]. split; [compute; lia|]. split; [intros k Hk; rewrite gZ_mirror by exact Hk; ring|].
  exists 0%nat. split; [compute; lia|]. assert (Q : 0 < gZ g_test 0%nat \/ gZ g_test 0%nat < 0); [|lra].
  left. rewrite gZ_val by (compute; lia). assert (X : 0 < Xa g_test 0%nat < PI / 2).
  { replace (Xa g_test 0%nat) with (Xa g_test (pos g_test 0 0)) by reflexivity. rewrite Xa_pos by (split; compute; lia). rewrite xa_node by (compute; lia). unfold node. change (Na g_test) with 25%nat. simpl INR. pose proof PI_RGT_0. lra. }
  apply Rmult_lt_0_compat; [apply Rmult_lt_0_compat; [simpl; lra|apply cosh_pos]|]. apply cos_gt_0; lra.
Qed.

(** * C18 *)
Theorem C18_gradient_divergence : forall (g : grid) b f ia ir,
  fd_ok g b -> (b <= Na g)%nat -> (b <= Nr g)%nat -> is_point g ia ir ->
  let k := pos g ia ir in
  let da := PI / INR (Na g) in let dr := gL g / INR (Nr g) in
  let zero := fun _ : nat => 0 in
  gapply g (grada g) f k = 1 / h1 g k * (stencil b (d1 g) (reflect (Na g) 1 (fun i => f (pos g i ir))) ia / da) /\
  gapply g (gradr g) f k = 1 / h2 g k * (stencil b (d1 g) (reflect_inner (Nr g) 1 (fun i => f (pos g ia i)) zero) ir / dr) /\
  gapply g (diva g) f k = 1 / (h1 g k * h2 g k * h3 g k) *
     (stencil b (d1 g) (reflect (Na g) (-1) (fun i => let j := pos g i ir in h2 g j * h3 g j * f j)) ia / da) /\
  gapply g (divr g) f k = 1 / (h1 g k * h2 g k * h3 g k) *
     (stencil b (d1 g) (reflect_inner (Nr g) (-1) (fun i => let j := pos g ia i in h1 g j * h3 g j * f j) zero) ir / dr).
Proof.
  intros g b f ia ir H Ha Hr Hp k da dr zero. unfold da, dr. rewrite <- ha_val, <- hr_val.
  repeat split; [apply grada_form|apply gradr_form|apply diva_form|apply divr_form]; auto.
Qed.
Print Assumptions C18_gradient_divergence.
Theorem C18_mirror : forall (g : grid) b f k, fd_ok g b -> (b <= Na g)%nat -> (k < Nelem g)%nat ->
  gapply g (grada g) (mirror1 g f) k = - mirror1 g (gapply g (grada g) f) k /\
  gapply g (gradr g) (mirror1 g f) k = mirror1 g (gapply g (gradr g) f) k /\
  gapply g (diva g) (mirror1 g f) k = - mirror1 g (gapply g (diva g) f) k /\
  gapply g (divr g) (mirror1 g f) k = mirror1 g (gapply g (divr g) f) k.
Proof.
  intros. repeat split; [apply (grada_mirror g b)|apply gradr_mirror|apply (diva_mirror g b)|apply divr_mirror]; auto.
Qed.
Print Assumptions C18_mirror.
Theorem C18_constants : forall (g : grid) b c ia ir, fd_ok g b -> (b <= Na g)%nat -> is_point g ia ir ->
  gapply g (grada g) (fun _ => c) (pos g ia ir) = 0 /\
  ((ir + b < Nr g)%nat -> gapply g (gradr g) (fun _ => c) (pos g ia ir) = 0).
Proof. intros. split; [apply (grada_const g b)|intros; apply (gradr_const g b)]; auto. Qed.
Print Assumptions C18_constants.
Lemma C18_witness : fd_ok g_test 4 /\ (4 <= Na g_test)%nat /\ (4 <= Nr g_test)%nat /\ is_point g_test 3 5 /\ (5 + 4 < Nr g_test)%nat.
Proof. split; [exact g_test_fd|]. repeat split; compute; lia. Qed.

(** * C19 *)
Theorem C19_sigma_one_column : forall (g : grid) n, exists s, sigma g 1 n = Ok (1%nat, s) /\
  forall k, s k 0%nat = gapply g (grada g) (fun i => n i 0%nat) k ^ 2 + gapply g (gradr g) (fun i => n i 0%nat) k ^ 2
            /\ 0 <= s k 0%nat.
Proof. exact sigma_pol1. Qed.
Print Assumptions C19_sigma_one_column.
Theorem C19_sigma_two_columns : forall (g : grid) n, exists s, sigma g 2 n = Ok (3%nat, s) /\
  forall k,
    s k 0%nat = gapply g (grada g) (fun i => n i 0%nat) k ^ 2 + gapply g (gradr g) (fun i => n i 0%nat) k ^ 2 /\
    s k 2%nat = gapply g (grada g) (fun i => n i 1%nat) k ^ 2 + gapply g (gradr g) (fun i => n i 1%nat) k ^ 2 /\
    s k 1%nat = sumR (Nelem g) (fun j =>
      gapply g (grada g) (fun i => n i 0%nat) j * gapply g (grada g) (fun i => n i 1%nat) j
      + gapply g (gradr g) (fun i => n i 0%nat) j * gapply g (gradr g) (fun i => n i 1%nat) j) /\
    0 <= s k 0%nat /\ 0 <= s k 2%nat.
Proof. exact sigma_pol2. Qed.
Print Assumptions C19_sigma_two_columns.
Theorem C19_sigma_cross_refuted : exists g n s, grid_ok g /\ lstsq_ok g /\ fd_ok g 1 /\ sigma g 2 n = Ok (3%nat, s) /\
  exists k, (k < Nelem g)%nat /\
  s k 1%nat <> gapply g (grada g) (fun i => n i 0%nat) k * gapply g (grada g) (fun i => n i 1%nat) k
             + gapply g (gradr g) (fun i => n i 0%nat) k * gapply g (gradr g) (fun i => n i 1%nat) k.
Proof.
  destruct sigma_cross_wrong as (s & E & H). exists g22, (fun k _ => f22 k), s.
  split; [apply g22_ok|]. split; [apply grid_of_lstsq|]. split; [exact g22_fd|]. split; [exact E|].
  exists 0%nat. split; [compute; lia|exact H].
Qed.
Print Assumptions C19_sigma_cross_refuted.
Theorem C19_sigma_other_shapes : forall (g : grid) c n, c <> 1%nat -> c <> 2%nat -> sigma g c n = Err ValueError.
Proof. exact sigma_other. Qed.
Print Assumptions C19_sigma_other_shapes.
Theorem C19_sigma_mirror : forall (g : grid) b n c s s', fd_ok g b -> (b <= Na g)%nat ->
  sigma g c n = Ok s -> sigma g c (mirror2 g n) = Ok s' ->
  fst s' = fst s /\ forall k j, (k < Nelem g)%nat -> (j < fst s)%nat -> snd s' k j = mirror1 g (fun i => snd s i j) k.
Proof. exact sigma_mirror. Qed.
Print Assumptions C19_sigma_mirror.
Lemma C19_witness : fd_ok g_test 4 /\ (4 <= Na g_test)%nat /\ forall n, (exists s s', sigma g_test 1 n = Ok s /\ sigma g_test 1 (mirror2 g_test n) = Ok s') /\ exists s s', sigma g_test 2 n = Ok s /\ sigma g_test 2 (mirror2 g_test n) = Ok s'.
Proof. split; [exact g_test_fd|]. split; [compute; lia|]. intros n. split; do 2 eexists; split; reflexivity. Qed.

(** * C23 *)
Theorem C23_axis_plot : forall (g : grid) fin perm, grid_ok g ->
  argsort_ok (map (gZ g) (axis_indices g)) perm ->
  let r := axis_plot g fin perm in
  length (fst r) = length (snd r) /\
  Permutation (combine (fst r) (snd r)) (map (fun k => (gZ g k, fin k)) (axis_points g)) /\
  StronglySorted Rle (fst r).
Proof. exact axis_plot_spec. Qed.
Print Assumptions C23_axis_plot.
Theorem C23_axis_points_on_grid : forall (g : grid) k, grid_ok g -> In k (axis_points g) -> (k < Nelem g)%nat.
Proof. exact axis_points_grid. Qed.
Print Assumptions C23_axis_points_on_grid.
Lemma C23_witness : grid_ok g22 /\ exists perm, argsort_ok (map (gZ g22) (axis_indices g22)) perm.
Proof. split; [apply g22_ok|]. apply argsort_total. Qed.

(** * C69 *)
Theorem C69_spinflip : forall (A : Type) (g : grid) (x : arr A) k s, (k < Nelem g)%nat -> in_cols x s ->
  shape (spinflip x) = shape x /\
  entry (spinflip (spinflip x)) k s = entry x k s /\
  entry (spinflip (mirror g x)) k s = entry (mirror g (spinflip x)) k s /\
  ((shape x = None \/ shape x = Some 1%nat) -> entry (spinflip x) k s = entry x k s) /\
  (shape x = Some 2%nat -> entry (spinflip x) k s = entry x k (1 - s)).
Proof. exact spinflip_all. Qed.
Print Assumptions C69_spinflip.
Theorem C69_spinflip_integrate : forall (g : grid) n c k s, (2 <= c)%nat ->
  exists F F', integrate g (A2 c n) = IArr c F /\ integrate g (spinflip (A2 c n)) = IArr c F' /\
    F' k s = F k (c - 1 - s)%nat.
Proof. exact spinflip_integrate. Qed.
Print Assumptions C69_spinflip_integrate.
Lemma C69_witness : (3 < Nelem g_test)%nat /\ in_cols (A2 2 (fun k s => INR (k + s))) 1.
Proof. split; compute; lia. Qed.
