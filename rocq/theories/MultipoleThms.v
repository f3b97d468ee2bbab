(** Geometry of the ghost points, and the Hartree potential with the boundary error made explicit. *)
From Coq Require Import Reals List Arith Lia Lra ZArith Bool.
From Coquelicot Require Import Coquelicot.
From Verif Require Import Base BaseLemmas GridModel Poly GridSpec GridProofs NCProofs FDProofs LapCont GridWitness GridMore OpProofs Accuracy
  HartreeModel HartreeSpec HartreeProofs LinAlg MaxPrinciple HartreeThms ClosedRun AccuracyOp Convergence ConvergenceWit Legendre Multipole.
Local Open Scope R_scope.
Local Opaque sinh cosh legendre.

(** Largest possible distance of a grid point, smallest possible distance of a ghost point, from the mid-point. *)
Definition r_points (g : grid) : R := ga g * cosh (gL g - gL g / INR (Nr g) / 2).
Definition r_ghosts (g : grid) : R := ga g * sinh (gL g + gL g / INR (Nr g) / 2).

Lemma step_pos : forall g, grid_ok g -> 0 < gL g / INR (Nr g).
Proof. intros g (_ & _ & _ & _ & HL). apply Rdiv_lt_0_compat; [exact HL|]. apply lt_0_INR. apply Nr_pos. Qed.
Lemma node_last : forall g ir, grid_ok g -> (ir < Nr g)%nat -> node (Nr g) (gL g) ir <= gL g - gL g / INR (Nr g) / 2.
Proof.
  intros g ir Hg Hi. pose proof (step_pos g Hg) as S. assert (N : 0 < INR (Nr g)) by (apply lt_0_INR, Nr_pos).
  assert (I1 : INR ir + 1 <= INR (Nr g)) by (rewrite <- S_INR; apply le_INR; lia).
  replace (node (Nr g) (gL g) ir) with ((INR ir + 1 / 2) * (gL g / INR (Nr g))) by (unfold node; field; lra).
  replace (gL g - gL g / INR (Nr g) / 2) with ((INR (Nr g) - 1 / 2) * (gL g / INR (Nr g))) by (field; lra). nra.
Qed.
Lemma node_first : forall g q, grid_ok g -> gL g + gL g / INR (Nr g) / 2 <= node (Nr g) (gL g) (Nr g + q).
Proof.
  intros g q Hg. pose proof (step_pos g Hg) as S. assert (N : 0 < INR (Nr g)) by (apply lt_0_INR, Nr_pos).
  replace (node (Nr g) (gL g) (Nr g + q)) with ((INR (Nr g) + INR q + 1 / 2) * (gL g / INR (Nr g))) by (unfold node; rewrite plus_INR; field; lra).
  replace (gL g + gL g / INR (Nr g) / 2) with ((INR (Nr g) + 1 / 2) * (gL g / INR (Nr g))) by (field; lra). pose proof (pos_INR q). nra.
Qed.
Lemma sq_le : forall x y, 0 <= y -> x ^ 2 <= y ^ 2 -> x <= y.
Proof. intros. apply Rnot_lt_le. intros H1. nra. Qed.
Lemma sinh_mono : forall x y, x <= y -> sinh x <= sinh y.
Proof. intros x y [H| ->]; [apply Rlt_le, sinh_lt; auto|lra]. Qed.
Lemma sinh_nonneg : forall x, 0 <= x -> 0 <= sinh x.
Proof. intros. pose proof (sinh_le_cosh x H). lra. Qed.
Lemma inner_pos : forall g, grid_ok g -> 0 <= gL g - gL g / INR (Nr g) / 2.
Proof. intros g Hg. pose proof (node_last g 0 Hg (Nr_pos g)). pose proof (node_range (Nr g) (gL g) 0 (Nr_pos g)) as R.
  destruct Hg as (_ & _ & _ & _ & HL). specialize (R HL). lra. Qed.

Lemma points_within : forall g n, grid_ok g -> inside g n (r_points g).
Proof.
  intros g n Hg k Hk. right. pose proof Hg as (_ & _ & _ & Ha & HL).
  set (m := Xr g k). set (t := Xa g k).
  assert (EZ : gZ g k = ga g * cosh m * cos t) by (apply gZ_val; auto). assert (EY : gY g k = ga g * sinh m * sin t) by (apply gY_val; auto).
  assert (Hm : 0 <= m <= gL g - gL g / INR (Nr g) / 2).
  { unfold m. destruct (pos_surj g k Hk) as (ia & ir & Hp & Ek). rewrite Ek, Xr_pos, xr_node by exact Hp.
    split; [|apply node_last; auto; apply Hp]. pose proof (node_range (Nr g) (gL g) ir (proj2 Hp) HL). lra. }
  apply sq_le; [unfold r_points; apply Rmult_le_pos; [lra|pose proof (cosh_ge_1 (gL g - gL g / INR (Nr g) / 2)); lra]|].
  rewrite EZ, EY, rad_prolate by auto. unfold r_points. rewrite Rpow_mult_distr. apply Rmult_le_compat_l; [apply pow2_ge_0|].
  pose proof (cosh2_sinh2 (gL g - gL g / INR (Nr g) / 2)) as C. pose proof (sinh_mono m _ (proj2 Hm)) as Sm. pose proof (sinh_nonneg m (proj1 Hm)) as S0.
  pose proof (sin2_cos2 t) as T. unfold Rsqr in T. pose proof (pow2_ge_0 (sin t)). nra.
Qed.
Lemma ghosts_beyond : forall g i q, grid_ok g -> r_ghosts g <= rad (ghostZ g i q) (ghostY g i q).
Proof.
  intros g i q Hg. pose proof Hg as (_ & _ & _ & Ha & HL). pose proof (step_pos g Hg) as S.
  apply sq_le; [apply rad_nonneg|]. unfold ghostZ, ghostY. rewrite rad_prolate by auto. unfold r_ghosts. rewrite Rpow_mult_distr.
  apply Rmult_le_compat_l; [apply pow2_ge_0|]. pose proof (sinh_mono _ _ (node_first g q Hg)) as M.
  pose proof (sinh_nonneg (gL g + gL g / INR (Nr g) / 2) ltac:(lra)). pose proof (pow2_ge_0 (cos (node (Na g) PI i))). nra.
Qed.
Lemma separated : forall g, grid_ok g -> (r_points g < r_ghosts g <-> 1 < sinh (2 * gL g) * sinh (gL g / INR (Nr g))).
Proof.
  intros g Hg. pose proof Hg as (_ & _ & _ & Ha & HL). pose proof (step_pos g Hg) as S.
  unfold r_points, r_ghosts. set (h := gL g / INR (Nr g)) in *. set (l := gL g) in *.
  pose proof (sinh_sq_gap (l + h / 2) (l - h / 2)) as E.
  replace (l + h / 2 + (l - h / 2)) with (2 * l) in E by field. replace (l + h / 2 - (l - h / 2)) with h in E by field.
  rewrite <- E. pose proof (cosh2_sinh2 (l - h / 2)) as C. pose proof (cosh_ge_1 (l - h / 2)) as C1.
  pose proof (sinh_nonneg (l + h / 2) ltac:(lra)) as S1.
  set (c := cosh (l - h / 2)) in *. set (s := sinh (l + h / 2)) in *. set (s' := sinh (l - h / 2)) in *. split; intros H.
  - apply Rmult_lt_reg_l in H; [|exact Ha]. nra.
  - apply Rmult_lt_compat_l; [exact Ha|]. assert (c ^ 2 < s ^ 2) by lra. apply Rnot_le_lt. intros K. nra.
Qed.

(** ** Consequences for the ghost points *)
Lemma abs_charge_pos : forall g n, 0 <= abs_charge g n.
Proof. intros. apply sumR_nonneg. intros; apply Rabs_pos. Qed.
Lemma points_nonneg : forall g, grid_ok g -> 0 <= r_points g.
Proof. intros g Hg. unfold r_points. apply Rmult_le_pos; [destruct Hg as (_ & _ & _ & Ha & _); lra|]. pose proof (cosh_ge_1 (gL g - gL g / INR (Nr g) / 2)). lra. Qed.
Lemma every_density : forall g n i q, grid_ok g -> 1 < sinh (2 * gL g) * sinh (gL g / INR (Nr g)) ->
  Rabs (multipole g n (ghostZ g i q) (ghostY g i q) - coulomb_sum g n (ghostZ g i q) (ghostY g i q))
  <= (r_points g / r_ghosts g) ^ 8 / (r_ghosts g - r_points g) * abs_charge g n.
Proof.
  intros g n i q Hg H. apply separated in H; auto. pose proof (ghosts_beyond g i q Hg) as B. pose proof (points_nonneg g Hg) as P0.
  eapply Rle_trans; [apply (truncation g n _ _ (r_points g) Hg (points_within g n Hg)); lra|].
  apply Rmult_le_compat_r; [apply abs_charge_pos|]. set (rr := rad (ghostZ g i q) (ghostY g i q)) in *. unfold Rdiv. apply Rmult_le_compat.
  - apply pow_le. apply Rmult_le_pos; [lra|apply Rlt_le, Rinv_0_lt_compat; lra].
  - apply Rlt_le, Rinv_0_lt_compat; lra.
  - apply pow_incr. split; [apply Rmult_le_pos; [lra|apply Rlt_le, Rinv_0_lt_compat; lra]|]. apply Rmult_le_compat_l; [lra|]. apply Rinv_le_contravar; lra.
  - apply Rinv_le_contravar; lra.
Qed.
Lemma every_size : forall g n i q, grid_ok g -> 1 < sinh (2 * gL g) * sinh (gL g / INR (Nr g)) ->
  Rabs (multipole g n (ghostZ g i q) (ghostY g i q)) <= abs_charge g n / (r_ghosts g - r_points g).
Proof.
  intros g n i q Hg H. apply separated in H; auto. pose proof (ghosts_beyond g i q Hg) as B. pose proof (points_nonneg g Hg) as P0.
  eapply Rle_trans; [apply (size g n _ _ (r_points g) Hg (points_within g n Hg)); lra|].
  apply Rmult_le_compat_l; [apply abs_charge_pos|]. apply Rinv_le_contravar; lra.
Qed.

(** ** Consequences for the potential *)
Lemma bound_explicit : forall g spL spU L U (n : nat -> nat -> R) cols v N,
  grid_ok g -> fd_ok g 1 -> gL g / INR (Nr g) <= 1 -> 1 < sinh (2 * gL g) * sinh (gL g / INR (Nr g)) ->
  solver_for (Nelem g) L spL -> solver_for (Nelem g) U spU ->
  (forall i j, (i < Nelem g)%nat -> (j < Nelem g)%nat -> matmul (Nelem g) L U i j = elap g i j) ->
  v_hartree g spL spU (A2 cols n) = Ok v ->
  let tot := fun k => sumR cols (fun s => n k s) in
  (forall k, (k < Nelem g)%nat -> Rabs (tot k) <= N) ->
  forall ia ir, is_point g ia ir ->
  Rabs (entry v (pos g ia ir) 0) <= abs_charge g tot / (r_ghosts g - r_points g)
     + PI * (ga g * cosh (gL g)) ^ 2 * N * (outer g ^ 2 - node (Nr g) (gL g) ir ^ 2).
Proof.
  intros g spL spU L U n cols v N Hg Hf Hh Hs HL HU HLU E tot HN ia ir Hp.
  apply (hartree_bound g spL spU L U n cols v N _ Hg Hf Hh HL HU HLU E HN); auto.
  intros i Hi. apply every_size; auto.
Qed.
Lemma nonneg_explicit : forall g spL spU L U (n : nat -> nat -> R) cols v rho,
  grid_ok g -> fd_ok g 1 -> gL g / INR (Nr g) <= 1 ->
  solver_for (Nelem g) L spL -> solver_for (Nelem g) U spU ->
  (forall i j, (i < Nelem g)%nat -> (j < Nelem g)%nat -> matmul (Nelem g) L U i j = elap g i j) ->
  v_hartree g spL spU (A2 cols n) = Ok v ->
  let tot := fun k => sumR cols (fun s => n k s) in
  (forall k, (k < Nelem g)%nat -> 0 <= tot k /\ 0 <= gwi g k * tot k) ->
  inside g tot rho -> 0 <= rho -> 2 * rho <= r_ghosts g ->
  forall k, (k < Nelem g)%nat -> 0 <= entry v k 0.
Proof.
  intros g spL spU L U n cols v rho Hg Hf Hh HL HU HLU E tot Hn Hi H0 H2.
  apply (hartree_nonneg g spL spU L U n cols v Hg Hf Hh HL HU HLU E); [intros; apply Hn; auto|].
  intros ia Hia. pose proof (ghosts_beyond g ia 0 Hg) as B. pose proof Hg as (_ & _ & _ & Ha & HLL). pose proof (step_pos g Hg).
  apply (positive g tot _ _ rho); auto; try lra; [|intros; apply Hn; auto].
  apply Rlt_le_trans with (r_ghosts g); [|exact B]. unfold r_ghosts. apply Rmult_lt_0_compat; [exact Ha|].
  pose proof (sinh_ge (gL g + gL g / INR (Nr g) / 2) ltac:(lra)). lra.
Qed.
Lemma converges_explicit : forall g spL spU L U (n : nat -> nat -> R) cols v u uz uy uzz uzy uyy Ma Mr quad,
  grid_ok g -> fd_ok g 1 -> gL g / INR (Nr g) <= 1 -> 1 < sinh (2 * gL g) * sinh (gL g / INR (Nr g)) ->
  solver_for (Nelem g) L spL -> solver_for (Nelem g) U spU ->
  (forall i j, (i < Nelem g)%nat -> (j < Nelem g)%nat -> matmul (Nelem g) L U i j = elap g i j) ->
  v_hartree g spL spU (A2 cols n) = Ok v ->
  let tot := fun k => sumR cols (fun s => n k s) in
  fits g 1 1 u uz uy uzz uzy uyy -> fourth g (seen u (ga g)) Ma Mr ->
  (forall ia ir, is_point g ia ir ->
     lap_at uy uzz uyy (ga g) (node (Na g) PI ia) (node (Nr g) (gL g) ir) = - 4 * PI * tot (pos g ia ir)) ->
  (forall ia, (ia < Na g)%nat ->
     Rabs (coulomb_sum g tot (ghostZ g ia 0) (ghostY g ia 0) - u (ghostZ g ia 0) (ghostY g ia 0)) <= quad) ->
  forall ia ir, is_point g ia ir -> let t := node (Na g) PI ia in let m := node (Nr g) (gL g) ir in
  Rabs (entry v (pos g ia ir) 0 - seen u (ga g) t m)
  <= quad + (r_points g / r_ghosts g) ^ 8 / (r_ghosts g - r_points g) * abs_charge g tot
     + second_order g Ma Mr * (outer g ^ 2 - m ^ 2) / 4.
Proof.
  intros g spL spU L U n cols v u uz uy uzz uzy uyy Ma Mr quad Hg Hf Hh Hs HL HU HLU E tot Hu HM HP HB ia ir Hp t m.
  apply (hartree_converges g spL spU L U n cols v u uz uy uzz uzy uyy Ma Mr _ Hg Hf Hh HL HU HLU E Hu HM HP); auto.
  intros i Hi. pose proof (every_density g tot i 0 Hg Hs) as D. pose proof (HB i Hi) as Q. fold tot.
  replace (multipole g tot (ghostZ g i 0) (ghostY g i 0) - u (ghostZ g i 0) (ghostY g i 0))
    with ((multipole g tot (ghostZ g i 0) (ghostY g i 0) - coulomb_sum g tot (ghostZ g i 0) (ghostY g i 0))
        + (coulomb_sum g tot (ghostZ g i 0) (ghostY g i 0) - u (ghostZ g i 0) (ghostY g i 0))) by ring.
  eapply Rle_trans; [apply Rabs_triang|]. lra.
Qed.

(** ** A grid whose corner is further out than some of its ghost points *)
Definition g_flat : grid := grid_of 4 5 5 1 (1 / 10) 1.
Lemma flat_corner : grid_ok g_flat /\ exists i k, (i < Na g_flat)%nat /\ (k < Nelem g_flat)%nat /\
  rad (ghostZ g_flat i 0) (ghostY g_flat i 0) < rad (gZ g_flat k) (gY g_flat k).
Proof.
  assert (Hg : grid_ok g_flat) by (apply grid_of_ok; try lia; lra). split; [exact Hg|].
  assert (NA : Na g_flat = 16%nat) by reflexivity. assert (NR : Nr g_flat = 16%nat) by reflexivity.
  assert (P : is_point g_flat 0 15) by (split; [rewrite NA|rewrite NR]; lia).
  exists 8%nat, (pos g_flat 0 15). split; [rewrite NA; lia|]. split; [apply pos_lt; exact P|].
  apply Rnot_le_lt. intros H. pose proof (pos_lt _ _ _ P) as Hk.
  assert (H2 : rad (gZ g_flat (pos g_flat 0 15)) (gY g_flat (pos g_flat 0 15)) ^ 2 <= rad (ghostZ g_flat 8 0) (ghostY g_flat 8 0) ^ 2).
  { pose proof (rad_nonneg (gZ g_flat (pos g_flat 0 15)) (gY g_flat (pos g_flat 0 15))). apply pow_incr. lra. }
  rewrite gZ_val, gY_val in H2 by exact Hk. unfold ghostZ, ghostY in H2.
  rewrite (rad_prolate (ga g_flat)) in H2 by (simpl; lra). rewrite (rad_prolate (ga g_flat)) in H2 by (simpl; lra).
  rewrite Xr_pos, Xa_pos, xr_node, xa_node in H2 by first [exact P|apply P]. change (ga g_flat) with 1 in H2.
  rewrite NA, NR in H2. change (gL g_flat) with (1 / 10) in H2. change (16 + 0)%nat with 16%nat in H2.
  replace (1 ^ 2) with 1 in H2 by ring. rewrite !Rmult_1_l in H2.
  assert (S : sinh (node 16 (1 / 10) 16) ^ 2 - sinh (node 16 (1 / 10) 15) ^ 2 <= 1 / 4).
  { assert (E1 : node 16 (1 / 10) 16 = 33 / 320) by (unfold node; simpl; field). rewrite E1.
    pose proof (mcosh_ge (33 / 320) ltac:(lra)) as M. pose proof (sinh_le_cosh (33 / 320) ltac:(lra)) as [S0 S1].
    pose proof (cosh2_sinh2 (33 / 320)) as C. pose proof (pow2_ge_0 (sinh (node 16 (1 / 10) 15))).
    enough (sinh (33 / 320) ^ 2 <= 1 / 4) by lra.
    set (s := sinh (33 / 320)) in *. set (c := cosh (33 / 320)) in *. assert (s ^ 2 <= (33 / 320 * c) ^ 2) by (apply pow_incr; lra). nra. }
  assert (C1 : cos (node 16 PI 0) ^ 2 - cos (node 16 PI 8) ^ 2 = cos (PI / 16)).
  { assert (E1 : node 16 PI 8 = PI / 2 + PI / 32) by (unfold node; simpl; field). assert (E2 : node 16 PI 0 = PI / 32) by (unfold node; simpl; field).
    rewrite E1, E2, cos_plus, cos_PI2, sin_PI2. replace (PI / 16) with (2 * (PI / 32)) by field. rewrite cos_2a. ring. }
  assert (C2 : 1 / 2 < cos (PI / 16)).
  { rewrite <- cos_PI3. pose proof PI_RGT_0. apply cos_decreasing_1; lra. }
  lra.
Qed.

(** ** A grid on which every hypothesis holds *)
Definition g_wide : grid := grid_of 2 1 1 1 2 1.
Lemma wide_ok : grid_ok g_wide.
Proof. apply grid_of_ok; try lia; lra. Qed.
Lemma wide_fd : fd_ok g_wide 1.
Proof. apply grid_of_fd; lia. Qed.
Lemma wide_step : gL g_wide / INR (Nr g_wide) = 1.
Proof. change (gL g_wide) with 2. change (Nr g_wide) with 2%nat. simpl. field. Qed.
Lemma wide_separated : 1 < sinh (2 * gL g_wide) * sinh (gL g_wide / INR (Nr g_wide)).
Proof.
  rewrite wide_step. change (gL g_wide) with 2. pose proof (sinh_ge (2 * 2) ltac:(lra)). pose proof (sinh_ge 1 ltac:(lra)). nra.
Qed.
Lemma wide_weights : forall k, (k < Nelem g_wide)%nat -> gwi g_wide k = 9 / 16.
Proof.
  destruct (nc2 (ls_nc g_wide) (ls_nc1 g_wide)) as (A & B & C); [apply (grid_of_lstsq 2 1 1 1 2 1)..|].
  assert (W : forall i, (i < 2)%nat -> wa g_wide i = 3 / 4 /\ wr g_wide i = 3 / 4).
  { intros i Hi. unfold wa, wr, nc_weights, nc_ends, nc_w1, nc_NP. change (gNP g_wide) with 2%nat.
    change (gNMa g_wide) with 1%nat. change (gNMr g_wide) with 1%nat.
    set (w := ls_nc g_wide) in *. set (s := ls_nc1 g_wide) in *.
    destruct i as [|[|i]]; [| |lia]; simpl; lra. }
  intros k Hk. change (Nelem g_wide) with 4%nat in Hk. unfold gwi, flattenC. change (Nr g_wide) with 2%nat.
  destruct (W (k / 2)%nat) as [-> _]; [apply Nat.div_lt_upper_bound; lia|].
  destruct (W (k mod 2)%nat) as [_ ->]; [apply Nat.mod_upper_bound; lia|]. field.
Qed.
Lemma exp_one : 244 / 100 <= exp 1.
Proof.
  assert (Q : exp 1 = exp (1 / 4) ^ 4) by (rewrite <- Rpower_pow by apply exp_pos; unfold Rpower; rewrite ln_exp; f_equal; simpl; field).
  assert (B : 5 / 4 <= exp (1 / 4)) by (pose proof (exp_ineq1_le (1 / 4)); lra).
  rewrite Q. assert (P2 : 25 / 16 <= exp (1 / 4) ^ 2) by nra.
  replace (exp (1 / 4) ^ 4) with (exp (1 / 4) ^ 2 * exp (1 / 4) ^ 2) by ring. nra.
Qed.
Lemma wide_half : 2 * r_points g_wide <= r_ghosts g_wide.
Proof.
  unfold r_points, r_ghosts. rewrite wide_step. change (ga g_wide) with 1. change (gL g_wide) with 2.
  Local Transparent sinh cosh. unfold sinh, cosh. Local Opaque sinh cosh.
  replace (2 + 1 / 2) with (1 + (2 - 1 / 2)) by field. replace (- (1 + (2 - 1 / 2))) with (Ropp 1 + - (2 - 1 / 2)) by ring. rewrite !exp_plus, !exp_Ropp.
  pose proof exp_one as E. set (e := exp 1) in *.
  assert (X : e <= exp (2 - 1 / 2)) by (left; apply exp_increasing; lra). set (x := exp (2 - 1 / 2)) in *.
  assert (I1 : / x <= / e) by (apply Rinv_le_contravar; lra). assert (I2 : / e <= / 2) by (apply Rinv_le_contravar; lra).
  assert (P1 : 0 < / e) by (apply Rinv_0_lt_compat; lra). assert (P2 : 0 < / x) by (apply Rinv_0_lt_compat; lra).
  assert (I3 : / e <= 41 / 100) by (apply (Rmult_le_reg_l e); [lra|]; rewrite Rinv_r by lra; lra).
  assert (/ e * / x <= 41 / 100 * (41 / 100)) by (apply Rmult_le_compat; lra).
  assert (244 / 100 * x <= e * x) by (apply Rmult_le_compat_r; lra). lra.
Qed.
