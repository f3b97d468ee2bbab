(** Properties C116-C117: accuracy of the multipole values beyond the outer boundary, and the Hartree potential
    with these errors made explicit. *)
From Coq Require Import Reals List Lia Lra ZArith.
From Coquelicot Require Import Coquelicot.
From Verif Require Import Base BaseLemmas GridModel Poly GridSpec GridProofs FDProofs OpProofs LapCont GridWitness GridMore
  SolverModel HartreeModel HartreeSpec HartreeProofs LinAlg MaxPrinciple HartreeThms Accuracy AccuracyOp AccuracyWit Convergence ConvergenceWit
  Legendre Multipole MultipoleThms.
Import ListNotations.
Local Open Scope R_scope.
Local Opaque sinh cosh legendre.

(** * C116 *)
(** The multipole values against the Coulomb potential of the charges on the grid points, each spread over its circle
    around the axis: with all charge within rho, the error at distance r is at most (rho/r)^8 / (r - rho) times the
    sum of the magnitudes of the charges. *)
Theorem C116_truncation : forall g n z y rho, grid_ok g -> inside g n rho -> rho < rad z y ->
  Rabs (multipole g n z y - coulomb_sum g n z y) <= (rho / rad z y) ^ 8 / (rad z y - rho) * abs_charge g n.
Proof. exact truncation. Qed.
Print Assumptions C116_truncation.
(** This is what v_hartree puts on its ghost points. *)
Theorem C116_ghost_values : forall g n rho b i q, grid_ok g -> bcN g = b -> (i < Na g)%nat -> (q < b)%nat ->
  inside g n rho -> rho < rad (ghostZ g i q) (ghostY g i q) ->
  Rabs (ht_bVh g n n_multipole (i + Na g * q)%nat - coulomb_sum g n (ghostZ g i q) (ghostY g i q))
  <= (rho / rad (ghostZ g i q) (ghostY g i q)) ^ 8 / (rad (ghostZ g i q) (ghostY g i q) - rho) * abs_charge g n.
Proof. intros g n rho b i q Hg Hb Hi Hq Hn Hr. rewrite (ht_bVh_multipole g n b i q Hg Hb Hi Hq). apply truncation; auto. Qed.
Print Assumptions C116_ghost_values.
(** To leading order these values are charge over distance. *)
Theorem C116_far_field : forall g n z y rho, grid_ok g -> inside g n rho -> rho < rad z y ->
  Rabs (multipole g n z y - integrate1 g n / rad z y) <= (rho / rad z y) / (rad z y - rho) * abs_charge g n.
Proof. exact far_field. Qed.
Print Assumptions C116_far_field.
(** The potential of one circle against the series, to any order. *)
Theorem C116_circle : forall z y z' y' L, 0 < rad z' y' -> rad z' y' < rad z y ->
  Rabs (sumR (S L) (fun l => rad z' y' ^ l * legendre l (z' / rad z' y') / rad z y ^ (l + 1) * legendre l (z / rad z y)) - ring z y z' y')
  <= (rad z' y' / rad z y) ^ S L / (rad z y - rad z' y').
Proof. intros z y z' y' L H1 H2. exact (ring_error z y z' y' H1 H2 L). Qed.
Print Assumptions C116_circle.
(** The mean over a circle of the Legendre polynomial of the angle between two directions; the bound by one. *)
Theorem C116_addition : forall l x y sx sy, sx ^ 2 = 1 - x ^ 2 -> sy ^ 2 = 1 - y ^ 2 ->
  RInt (fun p => legendre l (x * y + sx * sy * cos p)) 0 PI / PI = legendre l x * legendre l y.
Proof.
  intros l x y sx sy Hx Hy. pose proof (proj1 (addition x y sx sy Hx Hy l)) as A. unfold around, circP, between in A. rewrite A.
  field. apply PI_neq0.
Qed.
Print Assumptions C116_addition.
Theorem C116_legendre_bound : forall l x, -1 <= x <= 1 -> Rabs (legendre l x) <= 1.
Proof. exact legendre_bound. Qed.
Print Assumptions C116_legendre_bound.
(** Every density on a grid that extends far enough, or is coarse enough, meets the condition on its radius. *)
Theorem C116_every_density : forall g n i q, grid_ok g -> 1 < sinh (2 * gL g) * sinh (gL g / INR (Nr g)) ->
  Rabs (multipole g n (ghostZ g i q) (ghostY g i q) - coulomb_sum g n (ghostZ g i q) (ghostY g i q))
  <= (r_points g / r_ghosts g) ^ 8 / (r_ghosts g - r_points g) * abs_charge g n.
Proof. exact every_density. Qed.
Print Assumptions C116_every_density.
Theorem C116_radii : forall g, grid_ok g ->
  (forall k, (k < Nelem g)%nat -> rad (gZ g k) (gY g k) <= r_points g) /\
  (forall i q, r_ghosts g <= rad (ghostZ g i q) (ghostY g i q)) /\
  (r_points g < r_ghosts g <-> 1 < sinh (2 * gL g) * sinh (gL g / INR (Nr g))).
Proof.
  intros g Hg. split; [|split].
  - intros k Hk. destruct (points_within g (fun _ => 1) Hg k Hk) as [H|H]; [lra|exact H].
  - intros i q. apply ghosts_beyond; exact Hg.
  - apply separated; exact Hg.
Qed.
Print Assumptions C116_radii.
(** It does not hold on all grids: points at the ends can be further out than ghost points at the waist. *)
Theorem C116_radii_refuted : exists g, grid_ok g /\ exists i k, (i < Na g)%nat /\ (k < Nelem g)%nat /\
  rad (ghostZ g i 0) (ghostY g i 0) < rad (gZ g k) (gY g k).
Proof. exists g_flat. exact flat_corner. Qed.
Print Assumptions C116_radii_refuted.
Lemma C116_witness : grid_ok g_wide /\ 1 < sinh (2 * gL g_wide) * sinh (gL g_wide / INR (Nr g_wide)) /\
  inside g_wide (fun _ => 1) (r_points g_wide) /\ bcN g_wide = 1%nat /\ (0 < Na g_wide)%nat /\
  r_points g_wide < rad (ghostZ g_wide 0 0) (ghostY g_wide 0 0) /\ 0 < abs_charge g_wide (fun _ => 1) /\
  0 < rad (gZ g_wide 0%nat) (gY g_wide 0%nat).
Proof.
  pose proof wide_ok as G. pose proof wide_separated as W. split; [exact G|]. split; [exact W|]. split; [apply points_within; exact G|].
  split; [reflexivity|]. split; [apply Na_pos|]. split.
  { apply Rlt_le_trans with (r_ghosts g_wide); [apply separated; auto|apply ghosts_beyond; exact G]. }
  split; [|apply rad_pos, gY_pos; [exact G|compute; lia]].
  apply sumR_pos; [compute; lia|]. intros k Hk. apply Rabs_pos_lt. unfold share. rewrite wide_weights by exact Hk.
  apply Rgt_not_eq. apply Rmult_lt_0_compat; [apply iprefac_pos; exact G|]. pose proof (gw_pos g_wide k G Hk). lra.
Qed.

(** * C117 *)
(** v_hartree with the three-point stencil on such a grid: a bound in terms of the density alone. *)
Theorem C117_bound : forall g spL spU L U (n : nat -> nat -> R) cols v N,
  grid_ok g -> fd_ok g 1 -> gL g / INR (Nr g) <= 1 -> 1 < sinh (2 * gL g) * sinh (gL g / INR (Nr g)) ->
  solver_for (Nelem g) L spL -> solver_for (Nelem g) U spU ->
  (forall i j, (i < Nelem g)%nat -> (j < Nelem g)%nat -> matmul (Nelem g) L U i j = elap g i j) ->
  v_hartree g spL spU (A2 cols n) = Ok v ->
  let tot := fun k => sumR cols (fun s => n k s) in
  (forall k, (k < Nelem g)%nat -> Rabs (tot k) <= N) ->
  forall ia ir, is_point g ia ir ->
  Rabs (entry v (pos g ia ir) 0) <= abs_charge g tot / (r_ghosts g - r_points g)
     + PI * (ga g * cosh (gL g)) ^ 2 * N * (outer g ^ 2 - node (Nr g) (gL g) ir ^ 2).
Proof. exact bound_explicit. Qed.
Print Assumptions C117_bound.
(** A density that is nowhere negative and lies within half the distance of the ghost points has a potential that is
    nowhere negative (compare C71, where the sign of the boundary values is assumed). *)
Theorem C117_nonneg : forall g spL spU L U (n : nat -> nat -> R) cols v rho,
  grid_ok g -> fd_ok g 1 -> gL g / INR (Nr g) <= 1 ->
  solver_for (Nelem g) L spL -> solver_for (Nelem g) U spU ->
  (forall i j, (i < Nelem g)%nat -> (j < Nelem g)%nat -> matmul (Nelem g) L U i j = elap g i j) ->
  v_hartree g spL spU (A2 cols n) = Ok v ->
  let tot := fun k => sumR cols (fun s => n k s) in
  (forall k, (k < Nelem g)%nat -> 0 <= tot k /\ 0 <= gwi g k * tot k) ->
  inside g tot rho -> 0 <= rho -> 2 * rho <= r_ghosts g ->
  forall k, (k < Nelem g)%nat -> 0 <= entry v k 0.
Proof. exact nonneg_explicit. Qed.
Print Assumptions C117_nonneg.
(** Error against a smooth solution u of Poisson's equation: quadrature of the Coulomb integral at the ghost points,
    multipole truncation, and the second-order term of C108. *)
Theorem C117_error : forall g spL spU L U (n : nat -> nat -> R) cols v u uz uy uzz uzy uyy Ma Mr quad,
  grid_ok g -> fd_ok g 1 -> gL g / INR (Nr g) <= 1 -> 1 < sinh (2 * gL g) * sinh (gL g / INR (Nr g)) ->
  solver_for (Nelem g) L spL -> solver_for (Nelem g) U spU ->
  (forall i j, (i < Nelem g)%nat -> (j < Nelem g)%nat -> matmul (Nelem g) L U i j = elap g i j) ->
  v_hartree g spL spU (A2 cols n) = Ok v ->
  let tot := fun k => sumR cols (fun s => n k s) in
  fits g 1 1 u uz uy uzz uzy uyy -> fourth g (seen u (ga g)) Ma Mr ->
  (forall ia ir, is_point g ia ir ->
     lap_at uy uzz uyy (ga g) (node (Na g) PI ia) (node (Nr g) (gL g) ir) = - 4 * PI * tot (pos g ia ir)) ->
  (forall ia, (ia < Na g)%nat ->
     Rabs (coulomb_sum g tot (ghostZ g ia 0) (ghostY g ia 0) - u (ghostZ g ia 0) (ghostY g ia 0)) <= quad) ->
  forall ia ir, is_point g ia ir -> let t := node (Na g) PI ia in let m := node (Nr g) (gL g) ir in
  Rabs (entry v (pos g ia ir) 0 - seen u (ga g) t m)
  <= quad + (r_points g / r_ghosts g) ^ 8 / (r_ghosts g - r_points g) * abs_charge g tot
     + second_order g Ma Mr * (outer g ^ 2 - m ^ 2) / 4.
Proof. exact converges_explicit. Qed.
Print Assumptions C117_error.
(** Density 1 in one column: every hypothesis of C117_bound and C117_nonneg on a 2 x 2 grid. *)
Lemma C117_witness : exists spL spU L U v, grid_ok g_wide /\ fd_ok g_wide 1 /\ gL g_wide / INR (Nr g_wide) <= 1 /\
  1 < sinh (2 * gL g_wide) * sinh (gL g_wide / INR (Nr g_wide)) /\
  solver_for (Nelem g_wide) L spL /\ solver_for (Nelem g_wide) U spU /\
  (forall i j, (i < Nelem g_wide)%nat -> (j < Nelem g_wide)%nat -> matmul (Nelem g_wide) L U i j = elap g_wide i j) /\
  v_hartree g_wide spL spU (A2 1 (fun _ _ => 1)) = Ok v /\
  (forall k, (k < Nelem g_wide)%nat -> 0 <= sumR 1 (fun _ => 1) /\ 0 <= gwi g_wide k * sumR 1 (fun _ => 1)) /\
  inside g_wide (fun _ => sumR 1 (fun _ => 1)) (r_points g_wide) /\ 0 <= r_points g_wide /\ 2 * r_points g_wide <= r_ghosts g_wide.
Proof.
  pose proof wide_ok as G. assert (H1 : gL g_wide / INR (Nr g_wide) <= 1) by (rewrite wide_step; lra).
  destruct (three_point_ok g_wide G wide_fd H1) as (_ & sp & Hs).
  destruct (hartree_succeeds g_wide (fun b => b) sp 1 (fun _ _ => 1) wide_fd (Nr_pos g_wide)) as [(v & Ev) _].
  exists (fun b => b), sp, eye, (elap g_wide), v. split; [exact G|]. split; [exact wide_fd|]. split; [exact H1|]. split; [exact wide_separated|].
  split; [apply eye_solver|]. split; [exact Hs|]. split; [intros; apply eye_matmul; auto|]. split; [exact Ev|].
  split; [intros k Hk; rewrite wide_weights by exact Hk; simpl; lra|]. split; [apply points_within; exact G|].
  split; [apply points_nonneg; exact G|exact wide_half].
Qed.
(** The case of C108 on a 16 x 16 grid meets C117_error. *)
Lemma C117_error_witness : exists spL spU L U v Ma Mr quad, let n := fun _ _ : nat => 1 in let c := - (2 * PI / 3) in
  grid_ok g3p /\ fd_ok g3p 1 /\ gL g3p / INR (Nr g3p) <= 1 /\ 1 < sinh (2 * gL g3p) * sinh (gL g3p / INR (Nr g3p)) /\
  solver_for (Nelem g3p) L spL /\ solver_for (Nelem g3p) U spU /\
  (forall i j, (i < Nelem g3p)%nat -> (j < Nelem g3p)%nat -> matmul (Nelem g3p) L U i j = elap g3p i j) /\
  v_hartree g3p spL spU (A2 1 n) = Ok v /\
  fits g3p 1 1 (ball c) (fun z _ => 2 * c * z) (fun _ y => 2 * c * y) (fun _ _ => 2 * c) (fun _ _ => 0) (fun _ _ => 2 * c) /\
  fourth g3p (seen (ball c) (ga g3p)) Ma Mr /\
  (forall ia ir, is_point g3p ia ir ->
     lap_at (fun _ y => 2 * c * y) (fun _ _ => 2 * c) (fun _ _ => 2 * c) (ga g3p) (node (Na g3p) PI ia) (node (Nr g3p) (gL g3p) ir)
     = - 4 * PI * sumR 1 (fun s => n (pos g3p ia ir) s)) /\
  (forall ia, (ia < Na g3p)%nat ->
     Rabs (coulomb_sum g3p (fun k => sumR 1 (fun s => n k s)) (ghostZ g3p ia 0) (ghostY g3p ia 0)
           - ball c (ghostZ g3p ia 0) (ghostY g3p ia 0)) <= quad) /\
  is_point g3p 3 5.
Proof.
  destruct converging_case as (spL & spU & L & U & v & Ma & Mr & delta & G & F & H1 & HL & HU & HLU & Ev & Hu & HM & HP & _ & Hp).
  set (c := - (2 * PI / 3)) in *.
  destruct (finite_bound (Na g3p) (fun ia => coulomb_sum g3p (fun k => sumR 1 (fun s => 1)) (ghostZ g3p ia 0) (ghostY g3p ia 0)
           - ball c (ghostZ g3p ia 0) (ghostY g3p ia 0))) as (quad & HQ).
  exists spL, spU, L, U, v, Ma, Mr, quad. cbv zeta. fold c. do 3 (split; [assumption|]). split.
  { change (gL g3p) with 8. change (Nr g3p) with 16%nat. pose proof (sinh_ge (2 * 8) ltac:(lra)).
    assert (E : 8 / INR 16 = 1 / 2) by (simpl; field). rewrite E. pose proof (sinh_ge (1 / 2) ltac:(lra)). nra. }
  do 7 (split; [assumption|]). split; [exact HQ|exact Hp].
Qed.
