(** Properties C20, C21, C22, C70, C71: the Hartree potential. *)
From Coq Require Import Reals List Arith Lia Lra ZArith Bool.
From Verif Require Import Base BaseLemmas GridModel Poly GridSpec GridProofs NCProofs FDProofs OpProofs GridWitness GridMore
  HartreeModel HartreeSpec HartreeProofs LinAlg MaxPrinciple HartreeThms.
Import ListNotations.
Local Open Scope R_scope.
Local Opaque sinh cosh legendre.

(** The factors stored by the grid, with their solvers: SciPy's spsolve on two non-singular matrices. *)
(** * C20 *)
Theorem C20_linear : forall (g : grid) spL spU L U cols (n m : nat -> nat -> R) c,
  solver_for (Nelem g) L spL -> solver_for (Nelem g) U spU -> nonsing (Nelem g) L -> nonsing (Nelem g) U ->
  forall vn vm vs, v_hartree g spL spU (A2 cols n) = Ok vn -> v_hartree g spL spU (A2 cols m) = Ok vm ->
  v_hartree g spL spU (A2 cols (fun k s => c * n k s + m k s)) = Ok vs ->
  forall k s, (k < Nelem g)%nat -> entry vs k s = c * entry vn k s + entry vm k s.
Proof. exact hartree_linear. Qed.
Print Assumptions C20_linear.
Theorem C20_only_total_density : forall (g : grid) spL spU L U cols (n : nat -> nat -> R) m,
  solver_for (Nelem g) L spL -> solver_for (Nelem g) U spU -> nonsing (Nelem g) L -> nonsing (Nelem g) U ->
  (forall k, (k < Nelem g)%nat -> sumR cols (fun s => n k s) = m k) ->
  forall v v', v_hartree g spL spU (A2 cols n) = Ok v -> v_hartree g spL spU (A1 m) = Ok v' ->
  forall k, (k < Nelem g)%nat -> entry v k 0 = entry v' k 0 /\ shape v = Some cols /\ shape v' = Some 1%nat.
Proof. exact hartree_total. Qed.
Print Assumptions C20_only_total_density.
Theorem C20_columns_equal : forall (g : grid) spL spU (n : nat -> nat -> R) v,
  v_hartree g spL spU (A2 2 n) = Ok v -> forall k, entry v k 1 = entry v k 0.
Proof. exact hartree_columns. Qed.
Print Assumptions C20_columns_equal.
Theorem C20_zero : forall (g : grid) spL spU L U cols (n : nat -> nat -> R) v,
  solver_for (Nelem g) L spL -> solver_for (Nelem g) U spU -> nonsing (Nelem g) L -> nonsing (Nelem g) U ->
  (forall k s, (k < Nelem g)%nat -> n k s = 0) ->
  v_hartree g spL spU (A2 cols n) = Ok v -> forall k s, (k < Nelem g)%nat -> entry v k s = 0.
Proof. exact hartree_zero. Qed.
Print Assumptions C20_zero.
(** e_hartree is half the potential of the summed density, one column whatever the number of spins *)
Theorem C20_energy_density : forall (g : grid) spL spU cols (n : nat -> nat -> R) v,
  v_hartree g spL spU (A1 (fun k => sumR cols (fun s => n k s))) = Ok v ->
  exists e, e_hartree g spL spU (A2 cols n) = Ok e /\ shape e = Some 1%nat /\
  forall k s, entry e k s = entry v k s / 2.
Proof. exact e_hartree_half. Qed.
Print Assumptions C20_energy_density.
(** spin-restricted and spin-polarised calls succeed on every grid whose stencil fits *)
Theorem C20_succeeds : forall (g : grid) spL spU b n, fd_ok g b -> (b <= Nr g)%nat ->
  is_ok (v_hartree g spL spU (A2 1 n)) /\ is_ok (v_hartree g spL spU (A2 2 n)).
Proof. exact hartree_succeeds. Qed.
Print Assumptions C20_succeeds.
Lemma C20_witness : exists spL spU L U, fd_ok g3p 1 /\
  solver_for (Nelem g3p) L spL /\ solver_for (Nelem g3p) U spU /\ nonsing (Nelem g3p) L /\ nonsing (Nelem g3p) U /\
  (forall i j, (i < Nelem g3p)%nat -> (j < Nelem g3p)%nat -> matmul (Nelem g3p) L U i j = elap g3p i j).
Proof. exact g3p_factors. Qed.

(** * C21 *)
(** elap v plus the boundary operator on the multipole values on the ghost points, i.e. the
    Laplacian stencil of C15/C16 on the extended data, equals -4 pi w n. *)
Theorem C21_poisson : forall (g : grid) spL spU L U b (n : nat -> nat -> R) cols v,
  grid_ok g -> fd_ok g b -> (b <= Na g)%nat -> (b <= Nr g)%nat ->
  solver_for (Nelem g) L spL -> solver_for (Nelem g) U spU ->
  (forall i j, (i < Nelem g)%nat -> (j < Nelem g)%nat -> matmul (Nelem g) L U i j = elap g i j) ->
  v_hartree g spL spU (A2 cols n) = Ok v ->
  let tot := fun k => sumR cols (fun s => n k s) in
  let ghost := fun i q => multipole g tot (ghostZ g i q) (ghostY g i q) in
  forall ia ir, is_point g ia ir ->
  lap_form g b 1 (fun k => entry v k 0) ghost ia ir = - 4 * PI * gw g (pos g ia ir) * tot (pos g ia ir).
Proof. exact hartree_poisson. Qed.
Print Assumptions C21_poisson.
Theorem C21_row_pivoting : forall (g : grid) spL spU r (n : vec) v,
  splu_ok (Nelem g) (elap g) r -> solver_for (Nelem g) (lu_L r) spL -> solver_for (Nelem g) (lu_U r) spU ->
  v_hartree g spL spU (A1 n) = Ok v ->
  (forall i, (i < Nelem g)%nat -> gapply g (elap g) (fun k => entry v k 0) (lu_pr r i) = ht_rhs g n i) /\
  (solves (Nelem g) (elap g) (ht_rhs g n) (fun k => entry v k 0)
   <-> forall i, (i < Nelem g)%nat -> ht_rhs g n (lu_pr r i) = ht_rhs g n i).
Proof. exact hartree_pivot. Qed.
Print Assumptions C21_row_pivoting.
Lemma C21_witness : exists spL spU r, splu_ok (Nelem g3p) (elap g3p) r /\
  solver_for (Nelem g3p) (lu_L r) spL /\ solver_for (Nelem g3p) (lu_U r) spU /\ lu_pr r 0%nat = 1%nat.
Proof. exact g3p_pivoted. Qed.

(** * C22 *)
Theorem C22_interior : forall (g : grid) k, grid_ok g -> (k < Nelem g)%nat ->
  ht_Z g k = gZ g k /\ ht_rho g k = sqrt (gZ g k * gZ g k + gY g k * gY g k) /\
  0 < ht_rho g k /\ Rabs (ht_Z g k / ht_rho g k) <= 1 /\ 0 <= cosh (Xr g k) ^ 2 + cos (Xa g k) ^ 2 - 1.
Proof. exact interior_rho. Qed.
Print Assumptions C22_interior.
Theorem C22_boundary : forall (g : grid) i q, grid_ok g -> (i < Na g)%nat -> (q < bcN g)%nat ->
  let j := (i + Na g * q)%nat in
  ht_bZ g j = ghostZ g i q /\ ht_brho g j = sqrt (ghostZ g i q * ghostZ g i q + ghostY g i q * ghostY g i q) /\
  0 < ht_brho g j /\ Rabs (ht_bZ g j / ht_brho g j) <= 1 /\ 0 <= cosh (bXr g j) ^ 2 + cos (bXa g j) ^ 2 - 1.
Proof. exact boundary_rho. Qed.
Print Assumptions C22_boundary.
(** The potential on the ghost points is the multipole expansion in these distances and angles. *)
Theorem C22_expansion : forall (g : grid) n b i q, grid_ok g -> bcN g = b -> (i < Na g)%nat -> (q < b)%nat ->
  ht_bVh g n n_multipole (i + Na g * q)%nat = multipole g n (ghostZ g i q) (ghostY g i q).
Proof. exact ht_bVh_multipole. Qed.
Print Assumptions C22_expansion.
(** sanity of the Legendre polynomials used in the specification *)
Theorem C22_legendre : (forall n, legendre n 1 = 1) /\ (forall n x, legendre n (- x) = (-1) ^ n * legendre n x) /\
  (forall x, legendre 0 x = 1 /\ legendre 1 x = x /\ legendre 2 x = (3 * x ^ 2 - 1) / 2 /\
             legendre 3 x = (5 * x ^ 3 - 3 * x) / 2).
Proof. exact legendre_facts. Qed.
Print Assumptions C22_legendre.
Lemma C22_witness : grid_ok g_test /\ (128 < Nelem g_test)%nat /\ (3 < Na g_test)%nat /\ (2 < bcN g_test)%nat.
Proof. repeat split; try (compute; lia); simpl; lra. Qed.

(** * C70 *)
Theorem C70_hartree_mirror : forall (g : grid) b spL spU L U cols (n : nat -> nat -> R) v v',
  grid_ok g -> lstsq_ok g -> gNMa g = gNMr g -> (2 <= gNMa g)%nat -> fd_ok g b -> (b <= Na g)%nat -> (b <= Nr g)%nat ->
  solver_for (Nelem g) L spL -> solver_for (Nelem g) U spU -> nonsing (Nelem g) L -> nonsing (Nelem g) U ->
  (forall i j, (i < Nelem g)%nat -> (j < Nelem g)%nat -> matmul (Nelem g) L U i j = elap g i j) ->
  nonsing (Nelem g) (elap g) ->
  v_hartree g spL spU (A2 cols n) = Ok v -> v_hartree g spL spU (mirror g (A2 cols n)) = Ok v' ->
  forall k s, (k < Nelem g)%nat -> entry v' k s = entry (mirror g v) k s.
Proof. exact hartree_mirror_thm. Qed.
Print Assumptions C70_hartree_mirror.
Lemma C70_witness : grid_ok g3p /\ lstsq_ok g3p /\ gNMa g3p = gNMr g3p /\ (2 <= gNMa g3p)%nat /\ fd_ok g3p 1 /\
  (1 <= Na g3p)%nat /\ (1 <= Nr g3p)%nat /\ nonsing (Nelem g3p) (elap g3p).
Proof. exact g3p_mirror_hyps. Qed.

(** * C71 *)
Theorem C71_nonsingular : forall (g : grid), grid_ok g -> fd_ok g 1 -> gL g / INR (Nr g) <= 1 ->
  nonsing (Nelem g) (elap g) /\ exists sp, solver_for (Nelem g) (elap g) sp.
Proof. exact three_point_ok. Qed.
Print Assumptions C71_nonsingular.
Theorem C71_maximum_principle : forall (g : grid), grid_ok g -> fd_ok g 1 -> gL g / INR (Nr g) <= 1 ->
  forall x out, (forall ia, (ia < Na g)%nat -> out ia 0%nat <= 0) ->
  (forall ia ir, is_point g ia ir -> 0 <= lap_form g 1 1 x out ia ir) ->
  forall k, (k < Nelem g)%nat -> x k <= 0.
Proof. exact max_principle. Qed.
Print Assumptions C71_maximum_principle.
Theorem C71_hartree_nonneg : forall (g : grid) spL spU L U (n : nat -> nat -> R) cols v,
  grid_ok g -> fd_ok g 1 -> gL g / INR (Nr g) <= 1 ->
  solver_for (Nelem g) L spL -> solver_for (Nelem g) U spU ->
  (forall i j, (i < Nelem g)%nat -> (j < Nelem g)%nat -> matmul (Nelem g) L U i j = elap g i j) ->
  v_hartree g spL spU (A2 cols n) = Ok v ->
  let tot := fun k => sumR cols (fun s => n k s) in
  (forall k, (k < Nelem g)%nat -> 0 <= tot k) ->
  (forall ia, (ia < Na g)%nat -> 0 <= multipole g tot (ghostZ g ia 0) (ghostY g ia 0)) ->
  forall k, (k < Nelem g)%nat -> 0 <= entry v k 0.
Proof. exact hartree_nonneg. Qed.
Print Assumptions C71_hartree_nonneg.
Lemma C71_witness : grid_ok g3p /\ fd_ok g3p 1 /\ gL g3p / INR (Nr g3p) <= 1.
Proof. exact g3p_spacing. Qed.
