(** Properties C108-C109: convergence and stability of the Hartree potential with the three-point stencil. *)
From Coq Require Import Reals List Lia Lra ZArith.
From Coquelicot Require Import Coquelicot.
From Verif Require Import Base BaseLemmas GridModel Poly GridSpec GridProofs FDProofs OpProofs LapCont GridWitness GridMore
  SolverModel HartreeModel HartreeSpec HartreeProofs LinAlg MaxPrinciple HartreeThms Accuracy AccuracyOp AccuracyWit Convergence ConvergenceWit.
Import ListNotations.
Local Open Scope R_scope.
Local Opaque sinh cosh.

(** * C108 *)
(** v_hartree against a smooth solution u of Poisson's equation with the given density: the error is at most the
    error delta of the multipole values just beyond the outer boundary plus second_order, which is quadratic in the
    two steps, times a paraboloid that vanishes there. *)
Theorem C108_hartree_converges : forall g spL spU L U (n : nat -> nat -> R) cols v u uz uy uzz uzy uyy Ma Mr delta,
  grid_ok g -> fd_ok g 1 -> gL g / INR (Nr g) <= 1 ->
  solver_for (Nelem g) L spL -> solver_for (Nelem g) U spU ->
  (forall i j, (i < Nelem g)%nat -> (j < Nelem g)%nat -> matmul (Nelem g) L U i j = elap g i j) ->
  v_hartree g spL spU (A2 cols n) = Ok v ->
  let tot := fun k => sumR cols (fun s => n k s) in
  fits g 1 1 u uz uy uzz uzy uyy -> fourth g (seen u (ga g)) Ma Mr ->
  (forall ia ir, is_point g ia ir ->
     lap_at uy uzz uyy (ga g) (node (Na g) PI ia) (node (Nr g) (gL g) ir) = - 4 * PI * tot (pos g ia ir)) ->
  (forall ia, (ia < Na g)%nat ->
     Rabs (multipole g tot (ghostZ g ia 0) (ghostY g ia 0) - u (ghostZ g ia 0) (ghostY g ia 0)) <= delta) ->
  forall ia ir, is_point g ia ir -> let t := node (Na g) PI ia in let m := node (Nr g) (gL g) ir in
  Rabs (entry v (pos g ia ir) 0 - seen u (ga g) t m) <= delta + second_order g Ma Mr * (outer g ^ 2 - m ^ 2) / 4.
Proof. exact hartree_converges. Qed.
Print Assumptions C108_hartree_converges.

(** The same counted in points: the second term falls at least like the inverse square of the number of points. *)
Theorem C108_points : forall g Ma Mr m N, grid_ok g -> gL g / INR (Nr g) <= 1 -> 0 <= Ma -> 0 <= Mr ->
  (0 < N)%nat -> (N <= Na g)%nat -> (N <= Nr g)%nat ->
  second_order g Ma Mr * (outer g ^ 2 - m ^ 2) / 4
  <= (7 / 12 * Ma * PI ^ 2 + (7 / 12 + gL g / 2) * Mr * gL g ^ 2) * (gL g + 1) ^ 2 / 4 / INR N ^ 2.
Proof. exact refinement. Qed.
Print Assumptions C108_points.

(** The equations themselves: a smooth even function satisfies each row up to second_order, relative to the factor
    a sin t sinh m of the row; uniformly up to the axis and up to the bond. *)
Theorem C108_consistent : forall u uz uy uzz uzy uyy g Ma Mr, grid_ok g -> fd_ok g 1 -> fits g 1 1 u uz uy uzz uzy uyy ->
  fourth g (seen u (ga g)) Ma Mr -> forall f out ia ir, is_point g ia ir -> sampled g (seen u (ga g)) f ->
  let t := node (Na g) PI ia in let m := node (Nr g) (gL g) ir in
  out ia 0%nat = seen u (ga g) t (outer g) ->
  Rabs (lap_form g 1 1 f out ia ir - gw g (pos g ia ir) * lap_at uy uzz uyy (ga g) t m)
  <= second_order g Ma Mr * (ga g * sin t * sinh m).
Proof. intros u uz uy uzz uzy uyy g Ma Mr Hg Hf Hu HM. exact (consistent u uz uy uzz uzy uyy g Ma Mr Hg Hf Hu HM). Qed.
Print Assumptions C108_consistent.
(** Density 1 everywhere, u = -2 pi/3 (z^2 + y^2), on a 16 x 16 grid. *)
Lemma C108_witness : exists spL spU L U v Ma Mr delta, let n := fun _ _ : nat => 1 in let c := - (2 * PI / 3) in
  grid_ok g3p /\ fd_ok g3p 1 /\ gL g3p / INR (Nr g3p) <= 1 /\
  solver_for (Nelem g3p) L spL /\ solver_for (Nelem g3p) U spU /\
  (forall i j, (i < Nelem g3p)%nat -> (j < Nelem g3p)%nat -> matmul (Nelem g3p) L U i j = elap g3p i j) /\
  v_hartree g3p spL spU (A2 1 n) = Ok v /\
  fits g3p 1 1 (ball c) (fun z _ => 2 * c * z) (fun _ y => 2 * c * y) (fun _ _ => 2 * c) (fun _ _ => 0) (fun _ _ => 2 * c) /\
  fourth g3p (seen (ball c) (ga g3p)) Ma Mr /\
  (forall ia ir, is_point g3p ia ir ->
     lap_at (fun _ y => 2 * c * y) (fun _ _ => 2 * c) (fun _ _ => 2 * c) (ga g3p) (node (Na g3p) PI ia) (node (Nr g3p) (gL g3p) ir)
     = - 4 * PI * sumR 1 (fun s => n (pos g3p ia ir) s)) /\
  (forall ia, (ia < Na g3p)%nat ->
     Rabs (multipole g3p (fun k => sumR 1 (fun s => n k s)) (ghostZ g3p ia 0) (ghostY g3p ia 0)
           - ball c (ghostZ g3p ia 0) (ghostY g3p ia 0)) <= delta) /\
  is_point g3p 3 5.
Proof. exact converging_case. Qed.

(** * C109 *)
(** Two densities that differ by at most N, with boundary values that differ by at most delta. *)
Theorem C109_hartree_continuous : forall g spL spU L U (n n' : nat -> nat -> R) cols cols' v v' N delta,
  grid_ok g -> fd_ok g 1 -> gL g / INR (Nr g) <= 1 ->
  solver_for (Nelem g) L spL -> solver_for (Nelem g) U spU ->
  (forall i j, (i < Nelem g)%nat -> (j < Nelem g)%nat -> matmul (Nelem g) L U i j = elap g i j) ->
  v_hartree g spL spU (A2 cols n) = Ok v -> v_hartree g spL spU (A2 cols' n') = Ok v' ->
  let tot := fun k => sumR cols (fun s => n k s) in let tot' := fun k => sumR cols' (fun s => n' k s) in
  (forall k, (k < Nelem g)%nat -> Rabs (tot k - tot' k) <= N) ->
  (forall ia, (ia < Na g)%nat ->
     Rabs (multipole g tot (ghostZ g ia 0) (ghostY g ia 0) - multipole g tot' (ghostZ g ia 0) (ghostY g ia 0)) <= delta) ->
  forall ia ir, is_point g ia ir -> let m := node (Nr g) (gL g) ir in
  Rabs (entry v (pos g ia ir) 0 - entry v' (pos g ia ir) 0)
  <= delta + PI * (ga g * cosh (gL g)) ^ 2 * N * (outer g ^ 2 - m ^ 2).
Proof. exact hartree_close. Qed.
Print Assumptions C109_hartree_continuous.

(** A priori bound. *)
Theorem C109_hartree_bound : forall g spL spU L U (n : nat -> nat -> R) cols v N delta,
  grid_ok g -> fd_ok g 1 -> gL g / INR (Nr g) <= 1 ->
  solver_for (Nelem g) L spL -> solver_for (Nelem g) U spU ->
  (forall i j, (i < Nelem g)%nat -> (j < Nelem g)%nat -> matmul (Nelem g) L U i j = elap g i j) ->
  v_hartree g spL spU (A2 cols n) = Ok v ->
  let tot := fun k => sumR cols (fun s => n k s) in
  (forall k, (k < Nelem g)%nat -> Rabs (tot k) <= N) ->
  (forall ia, (ia < Na g)%nat -> Rabs (multipole g tot (ghostZ g ia 0) (ghostY g ia 0)) <= delta) ->
  forall ia ir, is_point g ia ir -> let m := node (Nr g) (gL g) ir in
  Rabs (entry v (pos g ia ir) 0) <= delta + PI * (ga g * cosh (gL g)) ^ 2 * N * (outer g ^ 2 - m ^ 2).
Proof. exact hartree_bound. Qed.
Print Assumptions C109_hartree_bound.

(** Any two densities meet the hypotheses with some N and delta; here 1 in one column and 1/2 in each of two. *)
Lemma C109_witness : exists spL spU L U v v', grid_ok g3p /\ fd_ok g3p 1 /\ gL g3p / INR (Nr g3p) <= 1 /\
  solver_for (Nelem g3p) L spL /\ solver_for (Nelem g3p) U spU /\
  (forall i j, (i < Nelem g3p)%nat -> (j < Nelem g3p)%nat -> matmul (Nelem g3p) L U i j = elap g3p i j) /\
  v_hartree g3p spL spU (A2 1 (fun _ _ => 1)) = Ok v /\ v_hartree g3p spL spU (A2 2 (fun k s => 1 / 2 + INR s)) = Ok v' /\
  (forall k, (k < Nelem g3p)%nat -> Rabs (sumR 1 (fun _ => 1) - sumR 2 (fun s => 1 / 2 + INR s)) <= 1) /\
  exists delta, forall ia, (ia < Na g3p)%nat ->
    Rabs (multipole g3p (fun _ => sumR 1 (fun _ => 1)) (ghostZ g3p ia 0) (ghostY g3p ia 0)
          - multipole g3p (fun _ => sumR 2 (fun s => 1 / 2 + INR s)) (ghostZ g3p ia 0) (ghostY g3p ia 0)) <= delta.
Proof.
  destruct g3p_spacing as (A & B & C). destruct g3p_factors as (spL & spU & L & U & _ & HL & HU & _ & _ & HLU).
  destruct (hartree_succeeds g3p spL spU 1 (fun _ _ => 1) B (Nr_pos g3p)) as [(v & Ev) _].
  destruct (hartree_succeeds g3p spL spU 1 (fun _ s => 1 / 2 + INR s) B (Nr_pos g3p)) as [_ (v' & Ev')].
  exists spL, spU, L, U, v, v'. split; [exact A|]. split; [exact B|]. split; [exact C|]. split; [exact HL|].
  split; [exact HU|]. split; [exact HLU|]. split; [exact Ev|]. split; [exact Ev'|]. split.
  - intros k _. simpl. rewrite Rabs_left1; lra.
  - apply finite_bound with (f := fun ia => _ - _).
Qed.
