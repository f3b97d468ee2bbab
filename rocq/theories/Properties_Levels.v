(** Property C124: distance between computed and exact levels. *)
From Coq Require Import Reals List Arith Lia Lra ZArith Bool.
From Coquelicot Require Import Coquelicot.
From Verif Require Import Base BaseLemmas GridModel Poly GridSpec GridProofs FDProofs LapCont GridWitness GridMore HartreeModel HartreeSpec HartreeThms SolverModel SolverSpec
  MaxPrinciple Accuracy AccuracyOp Convergence ConvergenceWit GroundThms GroundSym GroundErr Properties_Ground.
Import ListNotations.
Local Open Scope R_scope.
Local Opaque sinh cosh.

(** * C124 *)
(** Every computed level e, every number E and every function f: the difference e - E times the weighted overlap of the orbital
    with f is the weighted sum of the orbital times the residual of f. *)
Theorem C124_identity : forall g m v e p E f, three_point g -> eigenpair g (hamiltonian g m) v e p ->
  (e - E) * sumR (Nelem g) (fun k => balance g k * gw g k * (p k * f k))
  = sumR (Nelem g) (fun k => balance g k * p k * (sumR (Nelem g) (fun j => hamiltonian g m k j * f j) + gw g k * v k * f k - E * gw g k * f k)).
Proof. intros g m v e p E f T. exact (level_residual g T m v e p E f). Qed.
Print Assumptions C124_identity.
(** A smooth solution u of the Schroedinger equation with level E, m = 0: a computed level differs from E, relative to the overlap of
    the two orbitals, by a term of second order in the steps and the values of u just beyond the outer boundary. *)
Theorem C124_level : forall g u uz uy uzz uzy uyy Ma Mr v E f e p, three_point g ->
  fits g 1 1 u uz uy uzz uzy uyy -> fourth g (seen u (ga g)) Ma Mr -> sampled g (seen u (ga g)) f ->
  (forall ia ir, is_point g ia ir -> let t := node (Na g) PI ia in let m := node (Nr g) (gL g) ir in
     - (1 / 2) * lap_at uy uzz uyy (ga g) t m + v (pos g ia ir) * seen u (ga g) t m = E * seen u (ga g) t m) ->
  eigenpair g (hamiltonian g 0) v e p ->
  Rabs (e - E) * Rabs (sumR (Nelem g) (fun k => balance g k * gw g k * (p k * f k)))
  <= 1 / 2 * second_order g Ma Mr * sumR (Nelem g) (fun k => balance g k * Rabs (p k) * row g k)
    + sumR (Nelem g) (fun k => balance g k * Rabs (p k) * lost g (fun ia => Rabs (seen u (ga g) (node (Na g) PI ia) (outer g))) k).
Proof. intros g u uz uy uzz uzy uyy Ma Mr v E f e p T. exact (level_error g T u uz uy uzz uzy uyy Ma Mr v E f e p). Qed.
Print Assumptions C124_level.
(** If u is positive on the grid and not negative just beyond it, the computed lowest level is at most the second-order term below E: cutting
    the domain can only raise it. *)
Theorem C124_from_below : forall g u uz uy uzz uzy uyy Ma Mr v E f a x, three_point g ->
  fits g 1 1 u uz uy uzz uzy uyy -> fourth g (seen u (ga g)) Ma Mr -> sampled g (seen u (ga g)) f ->
  (forall ia ir, is_point g ia ir -> let t := node (Na g) PI ia in let m := node (Nr g) (gL g) ir in
     - (1 / 2) * lap_at uy uzz uyy (ga g) t m + v (pos g ia ir) * seen u (ga g) t m = E * seen u (ga g) t m) ->
  (forall k, (k < Nelem g)%nat -> 0 < f k) -> (forall ia, (ia < Na g)%nat -> 0 <= seen u (ga g) (node (Na g) PI ia) (outer g)) ->
  ground g 0 v a x ->
  E - 1 / 2 * second_order g Ma Mr * sumR (Nelem g) (fun k => balance g k * x k * row g k) / sumR (Nelem g) (fun k => balance g k * gw g k * (x k * f k)) <= a.
Proof. intros g u uz uy uzz uzy uyy Ma Mr v E f a x T. exact (ground_below g T u uz uy uzz uzy uyy Ma Mr v E f a x). Qed.
Print Assumptions C124_from_below.

(** u = z^2 + y^2 solves the equation with E = 1 in the potential 1 + 3/(z^2 + y^2); on a 16 x 16 grid. *)
Lemma C124_witness : let F := seen (ball 1) (ga g3p) in
  exists Ma Mr v f a x, three_point g3p /\ fits g3p 1 1 (ball 1) (fun z _ => 2 * 1 * z) (fun _ y => 2 * 1 * y) (fun _ _ => 2 * 1) (fun _ _ => 0) (fun _ _ => 2 * 1) /\
  fourth g3p F Ma Mr /\ sampled g3p F f /\
  (forall ia ir, is_point g3p ia ir -> let t := node (Na g3p) PI ia in let m := node (Nr g3p) (gL g3p) ir in
     - (1 / 2) * lap_at (fun _ y => 2 * 1 * y) (fun _ _ => 2 * 1) (fun _ _ => 2 * 1) (ga g3p) t m + v (pos g3p ia ir) * F t m = 1 * F t m) /\
  (forall k, (k < Nelem g3p)%nat -> 0 < f k) /\ (forall ia, (ia < Na g3p)%nat -> 0 <= F (node (Na g3p) PI ia) (outer g3p)) /\
  ground g3p 0 v a x.
Proof.
  intros F. destruct (fourth_ball g3p 1) as (Ma & Mr & HM). exists Ma, Mr.
  set (f := fun k => F (t_at g3p k) (m_at g3p k)). set (v := fun k => 1 + 3 / f k). exists v, f.
  assert (T : three_point g3p) by exact g3p_spacing. destruct (ground_exists g3p T 0 v) as (a & x & G). exists a, x.
  assert (S : forall ia ir, is_point g3p ia ir -> f (pos g3p ia ir) = F (node (Na g3p) PI ia) (node (Nr g3p) (gL g3p) ir)).
  { intros ia ir [A B]. unfold f, t_at, m_at. rewrite pos_div, pos_mod by auto. reflexivity. }
  assert (P : forall ia ir, is_point g3p ia ir -> 0 < F (node (Na g3p) PI ia) (node (Nr g3p) (gL g3p) ir) /\ 0 < py (ga g3p) (node (Na g3p) PI ia) (node (Nr g3p) (gL g3p) ir)).
  { intros ia ir [A B]. assert (Y : 0 < py (ga g3p) (node (Na g3p) PI ia) (node (Nr g3p) (gL g3p) ir)).
    { unfold py. pose proof (shP g3p g3p_ok ir B). pose proof (snP g3p ia A). assert (0 < ga g3p) by apply g3p_ok. apply Rmult_lt_0_compat; [apply Rmult_lt_0_compat|]; auto. }
    split; [|exact Y]. unfold F, seen, ball. pose proof (pow2_ge_0 (pz (ga g3p) (node (Na g3p) PI ia) (node (Nr g3p) (gL g3p) ir))).
    assert (0 < py (ga g3p) (node (Na g3p) PI ia) (node (Nr g3p) (gL g3p) ir) ^ 2) by (apply pow_lt; auto). lra. }
  split; [exact T|]. split; [apply fits_ball|]. split; [exact HM|]. split; [exact S|]. split.
  - intros ia ir Hp t m. destruct (P ia ir Hp) as [P1 P2]. unfold v. rewrite (S ia ir Hp). fold t m in P1, P2 |- *. unfold lap_at. field. split; lra.
  - split; [intros k K; destruct (pos_surj g3p k K) as (ia & ir & Hp & ->); rewrite (S ia ir Hp); apply (P ia ir Hp)|]. split; [|exact G].
    intros ia _. unfold F, seen, ball. pose proof (pow2_ge_0 (pz (ga g3p) (node (Na g3p) PI ia) (outer g3p))). pose proof (pow2_ge_0 (py (ga g3p) (node (Na g3p) PI ia) (outer g3p))). lra.
Qed.
