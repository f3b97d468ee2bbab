(** Vocabulary for the properties of the inverter. *)
From Coq Require Import Reals List Arith Lia ZArith Bool String.
From Verif Require Import Base GridModel GridSpec SolverModel SolverSpec KSModel InverterModel.
Import ListNotations.
Local Open Scope R_scope.

(** Quadrature weight of a grid point: integrate(f) is the sum of weight * f. *)
Definition weight (g : grid) (k : nat) : R := 2 * PI * hr g * ha g * gwi g k * gw g k.
(** Every grid point counts. *)
Definition full_quadrature (g : grid) : Prop := forall k, (k < Nelem g)%nat -> 0 < weight g k.

(** The unknown vector of orbitalinvert: M orbitals of N entries one after the other, then M-1 eigenvalues, then the
    potential. The M-th eigenvalue is 0 by convention. *)
Definition orb (N : nat) (x : vec) (i : nat) : vec := fun k => x (i * N + k)%nat.
Definition eigv (N M : nat) (x : vec) (i : nat) : R := if (S i <? M)%nat then x (M * N + i)%nat else 0.
Definition pot (N M : nat) (x : vec) : vec := fun k => x (M * N + (M - 1) + k)%nat.

(** Rows of the Newton system: Kohn-Sham equation of orbital i at point k; norm of orbital i; density at point k. *)
Definition ks_row (N i k : nat) : nat := (i * N + k)%nat.
Definition norm_row (N M i : nat) : nat := (M * N + i)%nat.
Definition dens_row (N M k : nat) : nat := (M * N + (M - 1) + k)%nat.

(** Residual of the eigenvalue equation H0 p + w v p = e w p at point k. *)
Definition schroed (g : grid) (H0 : mat) (v : vec) (e : R) (p : vec) (k : nat) : R :=
  sumR (Nelem g) (fun l => H0 k l * p l) + gw g k * v k * p k - e * gw g k * p k.

(** F is differentiable at 0 with derivative L and an error that is exactly quadratic. *)
Definition quadratic_step (F : R -> R) (L : R) : Prop := exists q, forall t, F t = F 0 + t * L + t ^ 2 * q.

(** Which kind of update orbitalinvert uses at unknown x, [avoid_loop] off: Newton if the density residual dominates
    or the Kohn-Sham residual is already small. *)
Definition newton_wanted (o : invopt) (ks n : num) : bool := gtb n (nmulr ks (io_resf o)) || gtb (Fin (io_tol o * 100)) ks.
(** The residuals have stalled: ks, n now; ks1 one pass ago; ks2, n2 two passes ago. *)
Definition stalled (ks n ks1 ks2 n2 : R) : Prop :=
  Rmax ks n < / 10 ^ 6 /\ ks1 / 10 < ks < 10 * ks2 /\ n2 / 10 < n < 10 * n2.
(** Passes of the loop, latest unknown first. *)
Inductive passes {X : Type} (o : invopt) (kres : X -> num * num) (update : bool -> X -> res X) : list X -> oloop X -> Prop :=
| passes_start : forall x, passes o kres update [] (o_start x)
| passes_step : forall l st st', passes o kres update l st -> o_step o kres update st = Ok (st', false) ->
    passes o kres update (ol_x st :: l) st'.

(** Von Weizsaecker potential of a density: the Kohn-Sham potential (measured from the eigenvalue) of a doubly occupied
    orbital with that density. *)
Definition vW_potential (g : grid) (n : vec) (k : nat) : R := gapply g (elap g) (fun x => sqrt (n x)) k / (2 * (sqrt (n k) * gw g k)).
(** Relative error of a density. *)
Definition rel_err (n0 n : vec) (k : nat) : R := (n k - n0 k) / n0 k.
(** Fixed-point passes of simple for a single solver: number of passes made, largest relative error seen in the last one,
    potential and solver afterwards. Each pass adds a tenth of the relative error of the density to the potential. *)
Inductive fp_run (g : grid) (E : invenv) (n0 : vec) (tol : R) (v0 : vec) (s0 : solver) : nat -> R -> vec -> solver -> Prop :=
| fp_start : fp_run g E n0 tol v0 s0 0 1 v0 s0
| fp_pass : forall p opt v s r n, fp_run g E n0 tol v0 s0 p opt v s -> tol < opt ->
    v_orb E (set_veff s v) = Ok r -> calc_density g (set_result (set_veff s v) r) = Ok n ->
    fp_run g E n0 tol v0 s0 (S p) (maxabs (Nelem g) (rel_err n0 n)) (fun k => v k + rel_err n0 n k / 10)
      (set_veff (set_result (set_veff s v) r) (fun k => v k + rel_err n0 n k / 10)).
