(** Vocabulary for the properties of the Hartree potential. *)
From Coq Require Import Reals List Arith.
From Verif Require Import Base GridModel GridSpec HartreeModel.
Local Open Scope R_scope.

(** A linear solver: returns a solution of M x = b for every b. *)
Definition solver_for (n : nat) (M : mat) (sp : vec -> vec) : Prop := forall b, solves n M b (sp b).
(** Non-singular matrix: trivial kernel. *)
Definition nonsing (n : nat) (M : mat) : Prop :=
  forall x, (forall i, (i < n)%nat -> sumR n (fun j => M i j * x j) = 0) -> forall i, (i < n)%nat -> x i = 0.

(** Distance of the Cartesian point (z, y) from the bond mid-point. *)
Definition rad (z y : R) : R := sqrt (z * z + y * y).

(** Multipole expansion up to order 7 about the mid-point of the density n, at the point (z, y). *)
Definition multipole (g : grid) (n : vec) (z y : R) : R :=
  sumR 8 (fun l =>
    integrate1 g (fun i => rad (gZ g i) (gY g i) ^ l * legendre l (gZ g i / rad (gZ g i) (gY g i)) * n i)
    / rad z y ^ (l + 1) * legendre l (z / rad z y)).

(** Cartesian coordinates of the ghost point with angular index i, q steps beyond the last radial node. *)
Definition ghostZ (g : grid) (i q : nat) : R := ga g * cosh (node (Nr g) (gL g) (Nr g + q)) * cos (node (Na g) PI i).
Definition ghostY (g : grid) (i q : nat) : R := ga g * sinh (node (Nr g) (gL g) (Nr g + q)) * sin (node (Na g) PI i).
