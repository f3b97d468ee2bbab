(** Vocabulary for the properties of the solver objects. *)
From Coq Require Import Reals List Arith Lia ZArith Bool.
From Verif Require Import Base GridModel GridSpec HartreeSpec SolverModel.
Local Open Scope R_scope.

(** Electrons per full orbital: two spins for an unpolarised solver, two signs of m for m <> 0. *)
Definition shell_size (m : Z) (pol : nat) : R :=
  (if (m =? 0)%Z then 1 else 2) * (if (pol =? 1)%nat then 2 else 1).

(** Aufbau filling of orbital i (between 0 and 1) with x orbitals' worth of electrons: with fractional
    occupation the remainder goes to the next orbital, otherwise it is dropped. *)
Definition aufbau (frac : bool) (x : R) (i : nat) : R :=
  if frac then Rmin 1 (Rmax 0 (x - INR i)) else if Rle_dec (INR i + 1) x then 1 else 0.
Definition filling (s : solver) (i : nat) : R := aufbau (s_frac s) (s_N s / shell_size (s_m s) (s_pol s)) i.

(** All occupied orbitals are among the first c. *)
Definition enough (s : solver) (c : nat) : Prop := forall i, 0 < filling s i -> (i < c)%nat.

(** Textbook density of the first c of the given orbitals. *)
Definition textbook_density (g : grid) (s : solver) (c : nat) (p : nat -> vec) (k : nat) : R :=
  sumR c (fun i => shell_size (s_m s) (s_pol s) * filling s i * (p i k ^ 2 / integrate1 g (fun x => p i x ^ 2))).
(** Occupation weighted sum of eigenvalues. *)
Definition textbook_band (s : solver) (c : nat) (e : vec) : R :=
  sumR c (fun i => shell_size (s_m s) (s_pol s) * filling s i * e i).

(** N is a whole number of shells. *)
Definition full_shells (s : solver) : Prop := exists n : nat, s_N s = INR n * shell_size (s_m s) (s_pol s).

Definition even_col (g : grid) (v : vec) : Prop := forall k, (k < Nelem g)%nat -> v k = mirror1 g v k.
Definition odd_col (g : grid) (v : vec) : Prop := forall k, (k < Nelem g)%nat -> v k = - mirror1 g v k.

(** (e, p) is an eigenpair of the discretised Schroedinger equation H0 p + w v p = e w p. *)
Definition eigenpair (g : grid) (H0 : mat) (v : vec) (e : R) (p : vec) : Prop :=
  forall k, (k < Nelem g)%nat -> sumR (Nelem g) (fun j => H0 k j * p j) + gw g k * v k * p k = e * gw g k * p k.

(** Residual of the eigenvalue equation exceeds tol somewhere. *)
Definition unconverged (g : grid) (H : mat) (tol e : R) (p : vec) : Prop :=
  exists k, (k < Nelem g)%nat /\ tol < Rabs (sumR (Nelem g) (fun j => H k j * p j) - e * gw g k * p k).
(** Kohn-Sham Hamiltonian of a solver (times the volume element). *)
Definition ks_ham (g : grid) (s : solver) : mat :=
  fun i j => hamiltonian g (s_m s) i j + (if (i =? j)%nat then gw g i * s_veff s i else 0).
(** v is c times p with c > 0 and integral of v^2 equal to occ. *)
Definition renormalised (g : grid) (occ : R) (p v : vec) : Prop :=
  integrate1 g (fun k => v k ^ 2) = occ /\ exists c, 0 < c /\ forall k, v k = c * p k.
(** Correction (u, mu) of an orbital p with eigenvalue e: Newton step for H p = e w p with the slightly
    regularised orthogonality condition used by the code. *)
Definition newton_step (g : grid) (H : mat) (e : R) (p0 p u : vec) (mu : R) : Prop :=
  (forall i, (i < Nelem g)%nat ->
    sumR (Nelem g) (fun j => H i j * u j) - e * gw g i * u i - mu * gw g i * p i
    = sumR (Nelem g) (fun j => H i j * p0 j) - e * gw g i * p0 i) /\
  sumR (Nelem g) (fun j => gw g j * p j * u j) = - (/ 10 ^ 12) * mu.
(** First-order change u (and eigenvalue change mu) of the normalised orbital p under the potential dv. *)
Definition first_order (g : grid) (H : mat) (e : R) (p dv u : vec) (mu : R) : Prop :=
  (forall i, (i < Nelem g)%nat ->
    sumR (Nelem g) (fun j => H i j * u j) - e * gw g i * u i = - gw g i * (dv i - mu) * p i) /\
  sumR (Nelem g) (fun j => gw g j * p j * u j) = 0.
