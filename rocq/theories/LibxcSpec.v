(** Independent vocabulary for the exchange-correlation layer. *)
From Coq Require Import Reals List Arith Lia ZArith Bool String.
From Verif Require Import Base GridModel LibxcModel.
Local Open Scope R_scope.

(** sum of u * f over the grid with the volume element (all quadrature weights one). *)
Definition vdot (g : grid) (u f : vec) : R := sumR (Nelem g) (fun k => gw g k * (u k * f k)).

(** sum of s * grad u . grad f with the volume element. *)
Definition dirichlet (g : grid) (s u f : vec) : R :=
  sumR (Nelem g) (fun k => gw g k * (s k * (gapply g (grada g) u k * gapply g (grada g) f k
                                           + gapply g (gradr g) u k * gapply g (gradr g) f k))).

Definition col (n : mat) (s : nat) : vec := fun k => n k s.

(** exchange of the two spin columns; exchange of the first and third of three columns *)
Definition swap2 (n : mat) : mat := fun k s => n k (1 - s)%nat.
Definition swap3 (n : mat) : mat := fun k s => n k (2 - s)%nat.

(** A library whose functional treats both spins alike. *)
Definition spin_symmetric (F : mat -> option mat -> xcout) : Prop :=
  (forall n k, xc_zk (F (swap2 n) None) k = xc_zk (F n None) k) /\
  (forall n k s, (s < 2)%nat -> xc_vrho (F (swap2 n) None) k s = xc_vrho (F n None) k (1 - s)%nat) /\
  (forall n sg sg', (forall k s, (s < 3)%nat -> sg' k s = sg k (2 - s)%nat) ->
     (forall k, xc_zk (F (swap2 n) (Some sg')) k = xc_zk (F n (Some sg)) k) /\
     (forall k s, (s < 2)%nat -> xc_vrho (F (swap2 n) (Some sg')) k s = xc_vrho (F n (Some sg)) k (1 - s)%nat) /\
     (forall k s, (s < 3)%nat -> xc_vsigma (F (swap2 n) (Some sg')) k s = xc_vsigma (F n (Some sg)) k (2 - s)%nat)).

(** A library that works point by point: equal ingredients give equal answers. *)
Definition same_sigma (q : nat) (sg sg' : option mat) (k k' : nat) : Prop :=
  match sg, sg' with
  | None, None => True
  | Some s, Some s' => forall j, (j < q)%nat -> s k j = s' k' j
  | _, _ => False
  end.
Definition pointwise (pol q : nat) (F : mat -> option mat -> xcout) : Prop :=
  forall n n' sg sg' k k', (forall s, (s < pol)%nat -> n k s = n' k' s) -> same_sigma q sg sg' k k' ->
    xc_zk (F n sg) k = xc_zk (F n' sg') k' /\
    (forall s, (s < pol)%nat -> xc_vrho (F n sg) k s = xc_vrho (F n' sg') k' s) /\
    (forall s, (s < q)%nat -> xc_vsigma (F n sg) k s = xc_vsigma (F n' sg') k' s).
