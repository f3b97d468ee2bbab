(** Independent vocabulary for the properties of the grid: points are pairs (ia, ir), arrays are
    read entry by entry, geometry is ordinary Cartesian geometry in the (Z, Y) half plane. *)
From Coq Require Import Reals List Arith ZArith.
From Verif Require Import Base GridModel Poly.
Import ListNotations.
Local Open Scope R_scope.

(** A usable grid: at least two points per block, at least one block, positive sizes. *)
Definition grid_ok (g : grid) : Prop :=
  (2 <= gNP g)%nat /\ (1 <= gNMa g)%nat /\ (1 <= gNMr g)%nat /\ 0 < ga g /\ 0 < gL g.

(** (ia, ir) is a point of the grid. *)
Definition is_point (g : grid) (ia ir : nat) : Prop := (ia < Na g)%nat /\ (ir < Nr g)%nat.

(** Position of the point (ia, ir) in flat arrays: angular index runs fastest. *)
Definition pos (g : grid) (ia ir : nat) : nat := (ia + Na g * ir)%nat.

(** Entry of a (Nelem,) or (Nelem, cols) array; 1-D arrays have one value for every s. *)
Definition entry {A : Type} (x : arr A) (k s : nat) : A :=
  match x with A1 f => f k | A2 _ f => f k s end.

(** Shape: None for 1-D, Some cols for 2-D. *)
Definition shape {A : Type} (x : arr A) : option nat :=
  match x with A1 _ => None | A2 c _ => Some c end.

(** Textbook half-shifted nodes. *)
Definition node (n : nat) (len : R) (i : nat) : R := (INR i + 1 / 2) * len / INR n.

(** Euclidean distance in the (Z, Y) half plane. *)
Definition dist2 (z y z' y' : R) : R := sqrt ((z - z') * (z - z') + (y - y') * (y - y')).

(** Stencil -b, ..., b. *)
Definition sym_stencil (b : nat) : list Z := map (fun i => (Z.of_nat i - Z.of_nat b)%Z) (seq 0 (2 * b + 1)).

(** Even / odd extension of a vector of length n across both ends: index -1-k is index k,
    index n+k is index n-1-k. [sg] is the sign picked up. *)
Definition reflect (n : nat) (sg : R) (v : vec) (z : Z) : R :=
  if (z <? 0)%Z then sg * v (Z.to_nat (- 1 - z))
  else if (z <? Z.of_nat n)%Z then v (Z.to_nat z)
  else sg * v (Z.to_nat (2 * Z.of_nat n - 1 - z)).

(** Extension across the inner end only, given values [out] beyond the outer end
    (out 0 is index n, out 1 is index n+1, ...). *)
Definition reflect_inner (n : nat) (sg : R) (v out : vec) (z : Z) : R :=
  if (z <? 0)%Z then sg * v (Z.to_nat (- 1 - z))
  else if (z <? Z.of_nat n)%Z then v (Z.to_nat z)
  else out (Z.to_nat (z - Z.of_nat n)).

(** Stencil -b..b with coefficients c applied at index p of data given on all integers. *)
Definition stencil (b : nat) (c : vec) (u : Z -> R) (p : nat) : R :=
  sumR (2 * b + 1) (fun j => c j * u (Z.of_nat p + (Z.of_nat j - Z.of_nat b))%Z).
