(** Model of CADMium/hartree/hartree.py and CADMium/psgrid/factorize_laplacian.py. *)
From Coq Require Import Reals List Arith Lia ZArith Bool.
From Verif Require Import Base GridModel.
Import ListNotations.
Local Open Scope R_scope.

(** scipy.special.lpmv(0, k, x): the Legendre polynomial P_k (CADMium/hartree/hartree.py:6,44,54),
    by Bonnet's recurrence. *)
Fixpoint legendre (k : nat) (x : R) : R :=
  match k with
  | O => 1
  | S n => match n with
           | O => x
           | S m => ((2 * INR n + 1) * x * legendre n x - INR n * legendre m x) / (INR n + 1)
           end
  end.

(** CADMium/hartree/hartree.py:35-39 ("**0.5" is sqrt; its argument is shown non-negative in C22). *)
Definition ht_bZ (g : grid) : vec := fun j => ga g * cosh (bXr g j) * cos (bXa g j).
Definition ht_brho (g : grid) : vec := fun j => ga g * sqrt (cosh (bXr g j) ^ 2 + cos (bXa g j) ^ 2 - 1).
Definition ht_Z (g : grid) : vec := fun k => ga g * cosh (Xr g k) * cos (Xa g k).
Definition ht_rho (g : grid) : vec := fun k => ga g * sqrt (cosh (Xr g k) ^ 2 + cos (Xa g k) ^ 2 - 1).

(** CADMium/hartree/hartree.py:44,47 (k = 0, without the factor rho**0) and :54-55. *)
Definition ht_Q0 (g : grid) (nh : vec) : R :=
  integrate1 g (fun i => legendre 0 (ht_Z g i / ht_rho g i) * nh i).
Definition ht_Q (g : grid) (nh : vec) (k : nat) : R :=
  integrate1 g (fun i => ht_rho g i ^ k * legendre k (ht_Z g i / ht_rho g i) * nh i).

(** CADMium/hartree/hartree.py:50 and the loop :53-57, after [k] passes. *)
Fixpoint ht_bVh (g : grid) (nh : vec) (k : nat) : vec :=
  match k with
  | O => fun j => ht_Q0 g nh * (1 / ht_brho g j) * legendre 0 (ht_bZ g j / ht_brho g j)
  | S k' => fun j => ht_bVh g nh k' j
                    + ht_Q g nh k * (1 / ht_brho g j ^ (k + 1)) * legendre k (ht_bZ g j / ht_brho g j)
  end.

(** CADMium/hartree/hartree.py:32. *)
Definition n_multipole : nat := 7.

(** CADMium/hartree/hartree.py:60-70: right-hand side; the last bcN columns of the (Na, Nr) array get
    the boundary term. *)
Definition ht_rhs (g : grid) (nh : vec) : vec :=
  let b := fun k => - 4 * PI * gw g k * nh k in
  let bQ := matvec (Na g * bcN g) (blap g) (ht_bVh g nh n_multipole) in
  fun k =>
    let ia := (k mod Na g)%nat in
    let ir := (k / Na g)%nat in
    if (Nr g - bcN g <=? ir)%nat then b k - bQ (ia + Na g * (ir - (Nr g - bcN g)))%nat else b k.

(** np.sum(nh, axis=1) for an array with [cols] columns. *)
Definition sum_cols (cols : nat) (n : nat -> nat -> R) : vec := fun k => sumR cols (fun s => n k s).

(** CADMium/hartree/hartree.py:19-80. [spL], [spU] are spsolve(L_lap, .) and spsolve(U_lap, .).
    The slice assignment of line 69 needs 1 <= bcN <= Nr columns, otherwise numpy cannot
    broadcast bQ. Columns 2.. stay zero (np.zeros of line 74). *)
Definition v_hartree (g : grid) (spL spU : vec -> vec) (nh : arr R) : res (arr R) :=
  let pol := match nh with A1 _ => 1%nat | A2 c _ => c end in
  let tot := match nh with A1 f => f | A2 c f => sum_cols c f end in
  if (bcN g =? 0)%nat || (Nr g <? bcN g)%nat then Err ValueError
  else
    let v := spU (spL (ht_rhs g tot)) in
    if (pol =? 0)%nat then Err IndexError
    else Ok (A2 pol (fun k s =>
           if (s =? 0)%nat then v k
           else if (s =? 1)%nat && (pol =? 2)%nat then v k else 0)).

(** CADMium/hartree/hartree.py:82-90 (np.sum over axis 1 of a 1-D array raises AxisError, an
    IndexError). *)
Definition e_hartree (g : grid) (spL spU : vec -> vec) (nh : arr R) : res (arr R) :=
  match nh with
  | A1 _ => Err IndexError
  | A2 c f =>
      do vh <- v_hartree g spL spU (A1 (sum_cols c f));
      match vh with
      | A2 p v => Ok (A2 p (fun k s => 1 / 2 * v k s))
      | A1 v => Ok (A1 (fun k => 1 / 2 * v k))
      end
  end.

(** CADMium/psgrid/factorize_laplacian.py:15-17: splu(elap, permc_spec="NATURAL") gives L, U and a row
    permutation [pr] with  L U = elap with its rows reordered: row i of L U is row [pr i] of elap.
    Only L and U are stored. *)
Record splu_result : Type := mkSplu { lu_L : mat; lu_U : mat; lu_pr : nat -> nat }.
Definition splu_ok (n : nat) (A : mat) (r : splu_result) : Prop :=
  (forall i j, (i < n)%nat -> (j < n)%nat -> matmul n (lu_L r) (lu_U r) i j = A (lu_pr r i) j) /\
  (forall i, (i < n)%nat -> (lu_pr r i < n)%nat) /\
  (forall i j, (i < n)%nat -> (j < n)%nat -> lu_pr r i = lu_pr r j -> i = j).
