(** Shared vocabulary of the model: Python exceptions as values, finite sums,
    numpy arrays as functions, extended floating point numbers.
    Nothing here is specific to one source file; each definition says which
    Python/numpy construct of /repo it stands for. *)
From Coq Require Import Reals List Arith Lia ZArith String.
Import ListNotations.
Local Open Scope R_scope.

(** Python exception classes that the modelled code can raise
    (e.g. CADMium/psgrid/sigma.py:22 ValueError, CADMium/kohnsham/scf.py:107 NameError,
    CADMium/partition/scf.py:231 SystemExit). [NotFinite] is not a Python exception: it marks that an array
    has received an infinite or NaN entry; the Python program carries on with that array, the model (whose
    arrays hold real numbers) does not. No theorem claims anything about what happens after it. *)
Inductive exn : Type :=
| IndexError | TypeError | AttributeError | NameError | UnboundLocalError
| KeyError | ValueError | ZeroDivisionError | AssertionError | SystemExit | NotFinite.

(** Result of running Python code: a value or a raised exception. *)
Inductive res (A : Type) : Type :=
| Ok (a : A)
| Err (e : exn).
Arguments Ok {A} a.
Arguments Err {A} e.

Definition bind {A B : Type} (m : res A) (k : A -> res B) : res B :=
  match m with Ok a => k a | Err e => Err e end.
Notation "'do' x <- m ; k" := (bind m (fun x => k))
  (at level 200, x name, m at level 100, k at level 200, right associativity).

Definition is_ok {A : Type} (m : res A) : Prop := exists a, m = Ok a.

(** numpy sum over a 1-D array of length n (np.sum, and each entry of "@"). *)
Fixpoint sumR (n : nat) (f : nat -> R) : R :=
  match n with
  | O => 0
  | S k => sumR k f + f k
  end.

(** Sum of a list of reals. *)
Fixpoint sumL (l : list R) : R :=
  match l with
  | nil => 0
  | x :: r => x + sumL r
  end.

(** 1-D and 2-D numpy arrays (a vector of length n is used at indices < n). *)
Definition vec := nat -> R.
Definition mat := nat -> nat -> R.

(** Matrix times vector ("@" on numpy / scipy.sparse), inner dimension n. *)
Definition matvec (n : nat) (M : mat) (v : vec) : vec :=
  fun i => sumR n (fun j => M i j * v j).

(** Matrix times matrix, inner dimension n. *)
Definition matmul (n : nat) (A B : mat) : mat :=
  fun i j => sumR n (fun k => A i k * B k j).

(** Transpose (".T"). *)
Definition transp (A : mat) : mat := fun i j => A j i.

(** Floating point numbers where NaN and infinities decide control flow. *)
Inductive num : Type :=
| Fin (r : R)
| PInf
| NInf
| NaN.

(** Python/IEEE "x > y": every comparison with NaN is False. *)
Definition gtb (x y : num) : bool :=
  match x, y with
  | NaN, _ | _, NaN => false
  | PInf, PInf => false
  | PInf, _ => true
  | _, PInf => false
  | NInf, _ => false
  | Fin _, NInf => true
  | Fin a, Fin b => if Rlt_dec b a then true else false
  end.

(** Python builtin max(a, b): returns b only if b > a. *)
Definition pymax (a b : num) : num := if gtb b a then b else a.

(** IEEE division of two finite numbers. *)
Definition ndiv (x y : R) : num :=
  if Req_EM_T y 0 then
    (if Req_EM_T x 0 then NaN else if Rlt_dec 0 x then PInf else NInf)
  else Fin (x / y).
