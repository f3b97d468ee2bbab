(** Functions that no calculation calls but that users can: the plot arrays of the grid and the surprisal of a
    partition. *)
From Coq Require Import Reals List Arith Bool String.
From Verif Require Import Base GridModel HartreeModel SolverModel LibxcModel OptionsModel KSModel InverterModel PartitionModel.
Import ListNotations.
Local Open Scope R_scope.

(** np.hstack((np.flip(l, axis=1), r)) of two arrays with [c] columns (CADMium/psgrid/plotter.py:14). *)
Definition hpair (c : nat) (l r : mat) : mat := fun i j => if (j <? c)%nat then l i (c - 1 - j)%nat else r i (j - c)%nat.
(** np.vstack((np.flip(M[0,:]), M, np.flip(M[-1,:]))) of an array of shape (r, c) (CADMium/psgrid/plotter.py:15). *)
Definition vcap (r c : nat) (M : mat) : mat :=
  fun i j => if (i =? 0)%nat then M 0%nat (c - 1 - j)%nat
             else if (i <=? r)%nat then M (i - 1)%nat j
             else M (r - 1)%nat (c - 1 - j)%nat.
(** CADMium/psgrid/plotter.py:13-15 for a left half multiplied by [s]. *)
Definition plot_array (g : grid) (s : R) (f : vec) : mat :=
  vcap (Na g) (2 * Nr g) (hpair (Nr g) (fun i j => s * square g f i j 0%nat) (fun i j => square g f i j 0%nat)).
(** CADMium/psgrid/plotter.py:7-34: (full, Zf, Xf); the argument max is not used. With a single row or column of
    points np.squeeze leaves fewer than two dimensions and np.flip(axis=1) raises numpy.AxisError, a ValueError; for an
    array of several columns np.vstack meets arrays of different dimension, a ValueError. *)
Definition plotter (g : grid) (fin : arr R) (sym : R) : res (mat * mat * mat) :=
  if (Na g <=? 1)%nat || (Nr g <=? 1)%nat then Err ValueError else
  do f <- (match fin with
           | A1 f => Ok f
           | A2 c f => if (c =? 1)%nat then Ok (fun k => f k 0%nat) else Err ValueError
           end);
  Ok (plot_array g sym f, plot_array g 1 (Z0 g), plot_array g (-1) (Y0 g)).

(** np.log2. *)
Definition log2 (x : R) : R := ln x / ln 2.
(** CADMium/partition/vp_surprise.py:11-31 up to the first np.repeat(.., axis=1), which raises numpy.AxisError because
    the array has one axis: (V.s, the array assigned to KSa.V.v_s in line 27, the array of line 31). V.s stays on the
    object when the exception is raised. Densities with a zero entry would give NaN (0 * log 0), negative ones too. *)
Definition surprise (g : grid) (p : part) : res (vec * vec * vec) :=
  do na <- axis1 (p_na p);
  do nf <- axis1 (p_nf p);
  do nb <- have (p_nb p);
  let t := sum_cols (p_pol p) in
  if negb (all_pos (Nelem g) (t na) && all_pos (Nelem g) (t nb) && all_pos (Nelem g) (t nf)) then Err NotFinite else
  let Pa := fun k => t na k / t nf k in
  let Pb := fun k => t nb k / t nf k in
  Ok (fun k => - Pa k * log2 (Pa k) - Pb k * log2 (Pb k),
      fun k => Pb k * log2 (Pb k / Pa k) / t nf k,
      fun k => Pa k * log2 (Pa k / Pb k) / t nf k).
(** CADMium/partition/vp_surprise.py:11-33: what a call leaves behind and the exception it raises. V.s is an array over the
    grid points, kept here in every column. *)
Definition vp_surprise (g : grid) (p : part) : part * exn :=
  match surprise g p with
  | Err e => (p, e)
  | Ok (s, _, _) => (set_V p "s"%string (fun k _ => s k), ValueError)
  end.

(** CADMium/psgrid/sigma.py:9 for any array: an array with one axis has no shape[1]. *)
Definition sigma_arr (g : grid) (n : arr R) : res (nat * mat) :=
  match n with A1 _ => Err IndexError | A2 c n => sigma g c n end.
(** A Python float with the operator @: the float has no __matmul__, and ndarray.__rmatmul__ refuses an operand without
    axes (CADMium/psgrid/reduced_grad.py:15, 19, 20). *)
Definition float_matmul (x : R) (a : vec) : res vec := Err ValueError.
(** CADMium/psgrid/reduced_grad.py:7-24 and psgrid.py:271-272. [n.shape[1]] of an array with one axis raises; the second
    line for pol = 2 stores into column 0 again; for any other number of columns s is never bound.
    The exponents 1/2, 1/3 and 4/3 act before the product and cannot raise: they are given by [pw]. *)
Definition reduced_grad (pw : R -> R -> R) (g : grid) (n : arr R) : res (nat * mat) :=
  match n with
  | A1 _ => Err IndexError
  | A2 c n =>
      let den (f : vec) := float_matmul (2 * pw (3 * PI ^ 2) (1 / 3)) (fun k => pw (f k) (4 / 3)) in
      if (c =? 1)%nat then
        do sg <- sigma_arr g (A2 1 n);
        do d <- den (fun k => n k 0%nat);
        Ok (1%nat, fun k _ => pw (snd sg k 0%nat) (1 / 2) / d k)
      else if (c =? 2)%nat then
        do sg <- sigma_arr g (A1 (fun k => 2 * n k 0%nat));
        do d <- den (fun k => 2 * n k 0%nat);
        do sg' <- sigma_arr g (A1 (fun k => 2 * n k 1%nat));
        do d' <- den (fun k => 2 * n k 1%nat);
        Ok (2%nat, fun k j => if (j =? 0)%nat then pw (snd sg' k 0%nat) (1 / 2) / d' k else 0)
      else Err UnboundLocalError
  end.
(** CADMium/pssolver/get_ked_WFI.py:7-18 and pssolver.py:144-145: i_solver has no attribute solver, so the first pass of
    the loop raises; [pol] is the number of columns of Nmo. *)
Definition get_ked_WFI (pol : nat) : res mat :=
  forN pol (fun _ (_ : mat) => Err AttributeError) (fun _ _ => 0).
(** CADMium/functionals/TW_paramke.py:5-9: 1 + k[0] - k[0] / (1 + k[1] / k[0] @ s ** 2). The operators / and @ have the same
    precedence and group to the left, so the float k[1] / k[0] meets the array s ** 2. [k] is a list of floats, [s] an array. *)
Definition TW_paramke (s : vec) (k : list R) : res vec :=
  match k with
  | [] | [_] => Err IndexError
  | k0 :: k1 :: _ =>
      if Req_EM_T k0 0 then Err ZeroDivisionError
      else do q <- float_matmul (k1 / k0) (fun x => s x ^ 2);
           Ok (fun x => 1 + k0 - k0 / (1 + q x))
  end.
(** CADMium/functionals/PW91k_paramke.py:7-15: the first product is k[0] @ s. [tail] stands for the rest of the expression, which is
    evaluated afterwards. *)
Definition PW91k_paramke (tail : vec -> vec) (s : vec) (k : list R) : res vec :=
  match k with
  | [] => Err IndexError
  | k0 :: _ => do a <- float_matmul k0 s; Ok (tail a)
  end.
