(** Model of CADMium/psgrid/*.py, CADMium/common/*.py: the prolate spheroidal grid.
    Floats are exact reals. The four least-squares solutions computed while a grid is
    initialised are fields of the record [grid]; their contract is [lstsq_ok] below. *)
From Coq Require Import Reals List Arith Lia ZArith Bool.
From Verif Require Import Base.
Import ListNotations.
Local Open Scope R_scope.

(** CADMium/psgrid/psgrid.py:164-200 constructor arguments (NM = [NMa, NMr], i1 = i2 = loc),
    plus the outputs of np.linalg.lstsq at CADMium/common/NC.py:17 ([ls_nc]) and :26 ([ls_nc1]) and at
    CADMium/common/finite_difference_coefficients.py:50 for derivative 1 and 2 ([ls_fd1], [ls_fd2]). *)
Record grid : Type := mkGrid {
  gNP : nat;
  gNMa : nat;
  gNMr : nat;
  ga : R;
  gL : R;
  gloc : list Z;
  ls_nc : vec;
  ls_nc1 : vec;
  ls_fd1 : vec;
  ls_fd2 : vec
}.

(** np.linalg.lstsq on a square system, when the system is solvable: the residual is zero. *)
Definition solves (n : nat) (A : mat) (b c : vec) : Prop :=
  forall i, (i < n)%nat -> sumR n (fun j => A i j * c j) = b i.

(** CADMium/common/NC.py:12-15 nodes 0..N-1 and matrix A[p,j] = x_j**p. *)
Definition nc_x (j : nat) : R := INR j.
Definition nc_A : mat := fun p j => nc_x j ^ p.

(** CADMium/common/NC.py:16 right-hand side. *)
Definition nc_b (N : nat) : vec := fun p => 1 / (INR p + 1) * INR (N - 1) ^ (p + 1).

(** CADMium/common/NC.py:20-21 nodes 0, 1/2, 3/2, ..., N-3/2. *)
Definition nc_x1 (j : nat) : R := if Nat.eqb j 0 then INR j else INR j - / 2.

(** CADMium/common/NC.py:23-24. *)
Definition nc_A1 : mat := fun p j => nc_x1 j ^ p.

(** CADMium/common/NC.py:25. *)
Definition nc_b1 : vec := fun p => 1 / (INR p + 1) * (/ 2) ^ (p + 1).

(** CADMium/common/NC.py:27 w1 = solution[1:]. *)
Definition nc_w1 (sol1 : vec) : vec := fun i => sol1 (i + 1)%nat.

(** CADMium/common/NC.py:30. *)
Definition nc_NP (N Nm : nat) : nat := ((N - 1) * Nm + 1)%nat.

(** CADMium/common/NC.py:31-33 zeros, then wi[:N-1] = w1, then wi[-(N-1):] = w1[::-1]
    (assignments, the second overwrites; w1 has N-1 entries). *)
Definition nc_ends (N Nm : nat) (w1 : vec) : vec :=
  fun t =>
    if (nc_NP N Nm - (N - 1) <=? t)%nat && (t <? nc_NP N Nm)%nat
    then w1 (N - 1 - 1 - (t - (nc_NP N Nm - (N - 1))))%nat
    else if (t <? N - 1)%nat then w1 t
    else 0.

(** CADMium/common/NC.py:35-36 the block loop (k = number of iterations done). *)
Fixpoint nc_loop (N : nat) (w : vec) (k : nat) (wi : vec) : vec :=
  match k with
  | O => wi
  | S i =>
      let wi' := nc_loop N w i wi in
      fun t => if ((N - 1) * i <=? t)%nat && (t <? (N - 1) * i + N)%nat
               then wi' t + w (t - (N - 1) * i)%nat
               else wi' t
  end.

(** CADMium/common/NC.py:10-38, with the two lstsq solutions as arguments. *)
Definition nc_weights (N Nm : nat) (w sol1 : vec) : vec :=
  nc_loop N w Nm (nc_ends N Nm (nc_w1 sol1)).

(** CADMium/common/NC.py:32-33 shape errors: N <= 1 (w1 is empty but wi[-0:] is not) and, with
    Nm = 0 blocks, slices shorter than w1. (N = 0 fails already inside lstsq.) *)
Definition NC (N Nm : nat) (w sol1 : vec) : res vec :=
  if (N <=? 1)%nat then Err ValueError
  else if (Nm =? 0)%nat && (3 <=? N)%nat then Err ValueError
  else Ok (nc_weights N Nm w sol1).

(** CADMium/psgrid/initialize.py:17-19 (NP >= 1 is assumed by natural subtraction). *)
Definition Na (g : grid) : nat := ((gNP g - 1) * gNMa g + 1)%nat.
Definition Nr (g : grid) : nat := ((gNP g - 1) * gNMr g + 1)%nat.
Definition Nelem (g : grid) : nat := (Na g * Nr g)%nat.

(** numpy.linspace(lo, hi, n)[i]. *)
Definition linspace (lo hi : R) (n : nat) (i : nat) : R :=
  lo + INR i * ((hi - lo) / INR (n - 1)).

(** CADMium/psgrid/initialize.py:22-26. *)
Definition xa0 (g : grid) : vec := linspace 0 PI (Na g + 1).
Definition ha (g : grid) : R := xa0 g 1%nat - xa0 g 0%nat.
Definition xa1 (g : grid) : vec := fun i => xa0 g i + ha g / 2.
Definition xa (g : grid) : vec :=
  fun i => (xa1 g i - (xa1 g (Na g - 1 - i)%nat - PI)) / 2.

(** CADMium/psgrid/initialize.py:28-31. *)
Definition xr0 (g : grid) : vec := linspace 0 (gL g) (Nr g + 1).
Definition hr (g : grid) : R := xr0 g 1%nat - xr0 g 0%nat.
Definition xr (g : grid) : vec := fun i => xr0 g i + hr g / 2.

(** CADMium/psgrid/initialize.py:36 (i1 = i2 = loc). *)
Definition bcN (g : grid) : nat := (Nat.max (length (gloc g)) (length (gloc g)) / 2)%nat.

(** np.reshape(M, rows*cols, order="F") of a matrix with [rows] rows. *)
Definition flattenF {A : Type} (rows : nat) (M : nat -> nat -> A) : nat -> A :=
  fun k => M (k mod rows)%nat (k / rows)%nat.

(** np.meshgrid(x, y): first result varies along columns, second along rows. *)
Definition meshgrid_x {A : Type} (x : nat -> A) : nat -> nat -> A := fun _ j => x j.
Definition meshgrid_y {A : Type} (y : nat -> A) : nat -> nat -> A := fun i _ => y i.

(** CADMium/psgrid/initialize.py:37-40. *)
Definition bxr (g : grid) : vec :=
  fun i => linspace 1 (INR (bcN g)) (bcN g) i * hr g + xr g (Nr g - 1)%nat.
Definition bXr (g : grid) : vec := flattenF (Na g) (meshgrid_x (bxr g)).
Definition bXa (g : grid) : vec := flattenF (Na g) (meshgrid_y (xa g)).

(** CADMium/psgrid/initialize.py:43-45. *)
Definition Xr (g : grid) : vec := flattenF (Na g) (meshgrid_x (xr g)).
Definition Xa (g : grid) : vec := flattenF (Na g) (meshgrid_y (xa g)).

(** A numpy array of shape (Nelem,) or (Nelem, cols). *)
Inductive arr (A : Type) : Type :=
| A1 (f : nat -> A)
| A2 (cols : nat) (f : nat -> nat -> A).
Arguments A1 {A} f.
Arguments A2 {A} cols f.

(** CADMium/psgrid/square.py:7-10: Fortran-order reshape to (Na, Nr, Nspin); [flat] is the
    Fortran-order ravel of the input. *)
Definition square {A : Type} (g : grid) (flat : nat -> A) : nat -> nat -> nat -> A :=
  fun ia ir s => flat (ia + Na g * (ir + Nr g * s))%nat.

(** Fortran-order ravel of a 3-D array of shape (Na, Nr, _). *)
Definition ravel3 {A : Type} (g : grid) (s : nat -> nat -> nat -> A) : nat -> A :=
  fun k => s (k mod Na g)%nat ((k / Na g) mod Nr g)%nat (k / Na g / Nr g)%nat.

(** CADMium/psgrid/mirror.py:10-13: flip the first axis, reshape back in Fortran order. *)
Definition mirror_flat {A : Type} (g : grid) (flat : nat -> A) : nat -> A :=
  ravel3 g (fun ia ir s => square g flat (Na g - 1 - ia)%nat ir s).

Definition mirror {A : Type} (g : grid) (fin : arr A) : arr A :=
  match fin with
  | A1 f => A1 (mirror_flat g f)
  | A2 c f => A2 c (fun k s => mirror_flat g (flattenF (Nelem g) f) (k + Nelem g * s)%nat)
  end.

(** mirror on a 1-D array and on a 2-D array, as plain functions (CADMium/psgrid/mirror.py:10-13). *)
Definition mirror1 {A : Type} (g : grid) (f : nat -> A) : nat -> A := mirror_flat g f.
Definition mirror2 {A : Type} (g : grid) (f : nat -> nat -> A) : nat -> nat -> A :=
  fun k s => mirror_flat g (flattenF (Nelem g) f) (k + Nelem g * s)%nat.

(** CADMium/psgrid/initialize.py:48-51. *)
Definition Z0 (g : grid) : vec := fun k => ga g * cosh (Xr g k) * cos (Xa g k).
Definition Y0 (g : grid) : vec := fun k => ga g * sinh (Xr g k) * sin (Xa g k).
Definition gZ (g : grid) : vec := fun k => 1 / 2 * (Z0 g k - mirror1 g (Z0 g) k).
Definition gY (g : grid) : vec := fun k => 1 / 2 * (Y0 g k + mirror1 g (Y0 g) k).

(** CADMium/psgrid/initialize.py:57-60. *)
Definition wa (g : grid) : vec := nc_weights (gNP g) (gNMa g) (ls_nc g) (ls_nc1 g).
Definition wr (g : grid) : vec := nc_weights (gNP g) (gNMr g) (ls_nc g) (ls_nc1 g).

(** CADMium/psgrid/initialize.py:63: np.reshape(wa@wr.T, Nelem) in (default) C order of a
    matrix with Nr columns. *)
Definition flattenC {A : Type} (cols : nat) (M : nat -> nat -> A) : nat -> A :=
  fun k => M (k / cols)%nat (k mod cols)%nat.
Definition gwi (g : grid) : vec := flattenC (Nr g) (fun i j => wa g i * wr g j).

(** CADMium/psgrid/initialize.py:76-77. *)
Definition w0 (g : grid) : vec :=
  fun k => ga g ^ 3 * sin (Xa g k) * sinh (Xr g k) * (sin (Xa g k) ^ 2 + sinh (Xr g k) ^ 2).
Definition gw (g : grid) : vec := fun k => 1 / 2 * (w0 g k + mirror1 g (w0 g) k).

(** CADMium/psgrid/initialize.py:80-82. *)
Definition f0 (g : grid) : vec :=
  fun k => (2 / (2 * ga g) ^ 2) * 1 / (cosh (Xr g k) ^ 2 - cos (Xa g k) ^ 2)
           * (1 / (cosh (Xr g k) ^ 2 - 1) + 1 / (1 - cos (Xa g k) ^ 2)).
Definition gf (g : grid) : vec := fun k => 1 / 2 * (f0 g k + mirror1 g (f0 g) k).

(** CADMium/common/coulomb.py:23-25. *)
Definition coulomb (g : grid) (Za Zb : R) : vec :=
  fun k => - 1 / ga g * ((Za + Zb) * cosh (Xr g k) - (Za - Zb) * cos (Xa g k))
           / (cosh (Xr g k) ^ 2 - cos (Xa g k) ^ 2).

(** CADMium/psgrid/integrate.py: result is a number for (Nelem,) and (Nelem,1) input and an
    array of the input's shape otherwise. *)
Inductive integral : Type :=
| IScal (r : R)
| IArr (cols : nat) (f : nat -> nat -> R).

Definition iprefac (g : grid) : R := 2 * PI * hr g * ha g.

(** CADMium/psgrid/integrate.py:12-13. *)
Definition integrate1 (g : grid) (f : vec) : R :=
  iprefac g * sumR (Nelem g) (fun k => gwi g k * gw g k * f k).

(** CADMium/psgrid/integrate.py:15-16: wi*w has shape (Nelem,), f has shape (Nelem,1); numpy
    broadcasts the product to shape (Nelem, Nelem) before np.sum. *)
Definition integrate_col (g : grid) (f : vec) : R :=
  iprefac g * sumR (Nelem g) (fun i => sumR (Nelem g) (fun j => gwi g j * gw g j * f i)).

(** CADMium/psgrid/integrate.py:7-23. *)
Definition integrate (g : grid) (f : arr R) : integral :=
  match f with
  | A1 f => IScal (integrate1 g f)
  | A2 c f =>
      if (c =? 1)%nat then IScal (integrate_col g (fun k => f k 0%nat))
      else IArr c (fun _ s => integrate1 g (fun k => f k s))
  end.

(** CADMium/psgrid/spinflip.py:9-18. *)
Definition spinflip {A : Type} (f : arr A) : arr A :=
  match f with
  | A1 f => A1 f
  | A2 c f => A2 c (fun k s => f k (c - 1 - s)%nat)
  end.

(** CADMium/common/finite_difference_coefficients.py:36-44: Taylor table. *)
Definition fd_x (loc : list Z) (j : nat) : R := IZR (nth j loc 0%Z).
Definition fd_table (loc : list Z) : mat :=
  fun j n => - 1 / INR (fact n) * fd_x loc j ^ n.

(** CADMium/common/finite_difference_coefficients.py:46-48. *)
Definition fd_rhs (deriv : nat) : vec := fun n => if (n =? deriv)%nat then -1 else 0.

(** CADMium/common/finite_difference_coefficients.py:50-56 and :81: coefficients below 1e-10 in
    magnitude are set to zero; [raw] is the lstsq solution. *)
Definition fd_flush (x : R) : R := if Rlt_dec (Rabs x) (/ 10 ^ 10) then 0 else x.
Definition fd_coef (raw : vec) : vec := fun j => fd_flush (raw j).

(** Contract of the four lstsq calls made while initialising a grid. *)
Definition lstsq_ok (g : grid) : Prop :=
  solves (gNP g) nc_A (nc_b (gNP g)) (ls_nc g) /\
  solves (gNP g) nc_A1 nc_b1 (ls_nc1 g) /\
  solves (length (gloc g)) (transp (fd_table (gloc g))) (fd_rhs 1) (ls_fd1 g) /\
  solves (length (gloc g)) (transp (fd_table (gloc g))) (fd_rhs 2) (ls_fd2 g).

(** np.diag(np.ones(n-|k|), k=k)[p, q]. *)
Definition diagk (k : Z) : mat :=
  fun p q => if (Z.of_nat q - Z.of_nat p =? k)%Z then 1 else 0.

(** CADMium/psgrid/finite_difference_1d.py:20-22 (same in finite_difference_2d.py:20-22). *)
Definition fd_bc (b Nd : nat) (ds : vec) : mat :=
  fun p q => sumR b (fun i => ds (Nd - i - 1)%nat * diagk (- Z.of_nat i) p q).

(** CADMium/psgrid/finite_difference_1d.py:27-29 (same in finite_difference_2d.py:27-29). *)
Definition fd_band (loc : list Z) (ds : vec) : mat :=
  fun p q => sumR (length loc) (fun i => ds i * diagk (nth i loc 0%Z) p q).

(** np.fliplr of a matrix with [b] columns. *)
Definition fliplr (b : nat) (M : mat) : mat := fun p q => M p (b - 1 - q)%nat.

(** M[-b:, -b:] += s*C on an n x n matrix, and M[:b, :b] += s*C. *)
Definition add_last (n b : nat) (s : R) (C M : mat) : mat :=
  fun p q => if (n - b <=? p)%nat && (n - b <=? q)%nat
             then M p q + s * C (p - (n - b))%nat (q - (n - b))%nat else M p q.
Definition add_first (b : nat) (s : R) (C M : mat) : mat :=
  fun p q => if (p <? b)%nat && (q <? b)%nat then M p q + s * C p q else M p q.

Definition mscal (c : R) (M : mat) : mat := fun p q => c * M p q.
Definition mdiv (M : mat) (c : R) : mat := fun p q => M p q / c.

(** CADMium/psgrid/finite_difference_1d.py:15-22. *)
Definition d1 (g : grid) : vec := fd_coef (ls_fd1 g).
Definition bcm1 (g : grid) : mat := fd_bc (bcN g) (length (gloc g)) (d1 g).

(** CADMium/psgrid/finite_difference_1d.py:27-33 (Da1 and Dr1 have the same entries, they differ
    only in size). *)
Definition D1 (g : grid) : mat :=
  fun p q => 1 / 2 * (fd_band (gloc g) (d1 g) p q - fd_band (gloc g) (d1 g) q p).

(** CADMium/psgrid/finite_difference_1d.py:35-41. *)
Definition oDa1 (g : grid) : mat :=
  mdiv (add_first (bcN g) 1 (fliplr (bcN g) (transp (bcm1 g)))
         (add_last (Na g) (bcN g) (-1) (fliplr (bcN g) (bcm1 g)) (D1 g))) (ha g).

(** CADMium/psgrid/finite_difference_1d.py:43-44. *)
Definition oDr1 (g : grid) : mat :=
  mdiv (add_first (bcN g) 1 (fliplr (bcN g) (transp (bcm1 g))) (D1 g)) (hr g).

(** CADMium/psgrid/finite_difference_1d.py:51-53. *)
Definition eDa1 (g : grid) : mat :=
  mdiv (add_first (bcN g) (-1) (fliplr (bcN g) (transp (bcm1 g)))
         (add_last (Na g) (bcN g) 1 (fliplr (bcN g) (bcm1 g)) (D1 g))) (ha g).

(** CADMium/psgrid/finite_difference_1d.py:56-57. *)
Definition eDr1 (g : grid) : mat :=
  mdiv (add_first (bcN g) (-1) (fliplr (bcN g) (transp (bcm1 g))) (D1 g)) (hr g).

(** CADMium/psgrid/finite_difference_1d.py:59. *)
Definition bc1 (g : grid) : mat := mdiv (bcm1 g) (hr g).

(** CADMium/psgrid/finite_difference_2d.py:15-29. *)
Definition d2 (g : grid) : vec := fd_coef (ls_fd2 g).
Definition bcm2 (g : grid) : mat := fd_bc (bcN g) (length (gloc g)) (d2 g).
Definition D2 (g : grid) : mat := fd_band (gloc g) (d2 g).

(** 0.5*(M + M.T), CADMium/psgrid/finite_difference_2d.py:55-58. *)
Definition symm (M : mat) : mat := fun p q => 1 / 2 * (M p q + M q p).

(** CADMium/psgrid/finite_difference_2d.py:35-37,56. *)
Definition oDa2 (g : grid) : mat :=
  symm (mdiv (add_first (bcN g) (-1) (fliplr (bcN g) (transp (bcm2 g)))
         (add_last (Na g) (bcN g) (-1) (fliplr (bcN g) (bcm2 g)) (D2 g))) (ha g ^ 2)).

(** CADMium/psgrid/finite_difference_2d.py:39-40,58. *)
Definition oDr2 (g : grid) : mat :=
  symm (mdiv (add_first (bcN g) (-1) (fliplr (bcN g) (transp (bcm2 g))) (D2 g)) (hr g ^ 2)).

(** CADMium/psgrid/finite_difference_2d.py:46-48,55. *)
Definition eDa2 (g : grid) : mat :=
  symm (mdiv (add_first (bcN g) 1 (fliplr (bcN g) (transp (bcm2 g)))
         (add_last (Na g) (bcN g) 1 (fliplr (bcN g) (bcm2 g)) (D2 g))) (ha g ^ 2)).

(** CADMium/psgrid/finite_difference_2d.py:50-51,57. *)
Definition eDr2 (g : grid) : mat :=
  symm (mdiv (add_first (bcN g) 1 (fliplr (bcN g) (transp (bcm2 g))) (D2 g)) (hr g ^ 2)).

(** CADMium/psgrid/finite_difference_2d.py:52. *)
Definition bc2 (g : grid) : mat := mdiv (bcm2 g) (hr g ^ 2).

(** scipy.sparse.kron(A, B) where B is nB x nB. *)
Definition kron (nB : nat) (A B : mat) : mat :=
  fun i j => A (i / nB)%nat (j / nB)%nat * B (i mod nB)%nat (j mod nB)%nat.
Definition eye : mat := fun i j => if (i =? j)%nat then 1 else 0.

(** spdiags(d) * M, M * spdiags(d), np.diagflat(d) @ M, np.diagflat(d). *)
Definition dmul (d : vec) (M : mat) : mat := fun i j => d i * M i j.
Definition muld (M : mat) (d : vec) : mat := fun i j => M i j * d j.
Definition diagflat (d : vec) : mat := fun i j => if (i =? j)%nat then d i else 0.
Definition madd (A B : mat) : mat := fun i j => A i j + B i j.

(** CADMium/psgrid/operators.py:15-21. *)
Definition h1_0 (g : grid) : vec := fun k => ga g * sqrt (sinh (Xr g k) ^ 2 + sin (Xa g k) ^ 2).
Definition h2_0 (g : grid) : vec := fun k => ga g * sqrt (sinh (Xr g k) ^ 2 + sin (Xa g k) ^ 2).
Definition h3_0 (g : grid) : vec := fun k => ga g * sinh (Xr g k) * sin (Xa g k).
Definition h1 (g : grid) : vec := fun k => 1 / 2 * (h1_0 g k + mirror1 g (h1_0 g) k).
Definition h2 (g : grid) : vec := fun k => 1 / 2 * (h2_0 g k + mirror1 g (h2_0 g) k).
Definition h3 (g : grid) : vec := fun k => 1 / 2 * (h3_0 g k + mirror1 g (h3_0 g) k).

(** CADMium/psgrid/operators.py:24-28. *)
Definition gradr (g : grid) : mat := dmul (fun k => 1 / h2 g k) (kron (Na g) (eDr1 g) eye).
Definition grada (g : grid) : mat := dmul (fun k => 1 / h1 g k) (kron (Na g) eye (eDa1 g)).

(** CADMium/psgrid/operators.py:31-36. *)
Definition C123 (g : grid) : vec := fun k => 1 / (h1 g k * h2 g k * h3 g k).
Definition diva (g : grid) : mat :=
  muld (dmul (C123 g) (kron (Na g) eye (oDa1 g))) (fun k => h2 g k * h3 g k).
Definition divr (g : grid) : mat :=
  muld (dmul (C123 g) (kron (Na g) (oDr1 g) eye)) (fun k => h1 g k * h3 g k).

(** CADMium/psgrid/operators.py:39-42. *)
Definition Xa1d (g : grid) : vec := fun ia => Xa g (ia + Na g * 0)%nat.
Definition Xr1d (g : grid) : vec := fun ir => Xr g (0 + Na g * ir)%nat.

(** CADMium/psgrid/operators.py:47-52. *)
Definition eLa (g : grid) : mat :=
  mscal (ga g) (madd (dmul (fun i => sin (Xa1d g i)) (eDa2 g)) (dmul (fun i => cos (Xa1d g i)) (eDa1 g))).
Definition eLr (g : grid) : mat :=
  mscal (ga g) (madd (dmul (fun i => sinh (Xr1d g i)) (eDr2 g)) (dmul (fun i => cosh (Xr1d g i)) (eDr1 g))).
Definition oLa (g : grid) : mat :=
  mscal (ga g) (madd (dmul (fun i => sin (Xa1d g i)) (oDa2 g)) (dmul (fun i => cos (Xa1d g i)) (oDa1 g))).
Definition oLr (g : grid) : mat :=
  mscal (ga g) (madd (dmul (fun i => sinh (Xr1d g i)) (oDr2 g)) (dmul (fun i => cosh (Xr1d g i)) (oDr1 g))).

(** CADMium/psgrid/operators.py:57-63. *)
Definition elap (g : grid) : mat :=
  madd (kron (Na g) (diagflat (fun i => sinh (Xr1d g i))) (eLa g))
       (kron (Na g) (eLr g) (diagflat (fun i => sin (Xa1d g i)))).
Definition olap (g : grid) : mat :=
  madd (kron (Na g) (diagflat (fun i => sinh (Xr1d g i))) (oLa g))
       (kron (Na g) (oLr g) (diagflat (fun i => sin (Xa1d g i)))).

(** CADMium/psgrid/operators.py:68-71 (Xr1d[0][-bcN:] is the last bcN radial nodes). *)
Definition bLr (g : grid) : mat :=
  mscal (ga g)
    (madd (dmul (fun i => sinh (Xr1d g (Nr g - bcN g + i)%nat)) (bc2 g))
          (dmul (fun i => cosh (Xr1d g (Nr g - bcN g + i)%nat)) (bc1 g))).
Definition blap (g : grid) : mat := kron (Na g) (bLr g) (diagflat (fun i => sin (Xa1d g i))).

(** Application of a grid operator to a 1-D array. *)
Definition gapply (g : grid) (M : mat) (f : vec) : vec := matvec (Nelem g) M f.

(** CADMium/psgrid/sigma.py:7-24. In line 19, [A @ u * A @ v] parses as [((A@u) * A) @ v]; with a
    scipy spmatrix A, [x * A] is the row vector x A, so the result is the scalar (A u).(A v),
    which is then broadcast over sigma[:,1]. *)
Definition gdot (g : grid) (u v : vec) : R := sumR (Nelem g) (fun k => u k * v k).
Definition rowtimes (g : grid) (x : vec) (A : mat) : vec :=
  fun j => sumR (Nelem g) (fun i => x i * A i j).
Definition sigma (g : grid) (cols : nat) (n : nat -> nat -> R) : res (nat * (nat -> nat -> R)) :=
  let c s := fun k => n k s in
  let sq s := fun k => gapply g (grada g) (c s) k ^ 2 + gapply g (gradr g) (c s) k ^ 2 in
  if (cols =? 1)%nat then Ok (1%nat, fun k _ => sq 0%nat k)
  else if (cols =? 2)%nat then
    Ok (3%nat, fun k j =>
      if (j =? 2)%nat then sq 1%nat k
      else if (j =? 0)%nat then sq 0%nat k
      else gdot g (rowtimes g (gapply g (grada g) (c 0%nat)) (grada g)) (c 1%nat)
           + gdot g (rowtimes g (gapply g (gradr g) (c 0%nat)) (gradr g)) (c 1%nat))
  else Err ValueError.

(** CADMium/psgrid/psgrid.py:278-298: loop state of axis_plot; [xs], [ys] are kept together as a
    list of grid indices in reverse order of appending (x = Z[k], y = fin[k]). *)
Record axst : Type := mkAx { ax_single : R; ax_initial : bool; ax_out : list nat }.
Definition axis_step (z : vec) (i : nat) (s : axst) : axst :=
  let out1 := if ax_initial s then i :: ax_out s else ax_out s in
  if Req_EM_T (z i) (-1 * ax_single s)
  then mkAx (z (i + 1)%nat) false ((i + 1)%nat :: i :: out1)
  else mkAx (ax_single s) (ax_initial s) out1.
Fixpoint axis_loop (z : vec) (n : nat) (s : axst) : axst :=
  match n with
  | O => s
  | S k => axis_step z k (axis_loop z k s)
  end.
(** CADMium/psgrid/psgrid.py:278-306; [perm] is the output of np.argsort(xs). *)
Definition axis_indices (g : grid) : list nat :=
  rev (ax_out (axis_loop (gZ g) (Nelem g - 1) (mkAx (gZ g 0%nat) true [0%nat]))).
Definition axis_plot (g : grid) (fin : vec) (perm : list nat) : list R * list R :=
  let idx := axis_indices g in
  let pick l := map (fun p => nth p l 0) perm in
  (pick (map (gZ g) idx), pick (map fin idx)).
