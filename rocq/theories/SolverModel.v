(** Model of CADMium/pssolver/*.py: one solver object ([i_solver]) and its methods. *)
From Coq Require Import Reals List Arith Lia ZArith Bool String.
From Verif Require Import Base GridModel.
Import ListNotations.
Local Open Scope R_scope.

(** Python indexing a[i] of an axis of length n with an integer i (negative indices wrap). *)
Definition pyidx (n : nat) (i : Z) : res nat :=
  if ((0 <=? i) && (i <? Z.of_nat n))%Z%bool then Ok (Z.to_nat i)
  else if ((i <? 0) && (- Z.of_nat n <=? i))%Z%bool then Ok (Z.to_nat (Z.of_nat n + i))
  else Err IndexError.

(** The attributes of i_solver that the modelled methods read (CADMium/pssolver/pssolver.py:51-97).
    [s_phi], [s_eig]: None is Python's None, otherwise number of columns (entries) and the data; column
    j of phi is [snd phi j]. *)
Record solver : Type := mkSolver {
  s_m : Z;
  s_pol : nat;
  s_N : R;
  s_Nmo : nat;
  s_frac : bool;
  s_sym : bool;
  s_veff : vec;
  s_phi : option (nat * (nat -> vec));
  s_eig : option (nat * vec)
}.

(** phi[:, i] *)
Definition phi_col (s : solver) (i : Z) : res vec :=
  match s_phi s with
  | None => Err TypeError
  | Some (c, p) => do j <- pyidx c i; Ok (p j)
  end.
(** eig[i] *)
Definition eig_at (s : solver) (i : Z) : res R :=
  match s_eig s with
  | None => Err TypeError
  | Some (c, e) => do j <- pyidx c i; Ok (e j)
  end.

(** np.floor. *)
Definition floorZ (x : R) : Z := Int_part x.

(** CADMium/pssolver/calc_density.py:14-29 (the same lines appear in calc_energy.py:13-29, get_homo.py:11-26,
    calc_ked_WFI.py:16-31 and calc_response.py:30-45): number of full orbitals and the remainder. *)
Definition nocc (s : solver) : Z * R :=
  let go x := (floorZ x, x - IZR (floorZ x)) in
  if (s_m s =? 0)%Z then
    if (s_pol s =? 1)%nat then go (s_N s / 2) else go (s_N s)
  else
    if (s_pol s =? 1)%nat then go (s_N s / 4) else go (s_N s / 2).

(** CADMium/pssolver/calc_density.py:41-49 (same in calc_energy.py:41-49, calc_ked_WFI.py:49-57). *)
Definition shell_scale (s : solver) (x : R) : R :=
  if (s_m s =? 0)%Z then
    if (s_pol s =? 1)%nat then 2 * x else x
  else
    if (s_pol s =? 1)%nat then 4 * x else 2 * x.

(** "nu != 0" on floats. *)
Definition nonzero (x : R) : bool := if Req_EM_T x 0 then false else true.

Definition norm2 (g : grid) (f : vec) : R := integrate1 g (fun k => f k ^ 2).

(** CADMium/pssolver/calc_density.py:32-33, after k passes of the loop. *)
Fixpoint dens_loop (g : grid) (s : solver) (k : nat) : res vec :=
  match k with
  | O => Ok (fun _ => 0)
  | S i =>
      do n <- dens_loop g s i;
      do p <- phi_col s (Z.of_nat i);
      Ok (fun x => n x + p x ^ 2 / norm2 g p)
  end.

(** CADMium/pssolver/calc_density.py:7-49; the (Nelem, 1) array self.n is returned as a vector. *)
Definition calc_density (g : grid) (s : solver) : res vec :=
  let '(No, nu) := nocc s in
  do n <- dens_loop g s (Z.to_nat No);
  do n1 <- (if s_frac s && nonzero nu then
              do p <- phi_col s No; Ok (fun x => n x + nu * p x ^ 2 / norm2 g p)
            else Ok n);
  Ok (fun x => shell_scale s (n1 x)).

(** CADMium/pssolver/calc_energy.py:32-33. *)
Fixpoint eks_loop (s : solver) (k : nat) : res R :=
  match k with
  | O => Ok 0
  | S i => do a <- eks_loop s i; do e <- eig_at s (Z.of_nat i); Ok (a + e)
  end.

(** CADMium/pssolver/calc_energy.py:9-49: eks. *)
Definition calc_eks (s : solver) : res R :=
  let '(No, nu) := nocc s in
  do a <- eks_loop s (Z.to_nat No);
  do b <- (if s_frac s && nonzero nu then do e <- eig_at s No; Ok (a + nu * e) else Ok a);
  Ok (shell_scale s b).

(** IEEE subtraction of an extended number from a real. *)
Definition rsub (x : R) (y : num) : num :=
  match y with Fin r => Fin (x - r) | PInf => NInf | NInf => PInf | NaN => NaN end.

(** CADMium/pssolver/calc_energy.py:53-63, given eks and the value of Vs from line 52: (Vs, Ts). *)
Definition energy_tail (eks : R) (Vs : num) : num * num :=
  let Ts := rsub eks Vs in
  match Vs with
  | NaN => (Fin 0, Ts)
  | PInf | NInf => (Vs, Ts)
  | Fin v => if Rlt_dec (10 ^ 5) (Rabs v) then (Fin 0, Ts) else (Vs, Ts)
  end.

(** CADMium/pssolver/calc_energy.py:6-63: (eks, Vs, Ts, n). *)
Definition calc_energy (g : grid) (s : solver) : res (R * num * num * vec) :=
  do eks <- calc_eks s;
  do n <- calc_density g s;
  let Vs := Fin (integrate1 g (fun k => s_veff s k * n k)) in
  let '(Vs', Ts) := energy_tail eks Vs in
  Ok (eks, Vs', Ts, n).

(** np.finfo(float).eps. *)
Definition feps : R := / 2 ^ 52.

(** CADMium/pssolver/get_homo.py:7-38. *)
Definition get_homo (s : solver) : res R :=
  let '(No, nu) := nocc s in
  let No' := if nonzero nu then (No + 1)%Z else No in
  if (No' =? 0)%Z then Ok (- 1 / feps) else eig_at s (No' - 1)%Z.

(** CADMium/pssolver/normalize_orbitals.py:8-14. *)
Definition norm_occ (s : solver) : R :=
  let occ := if (s_m s =? 0)%Z then 2 else 4 in
  if (s_pol s =? 2)%nat then occ / 2 else occ.

(** CADMium/pssolver/normalize_orbitals.py:17, one column. *)
Definition normalize_col (g : grid) (occ : R) (p : vec) : vec :=
  fun k => sqrt occ * p k / sqrt (norm2 g p).

(** CADMium/pssolver/normalize_orbitals.py:6-17 (the loop runs over all Nmo columns). *)
Definition normalize_orbitals (g : grid) (s : solver) (phi : nat -> vec) : nat -> vec :=
  fun j => if (j <? s_Nmo s)%nat then normalize_col g (norm_occ s) (phi j) else phi j.

(** CADMium/pssolver/pssolver.py:99-120: H0 as a matrix. *)
Definition hamiltonian (g : grid) (m : Z) : mat :=
  let lap := if (m mod 2 =? 0)%Z then elap g else olap g in
  fun i j => - (1 / 2) * lap i j + diagflat (fun k => IZR m ^ 2 * gw g k * gf g k) i j.

(** CADMium/pssolver/calc_ked_WFI.py:34-38. *)
Definition ked_term (g : grid) (H0 : mat) (p : vec) (nrm : R) : vec :=
  let pn := fun k => p k / sqrt nrm in
  fun k => pn k * gapply g H0 pn k / gw g k.
Fixpoint ked_loop (g : grid) (H0 : mat) (s : solver) (k : nat) : res vec :=
  match k with
  | O => Ok (fun _ => 0)
  | S i =>
      do t <- ked_loop g H0 s i;
      do p <- phi_col s (Z.of_nat i);
      Ok (fun x => t x + ked_term g H0 p (norm2 g p) x)
  end.
(** CADMium/pssolver/calc_ked_WFI.py:7-57. In lines 44-46 the loop variable i is the last full orbital
    (unbound if there was none) and the norm is that of column int(Nocc+1). *)
Definition calc_ked_WFI (g : grid) (H0 : mat) (s : solver) : res vec :=
  let '(No, nu) := nocc s in
  do t <- ked_loop g H0 s (Z.to_nat No);
  do t1 <- (if s_frac s && nonzero nu then
              if (No <=? 0)%Z then Err UnboundLocalError
              else do p <- phi_col s (No - 1)%Z;
                   do q <- phi_col s (No + 1)%Z;
                   Ok (fun x => t x + nu * ked_term g H0 p (norm2 g q) x)
            else Ok t);
  Ok (fun x => shell_scale s (t1 x)).

(** CADMium/pssolver/calc_response.py:51-64: the bordered system of one orbital (size Nelem+1) and its
    right-hand side (Nelem columns). *)
Definition resp_A (g : grid) (H : mat) (e : R) (p : vec) : mat :=
  fun i j =>
    if (i <? Nelem g)%nat then
      if (j <? Nelem g)%nat then - (H i j - e * diagflat (gw g) i j) else gw g i * p i
    else
      if (j <? Nelem g)%nat then gw g j * p j else 0.
Definition resp_rhs (g : grid) (p : vec) (c : nat) : vec :=
  fun i => if (i <? Nelem g)%nat then (if (i =? c)%nat then gw g i * p i else 0) else 0.

(** CADMium/pssolver/calc_response.py:48-67; [spsolve A rhs] is the oracle, applied column by column. *)
Fixpoint resp_loop (g : grid) (spsolve : mat -> vec -> vec) (H : mat) (s : solver) (k : nat) : res mat :=
  match k with
  | O => Ok (fun _ _ => 0)
  | S j =>
      do chi <- resp_loop g spsolve H s j;
      do f <- phi_col s (Z.of_nat j);
      let p := fun x => f x / sqrt (norm2 g f) in
      do e <- eig_at s (Z.of_nat j);
      Ok (fun r c => chi r c + 2 * (p r * spsolve (resp_A g H e p) (resp_rhs g p c) r))
  end.
(** CADMium/pssolver/calc_response.py:13-103. For an incomplete shell with fractional on, line 76
    indexes phi with the float Nocc + 1, which numpy rejects with IndexError (TypeError if phi is None). *)
Definition calc_response (g : grid) (spsolve : mat -> vec -> vec) (s : solver) : res mat :=
  let H := fun i j => hamiltonian g (s_m s) i j + diagflat (fun k => gw g k * s_veff s k) i j in
  let '(No, nu) := nocc s in
  do chi <- resp_loop g spsolve H s (Z.to_nat No);
  if s_frac s && nonzero nu then Err (match s_phi s with None => TypeError | Some _ => IndexError end)
  else Ok (fun r c => if (s_pol s =? 1)%nat then 2 * chi r c else chi r c).

(** numpy.linalg.norm of a grid vector. *)
Definition nrm (g : grid) (f : vec) : R := sqrt (sumR (Nelem g) (fun k => f k ^ 2)).

(** CADMium/pssolver/calc_orbitals.py:58-61 with the columns as options: None is a column of NaN (0/0). *)
Definition colv := option vec.
Definition cmap2 (f : vec -> vec -> vec) (a b : colv) : colv :=
  match a, b with Some x, Some y => Some (f x y) | _, _ => None end.
Definition unit_col (g : grid) (a : colv) : colv :=
  match a with
  | None => None
  | Some x => if Req_EM_T (nrm g x) 0 then None else Some (fun k => x k / nrm g x)
  end.
Definition mix_even (g : grid) (a b : vec) : vec := fun k => a k + mirror1 g a k + b k + mirror1 g b k.
Definition mix_odd (g : grid) (a b : vec) : vec := fun k => a k - mirror1 g a k + b k - mirror1 g b k.
Definition upd {A : Type} (f : nat -> A) (i : nat) (x : A) : nat -> A := fun j => if (j =? i)%nat then x else f j.

Definition mix_pair (g : grid) (eig : vec) (i j : nat) (phi : nat -> colv) : nat -> colv :=
  if Rlt_dec (Rabs (eig i - eig j)) (/ 10 ^ 9) then
    let even := cmap2 (mix_even g) (phi i) (phi j) in
    let odd := cmap2 (mix_odd g) (phi i) (phi j) in
    upd (upd phi i (unit_col g even)) j (unit_col g odd)
  else phi.
(** CADMium/pssolver/calc_orbitals.py:55-61: pairs (i, j) with i < j in the order of the two loops. *)
Definition pairs (n : nat) : list (nat * nat) :=
  flat_map (fun i => map (fun j => (i, j)) (seq (i + 1) (n - (i + 1)))) (seq 0 (n - 1)).
Definition mix_all (g : grid) (n : nat) (eig : vec) (phi : nat -> colv) : nat -> colv :=
  fold_left (fun p ij => mix_pair g eig (fst ij) (snd ij) p) (pairs n) phi.

(** CADMium/pssolver/calc_orbitals.py:64-72, one column (a comparison with NaN is False). *)
Definition sym_col (g : grid) (a : colv) : colv :=
  match a with
  | None => None
  | Some x =>
      if Rlt_dec 0 (sumR (Nelem g) (fun k => x k * mirror1 g x k)) then
        unit_col g (Some (fun k => x k + mirror1 g x k))
      else Some (fun k => x k - mirror1 g x k)
  end.

(** CADMium/pssolver/calc_orbitals.py:48-52: repeat with a lower shift while every entry is NaN. [eigs sigma]
    is ARPACK's answer (real parts) for shift sigma, None if all entries of the vectors are NaN; results with
    only some NaN entries are not modelled. [fuel] bounds the number of retries looked at. *)
Fixpoint eigs_retry (eigs : R -> option (vec * (nat -> vec))) (e0 : R) (fuel : nat) : option (vec * (nat -> vec)) :=
  match fuel with
  | O => None
  | S f => match eigs (e0 - / 10) with
           | Some r => Some r
           | None => eigs_retry eigs (e0 - / 10) f
           end
  end.

(** CADMium/pssolver/calc_orbitals.py:13-77 for Nmo <> 0: eigenvalues and columns. [argsort] is
    np.argsort. The result None means the retry loop has not ended within [fuel] passes. *)
Definition calc_orbitals (g : grid) (s : solver) (eigs : R -> option (vec * (nat -> vec)))
    (argsort : list R -> list nat) (e0 : R) (fuel : nat) : option (vec * (nat -> colv)) :=
  let first :=
    match eigs e0 with
    | Some (e, p) =>
        let indx := argsort (map e (seq 0 (s_Nmo s))) in
        Some (fun i => e (nth i indx 0%nat), fun i => p (nth i indx 0%nat))
    | None => eigs_retry eigs e0 fuel
    end in
  match first with
  | None => None
  | Some (e, p) =>
      let ph := mix_all g (s_Nmo s) e (fun i => Some (p i)) in
      Some (e, fun i => if s_sym s && (i <? s_Nmo s)%nat then sym_col g (ph i) else ph i)
  end.

(** CADMium/pssolver/iter_orbitals.py:36-43: the bordered Newton matrix of orbital j. *)
Definition newton_C (g : grid) (H : mat) (e : R) (p : vec) : mat :=
  fun i j =>
    if (i <? Nelem g)%nat then
      if (j <? Nelem g)%nat then H i j - e * diagflat (gw g) i j else - (gw g i * p i)
    else
      if (j <? Nelem g)%nat then - (gw g j * p j) else - / 10 ^ 12.
(** CADMium/pssolver/iter_orbitals.py:45. *)
Definition newton_rhs (g : grid) (r : vec) : vec := fun i => if (i <? Nelem g)%nat then r i else 0.

(** CADMium/pssolver/iter_orbitals.py:30 residual column of orbital j (from the orbitals on entry). *)
Definition res_col (g : grid) (H : mat) (e : R) (p : vec) : vec :=
  fun k => gapply g H p k - gw g k * (p k * e).
(** np.amax of absolute values over the grid (Nelem >= 1). *)
Fixpoint maxabs (n : nat) (f : vec) : R :=
  match n with
  | O => 0
  | S k => Rmax (maxabs k f) (Rabs (f k))
  end.

(** CADMium/pssolver/iter_orbitals.py:33-59: loop state (orbitals, eigenvalues, last x). [lin] is the linear
    solver (bicgstab or spsolve). *)
Record itst : Type := mkIt { it_phi : nat -> vec; it_eig : vec; it_x : option vec }.
Definition iter_step (g : grid) (s : solver) (H : mat) (lin : mat -> vec -> vec) (tol : R)
    (rv : nat -> vec) (j : nat) (st : itst) : res itst :=
  let x := if Rlt_dec tol (maxabs (Nelem g) (rv j))
           then Some (lin (newton_C g H (it_eig st j) (it_phi st j)) (newton_rhs g (rv j)))
           else it_x st in
  match x with
  | None => Err UnboundLocalError
  | Some x' =>
      let phi' := upd (it_phi st) j (fun k => it_phi st j k - x' k) in
      let eig' := upd (it_eig st) j (it_eig st j - x' (Nelem g)) in
      Ok (mkIt (normalize_orbitals g s phi') eig' (Some x'))
  end.
Fixpoint iter_loop (g : grid) (s : solver) (H : mat) (lin : mat -> vec -> vec) (tol : R)
    (rv : nat -> vec) (n : nat) (st : itst) : res itst :=
  match n with
  | O => Ok st
  | S k => do st' <- iter_loop g s H lin tol rv k st; iter_step g s H lin tol rv k st'
  end.
(** CADMium/pssolver/iter_orbitals.py:15-64 for Nmo <> 0 and orbitals already present. *)
Definition iter_orbitals (g : grid) (s : solver) (lin : mat -> vec -> vec) (tol : R)
    (phi : nat -> vec) (eig : vec) : res itst :=
  let H := fun i j => hamiltonian g (s_m s) i j + diagflat (fun k => gw g k * s_veff s k) i j in
  iter_loop g s H lin tol (fun j => res_col g H (eig j) (phi j)) (s_Nmo s) (mkIt phi eig None).
