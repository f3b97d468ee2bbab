(** Model of CADMium/inverter/*.py: the Inverter object and its inversion methods.
    Not modelled: printing and warnings; the numerical libraries (least_squares, numpy.linalg.solve, ARPACK),
    which enter as the record [invenv]; array entries that are infinite or NaN (see [NotFinite] in Base). *)
From Coq Require Import Reals List Arith ZArith Bool String.
From Verif Require Import Base GridModel SolverModel OptionsModel KSModel.
Import ListNotations.
Local Open Scope R_scope.

(** CADMium/inverter/inverter.py:17-36, the options that influence results. *)
Record invopt : Type := mkIO {
  io_ab : bool; io_ess : bool; io_iter : bool; io_avoid : bool; io_type : string;
  io_tol : R; io_maxit : Z; io_resf : R }.

(** self.us: a float (simple), or a 2-D array with its numbers of rows and columns (linresponse, orbitalinvert). *)
Inductive uval : Type := U0 (r : R) | U2 (rows cols : nat) (u : mat).

(** One entry of the array of inversion reports: least_squares' or inversion_info's nfev and optimality. *)
Record info : Type := mkInfo { nfev : nat; optimality : num }.
(** The second return value of invert: an object array of shape (rows, cols), or True (simple). *)
Inductive invout : Type := OArr (rows cols : nat) (o : nat -> nat -> option info) | OTrue.

(** The object (CADMium/inverter/inverter.py:88-108). [i_vset i j]: solver[i,j].veff is not None. [i_ked]:
    solver[i,j].ked_WFI. [i_alias]: column 1 of the solver array holds the very objects of column 0
    (CADMium/partition/vp_kinetic.py:98). *)
Record inverter : Type := mkInv {
  i_opt : invopt; i_lv : nat; i_cols : nat; i_sol : nat -> nat -> solver; i_vset : nat -> nat -> bool;
  i_chi : nat -> nat -> option mat; i_ked : nat -> nat -> option vec; i_alias : bool;
  i_vs : option (arr R); i_us : option uval; i_Ts : option R }.

Definition inv_solver (iv : inverter) (i j : nat) (s : solver) : inverter :=
  mkInv (i_opt iv) (i_lv iv) (i_cols iv) (upd2 (i_sol iv) i j s) (i_vset iv) (i_chi iv) (i_ked iv) (i_alias iv) (i_vs iv) (i_us iv) (i_Ts iv).
(** setveff: the solver's veff is no longer None. *)
Definition inv_setveff (iv : inverter) (i j : nat) (v : vec) : inverter :=
  mkInv (i_opt iv) (i_lv iv) (i_cols iv) (upd2 (i_sol iv) i j (set_veff (i_sol iv i j) v)) (upd2 (i_vset iv) i j true) (i_chi iv) (i_ked iv) (i_alias iv) (i_vs iv) (i_us iv) (i_Ts iv).
Definition inv_chi (iv : inverter) (i j : nat) (c : mat) : inverter :=
  mkInv (i_opt iv) (i_lv iv) (i_cols iv) (i_sol iv) (i_vset iv) (upd2 (i_chi iv) i j (Some c)) (i_ked iv) (i_alias iv) (i_vs iv) (i_us iv) (i_Ts iv).
Definition inv_ked (iv : inverter) (i j : nat) (t : vec) : inverter :=
  mkInv (i_opt iv) (i_lv iv) (i_cols iv) (i_sol iv) (i_vset iv) (i_chi iv) (upd2 (i_ked iv) i j (Some t)) (i_alias iv) (i_vs iv) (i_us iv) (i_Ts iv).
Definition inv_vs (iv : inverter) (v : option (arr R)) : inverter :=
  mkInv (i_opt iv) (i_lv iv) (i_cols iv) (i_sol iv) (i_vset iv) (i_chi iv) (i_ked iv) (i_alias iv) v (i_us iv) (i_Ts iv).
Definition inv_us (iv : inverter) (u : option uval) : inverter :=
  mkInv (i_opt iv) (i_lv iv) (i_cols iv) (i_sol iv) (i_vset iv) (i_chi iv) (i_ked iv) (i_alias iv) (i_vs iv) u (i_Ts iv).
Definition inv_Ts (iv : inverter) (t : R) : inverter :=
  mkInv (i_opt iv) (i_lv iv) (i_cols iv) (i_sol iv) (i_vset iv) (i_chi iv) (i_ked iv) (i_alias iv) (i_vs iv) (i_us iv) (Some t).
(** The option object is mutable: optInv.avoid_loop = b (CADMium/partition/scf.py:149-151). *)
Definition inv_avoid (iv : inverter) (b : bool) : inverter :=
  let o := i_opt iv in
  mkInv (mkIO (io_ab o) (io_ess o) (io_iter o) b (io_type o) (io_tol o) (io_maxit o) (io_resf o))
    (i_lv iv) (i_cols iv) (i_sol iv) (i_vset iv) (i_chi iv) (i_ked iv) (i_alias iv) (i_vs iv) (i_us iv) (i_Ts iv).

(** The numerical libraries. [v_orb s]: what calc_orbitals leaves in the solver s (eigenvalues and orbitals) or the
    exception it raises. [v_sps]: spsolve of calc_response. [v_lsq iv spin x0]: the trial potentials that
    least_squares evaluates, in order, and its answer x with its report. [v_lin]: numpy.linalg.solve. *)
Record invenv : Type := mkIE {
  v_orb : solver -> res wres;
  v_sps : mat -> vec -> vec;
  v_lsq : inverter -> nat -> vec -> list vec * vec * info;
  v_lin : nat -> mat -> vec -> res vec }.

(** CADMium/inverter/inverter.py:88-108. *)
Definition inverter_init (lv cols : nat) (sol : nat -> nat -> solver) (vset : nat -> nat -> bool) (opt : dict) : res inverter :=
  do o <- configure InverterOptions opt;
  if (lv =? 0)%nat || (cols =? 0)%nat then Err IndexError
  else Ok (mkInv (mkIO (getB o "ab_sym") (getB o "ens_spin_sym") (getB o "use_iterative") (getB o "avoid_loop")
                       (getS o "invert_type") (getR o "tol_invert") (getZ o "max_iter_invert") (getR o "res_factor"))
             lv cols sol vset (fun _ _ => None) (fun _ _ => None) false None None None).

(** numpy broadcasting of one dimension. *)
Definition bdim (a b : nat) : option nat :=
  if (a =? b)%nat then Some a else if (a =? 1)%nat then Some b else if (b =? 1)%nat then Some a else None.
(** Index used along a dimension of length a. *)
Definition bix (a k : nat) : nat := if (a =? 1)%nat then 0%nat else k.

(** CADMium/inverter/inverter.py:137-142: np.ones((Nelem,1)) * us - vs; a 2-D array (rows, columns, entries). *)
Definition get_vt (g : grid) (iv : inverter) : res (nat * nat * mat) :=
  do us <- need (i_us iv);
  let '(ur, uc, u) := match us with U0 r => (1%nat, 1%nat, fun _ _ => r) | U2 r c u => (r, c, u) end in
  match bdim (Nelem g) ur with
  | None => Err ValueError
  | Some r1 =>
      do vs <- need (i_vs iv);
      let '(vr, vc, v) := match vs with A1 f => (1%nat, Nelem g, fun _ k => f k) | A2 c f => (Nelem g, c, f) end in
      match bdim r1 vr, bdim uc vc with
      | Some r, Some c => Ok (r, c, fun k s => u (bix ur k) (bix uc s) - v (bix vr k) (bix vc s))
      | _, _ => Err ValueError
      end
  end.

(** CADMium/inverter/get_Ts.py:7-25 (calc_energy recomputes the solver's Ts; np.sum of a float is the float). *)
Definition get_Ts (g : grid) (iv : inverter) : res num :=
  let Ts i j := do e <- calc_energy g (i_sol iv i j); let '(_, _, t, _) := e in Ok t in
  if io_ess (i_opt iv) then
    forN (i_lv iv) (fun i acc => do t <- Ts i 0%nat; Ok (nadd acc (nadd t t))) (Fin 0)
  else
    forN (i_lv iv) (fun i acc => forN (i_cols iv) (fun j acc => do t <- Ts i j; Ok (nadd acc t)) acc) (Fin 0).

(** solver[i,j].calc_ked_WFI() for the columns j < n of level i (CADMium/inverter/get_ts_WFI.py:16-18, 29-30). *)
Definition ked_cols (g : grid) (n i : nat) (iv : inverter) : res inverter :=
  forN n (fun j iv =>
    do t <- calc_ked_WFI g (hamiltonian g (s_m (i_sol iv i j))) (i_sol iv i j);
    let iv1 := inv_ked iv i j t in
    Ok (if i_alias iv && (j =? 0)%nat then inv_ked iv1 i 1 t else iv1)) iv.
(** CADMium/inverter/get_ts_WFI.py:7-38: for each column the last level with a kinetic energy density counts. *)
Definition get_ts_WFI (g : grid) (iv : inverter) : res (inverter * mat) :=
  do iv' <- forN (i_lv iv) (fun i jv => ked_cols g (if io_ess (i_opt iv) then 1%nat else i_cols iv) i jv) iv;
  let ts j := fold_left (fun acc i => match i_ked iv' i j with Some t => t | None => acc end) (seq 0 (i_lv iv')) (fun _ => 0) in
  Ok (iv', fun k j => ts j k).

(** * Wu-Yang inversion *)
(** CADMium/inverter/inverter.py:169-170 / 184-185. *)
Definition avg1 (g : grid) (f : vec) : vec := fun k => 1 / 2 * (f k + mirror1 g f k).
(** CADMium/inverter/inverter.py:173-178: one solver. *)
Definition Ws_solver (g : grid) (E : invenv) (spin : nat) (vs : vec) (i : nat) (iv : inverter) : res inverter :=
  let iv1 := inv_setveff iv i spin vs in
  let s1 := i_sol iv1 i spin in
  do r <- v_orb E s1;
  let s2 := set_result s1 r in
  do n <- calc_density g s2;
  do e <- calc_energy g s2;
  do chi <- calc_response g (v_sps E) s2;
  Ok (inv_chi (inv_solver iv1 i spin s2) i spin chi).
(** CADMium/inverter/inverter.py:181-185: the density of the given spin column. *)
Definition Ws_density (g : grid) (spin : nat) (iv : inverter) : res vec :=
  do n <- forN (i_lv iv) (fun i acc => do d <- calc_density g (i_sol iv i spin); Ok (fun k => acc k + d k)) (fun _ => 0);
  Ok (if io_ab (i_opt iv) then avg1 g n else n).
(** CADMium/inverter/inverter.py:165-204; [n0] is the target column n0[:, spin], B = diag(1/n0). The target is
    taken to be nonzero (1/0 is infinite in numpy). The result has Nelem + 1 entries. *)
Definition Ws (g : grid) (E : invenv) (n0 : vec) (spin : nat) (vs : vec) (iv : inverter) : res (inverter * vec) :=
  let v := if io_ab (i_opt iv) then avg1 g vs else vs in
  if negb (spin <? i_cols iv)%nat then Err IndexError else
  do iv1 <- forN (i_lv iv) (fun i iv => Ws_solver g E spin v i iv) iv;
  do n <- Ws_density g spin iv1;
  do last <- (match i_vs iv1 with
              | Some (A2 c f) => if (spin <? c)%nat then Ok (f (Nelem g - 1)%nat spin) else Err IndexError
              | Some (A1 _) => Err IndexError
              | None => Err TypeError
              end);
  Ok (iv1, fun k => if (k <? Nelem g)%nat then 1 / n0 k * (n k - n0 k) else last).

(** CADMium/inverter/inverter.py:206-224: Nelem + 1 rows, Nelem columns. *)
Definition Jac_last (g : grid) (ab : bool) : vec :=
  let e := fun c => if (c =? Nelem g - 1)%nat then 1 else 0 in
  if ab then avg1 g e else e.
Definition Jacobian (g : grid) (n0 : vec) (spin : nat) (iv : inverter) : res mat :=
  do chi <- need (i_chi iv 0%nat spin);
  Ok (fun r c => if (r <? Nelem g)%nat then 1 / n0 r * chi r c else Jac_last g (io_ab (i_opt iv)) c).

(** CADMium/inverter/linresponse.py:47-53 and 77-83: least_squares on one spin column; the solvers are left as the
    last trial put them. *)
Definition lsq_run (g : grid) (E : invenv) (n0 : vec) (spin : nat) (x0 : vec) (iv : inverter) : res (inverter * vec * info) :=
  let '(trials, x, inf) := v_lsq E iv spin x0 in
  do iv' <- fold_left (fun r v => do iv <- r; do p <- Ws g E n0 spin v iv; Ok (fst p)) trials (Ok iv);
  Ok (iv', x, inf).

(** vs[:, i] = x on a 2-D array. *)
Definition set_vcol (a : option (arr R)) (i : nat) (x : vec) : res (option (arr R)) :=
  match a with
  | Some (A2 c f) => if (i <? c)%nat then Ok (Some (A2 c (fun k s => if (s =? i)%nat then x k else f k s))) else Err IndexError
  | Some (A1 _) => Err IndexError
  | None => Err TypeError
  end.
(** us[i] = r on a 2-D array: row i. *)
Definition set_urow (a : option uval) (i : nat) (r : R) : res (option uval) :=
  match a with
  | Some (U2 rows c u) => if (i <? rows)%nat then Ok (Some (U2 rows c (fun k s => if (k =? i)%nat then r else u k s))) else Err IndexError
  | _ => Err TypeError
  end.

(** Number of columns and the data of the target; a 1-D target becomes one column (linresponse.py:17-18). *)
Definition as_cols (a : arr R) : nat * mat := match a with A1 f => (1%nat, fun k _ => f k) | A2 c f => (c, f) end.

(** CADMium/inverter/linresponse.py:24-31: the initial guess. The argument vs0 is used only while
    solver[0,0].veff is None; without it line 28 refers to an unbound name (for one spin column; otherwise the product
    with the doubled weights of line 21 fails in line 27). *)
Definition lin_guess (pol : nat) (iv : inverter) (vs0 : option (arr R)) : res (arr R) :=
  if i_vset iv 0%nat 0%nat then Ok (A2 1 (fun k _ => s_veff (i_sol iv 0%nat 0%nat) k))
  else match vs0 with None => Err (if (pol =? 1)%nat then NameError else ValueError) | Some a => Ok a end.

(** One pass of the loop over spins, CADMium/inverter/linresponse.py:67-92. *)
Definition lin_spin (g : grid) (E : invenv) (n0 : mat) (vs0 : arr R) (i : nat) (st : inverter * (nat -> nat -> option info)) : res (inverter * (nat -> nat -> option info)) :=
  let '(iv, out) := st in
  if negb (i <? i_cols iv)%nat then Err IndexError else
  do x0 <- (match vs0 with A2 c f => column c f i | A1 _ => Err IndexError end);
  do r <- lsq_run g E (fun k => n0 k i) i x0 iv;
  let '(iv1, x, inf) := r in
  do vs' <- set_vcol (i_vs iv1) i x;
  do h <- get_homo (i_sol iv1 0%nat i);
  do us' <- set_urow (i_us iv1) i h;
  Ok (inv_us (inv_vs iv1 vs') us', fun p q => if (q =? i)%nat then Some inf else out p q).

(** np.hstack((a, a)) for a 2-D array. *)
Definition dup_cols (c : nat) (f : mat) : mat := fun k s => if (s <? c)%nat then f k s else f k (s - c)%nat.
Definition dup_vs (a : option (arr R)) : option (arr R) := match a with Some (A2 c f) => Some (A2 (2 * c) (dup_cols c f)) | _ => a end.
Definition dup_us (a : option uval) : option uval := match a with Some (U2 r c u) => Some (U2 r (2 * c) (dup_cols c u)) | _ => a end.

(** CADMium/inverter/linresponse.py:12-97 (called without ispin, inverter.py:161-163). *)
Definition linresponse (g : grid) (E : invenv) (n0a : arr R) (vs0 : option (arr R)) (iv : inverter) : res (inverter * invout) :=
  let '(pol, n0) := as_cols n0a in
  do guess <- lin_guess pol iv vs0;
  let zero := match guess with A1 _ => A1 (fun _ => 0) | A2 c _ => A2 c (fun _ _ => 0) end in
  let iv0 := inv_us (inv_vs iv (Some zero)) (Some (U2 1 pol (fun _ _ => 0))) in
  if io_ess (i_opt iv) then
    if (pol =? 0)%nat then Err IndexError else
    do x0 <- (match guess with A2 c f => column c f 0 | A1 _ => Err IndexError end);
    do r <- lsq_run g E (fun k => n0 k 0%nat) 0 x0 iv0;
    let '(iv1, x, inf) := r in
    do vs' <- set_vcol (i_vs iv1) 0 x;
    do h <- get_homo (i_sol iv1 0%nat 0%nat);
    do us' <- set_urow (i_us iv1) 0 h;
    let iv2 := inv_us (inv_vs iv1 (dup_vs vs')) (dup_us us') in
    if negb (1 <? i_cols iv)%nat then Err IndexError else
    Ok (inv_setveff iv2 0 1 x,
        OArr (i_lv iv) (i_cols iv) (fun p q => if ((p =? 0) && (q <? 2))%nat%bool then Some inf else None))
  else
    do r <- forN pol (lin_spin g E n0 guess) (iv0, fun _ _ => None);
    Ok (fst r, OArr (i_lv iv) (i_cols iv) (snd r)).

(** * simple *)
(** CADMium/inverter/simple.py:20-21 on positive densities (0.5 * 0.5 in line 20). *)
Definition simple_guess (g : grid) (n0 : vec) : vec :=
  let v := fun k => 1 / 2 * (1 / 2 * gapply g (elap g) (fun x => sqrt (n0 x)) k) / (sqrt (n0 k) * gw g k) in
  fun k => v k - v (Nelem g - 1)%nat.
(** CADMium/inverter/simple.py:51-59: the density; with a 1-D target only column 0 of n exists. *)
Definition simple_density (g : grid) (iv : inverter) : res vec :=
  forN (i_cols iv) (fun j acc => forN (i_lv iv) (fun i acc =>
    do d <- calc_density g (i_sol iv i j);
    if (j =? 0)%nat then Ok (fun k => acc k + d k) else Err IndexError) acc) (fun _ => 0).
(** CADMium/inverter/simple.py:45-67. The solver keeps a reference to self.vs, so the in-place update of line 63
    also changes its veff; setveff and calc_orbitals act on the last solver only. [fuel] = remaining passes. *)
Definition simple_step (g : grid) (E : invenv) (n0 : vec) (vs : vec) (iv : inverter) : res (inverter * vec * R) :=
  let i := (i_lv iv - 1)%nat in let j := (i_cols iv - 1)%nat in
  let iv1 := inv_setveff iv i j vs in
  do r <- v_orb E (i_sol iv1 i j);
  let iv2 := inv_solver iv1 i j (set_result (i_sol iv1 i j) r) in
  do n <- simple_density g iv2;
  let grad := fun k => 1 / n0 k * (n k - n0 k) in
  let vs' := fun k => vs k + 1 / 10 * grad k in
  Ok (inv_setveff iv2 i j vs', vs', maxabs (Nelem g) grad).
Fixpoint simple_loop (g : grid) (E : invenv) (n0 : vec) (tol opt : R) (fuel : nat) (vs : vec) (iv : inverter) : res (inverter * vec) :=
  match fuel with
  | O => Ok (iv, vs)
  | S f => if Rlt_dec tol opt then
             do r <- simple_step g E n0 vs iv;
             let '(iv', vs', opt') := r in simple_loop g E n0 tol opt' f vs' iv'
           else Ok (iv, vs)
  end.
(** np.max(eig). *)
Definition np_max_list (l : list R) : res R := match l with [] => Err ValueError | x :: r => Ok (fold_left Rmax r x) end.
Definition eig_max (s : solver) : res R :=
  match s_eig s with None => Err TypeError | Some (c, e) => np_max_list (map e (seq 0 c)) end.
(** CADMium/inverter/simple.py:69-72: [max] is 0.0 throughout, so the value of the last solver counts. *)
Definition simple_us (iv : inverter) : res R :=
  forN (i_lv iv) (fun i acc => forN (i_cols iv) (fun j _ =>
    do e <- eig_max (i_sol iv i j); Ok (if Rlt_dec 0 e then e else 0)) acc) 0.
(** CADMium/inverter/simple.py:9-97 (tilde is the spin index, never None when called through invert); line 24 calls
    a method that solvers do not have, line 17 uses an unbound name for 2-D targets. *)
Definition simple (g : grid) (E : invenv) (n0a : arr R) (iv : inverter) : res (inverter * invout) :=
  match n0a with
  | A2 _ _ => Err UnboundLocalError
  | A1 n0 =>
      if i_vset iv 0%nat 0%nat then Err AttributeError else
      do r <- simple_loop g E n0 (io_tol (i_opt iv)) 1 (Z.to_nat (io_maxit (i_opt iv) - 1)) (simple_guess g n0) iv;
      let '(iv1, vs) := r in
      do u <- simple_us iv1;
      do e <- calc_energy g (i_sol iv1 (i_lv iv - 1)%nat (i_cols iv - 1)%nat);
      do n <- simple_density g iv1;
      let '(eks, _, _, _) := e in
      Ok (inv_Ts (inv_us (inv_vs iv1 (Some (A1 vs))) (Some (U0 u))) (eks - integrate1 g (fun k => n k * vs k)), OTrue)
  end.

(** * orbitalinvert *)
(** CADMium/inverter/orbitalinvert.py:195-197: the diagonals of Wi and of WWi. *)
Definition oWi (g : grid) : vec := fun k => iprefac g * gwi g k.
Definition oWWi (g : grid) : vec := fun k => gw g k * oWi g k.

(** The unknown vector X: M orbitals of N entries, M - 1 eigenvalues (the last one is 0), the potential
    (CADMium/inverter/orbitalinvert.py:33-36, 64, 88-98). *)
Definition x_phi (N : nat) (x : vec) (i k : nat) : R := x (k + i * N)%nat.
Definition x_ev (N M : nat) (x : vec) (i : nat) : R := if (i <? M - 1)%nat then x (M * N + i)%nat else 0.
Definition x_v (N M : nat) (x : vec) (k : nat) : R := x (M * N + (M - 1) + k)%nat.
(** The inverse: np.vstack of the blocks. *)
Definition x_pack (N M : nat) (phi : nat -> vec) (ev v : vec) : vec :=
  fun r => if (r <? M * N)%nat then phi (r / N)%nat (r mod N)%nat
           else if (r <? M * N + (M - 1))%nat then ev (r - M * N)%nat
           else v (r - (M * N + (M - 1)))%nat.
Definition x_len (N M : nat) : nat := (M * N + (M - 1) + N)%nat.

(** CADMium/inverter/orbitalinvert.py:40-49 one pass; None marks a column of NaN (0/0). *)
Definition ab_pair (g : grid) (ev : vec) (i : nat) (phi : nat -> colv) : nat -> colv :=
  if Rlt_dec (Rabs (ev i - ev (i + 1)%nat)) (/ 10 ^ 6) then
    let even := cmap2 (mix_even g) (phi i) (phi (i + 1)%nat) in
    let odd := cmap2 (mix_odd g) (phi i) (phi (i + 1)%nat) in
    upd (upd phi i (unit_col g even)) (i + 1) (unit_col g odd)
  else phi.
(** CADMium/inverter/orbitalinvert.py:52-59 one column. *)
Definition ab_col (g : grid) (a : colv) : colv :=
  match a with
  | None => None
  | Some p =>
      if Rlt_dec 0 (sumR (Nelem g) (fun k => p k * mirror1 g p k))
      then unit_col g (Some (fun k => p k + mirror1 g p k))
      else unit_col g (Some (fun k => p k - mirror1 g p k))
  end.
(** All columns are real vectors, or the array contains NaN. *)
Fixpoint all_cols (n : nat) (phi : nat -> colv) : res (nat -> vec) :=
  match n with
  | O => Ok (fun _ _ => 0)
  | S i => do p <- all_cols i phi;
           match phi i with None => Err NotFinite | Some f => Ok (upd p i f) end
  end.
(** CADMium/inverter/orbitalinvert.py:25-69 (no orthogonality constraints, North = 0). *)
Definition ab_symmetrize (g : grid) (M : nat) (x : vec) : res vec :=
  let N := Nelem g in
  let ev := x_ev N M x in
  let p0 := fun i => Some (x_phi N x i) in
  let p1 := fold_left (fun p i => ab_pair g ev i p) (seq 0 (M - 1)) p0 in
  do p2 <- all_cols M (fun i => ab_col g (p1 i));
  Ok (x_pack N M p2 ev (avg1 g (x_v N M x))).

(** CADMium/inverter/orbitalinvert.py:76: the weighted norms. *)
Definition o_S (g : grid) (x : vec) (i : nat) : R := sumR (Nelem g) (fun k => oWWi g k * x_phi (Nelem g) x i k ^ 2).
(** CADMium/inverter/orbitalinvert.py:71-81; occ/S with S = 0 is infinite or NaN. *)
Definition normalize (g : grid) (M : nat) (occ : vec) (x : vec) : res vec :=
  let N := Nelem g in
  if forallb (fun i => if Rlt_dec 0 (o_S g x i) then true else false) (seq 0 M)
  then Ok (x_pack N M (fun i k => x_phi N x i k * sqrt (occ i / o_S g x i)) (x_ev N M x) (x_v N M x))
  else Err NotFinite.

(** CADMium/inverter/orbitalinvert.py:109-112: the matrix Hjac, blocks (i,k),(j,l) at index k + i*N; H0 is the
    solver's base Hamiltonian (C and H, lines 212-242). *)
Definition o_Hjac (g : grid) (M : nat) (H0 : mat) (x : vec) : mat :=
  let N := Nelem g in
  fun r c =>
    (if (r / N =? c / N)%nat then oWi g (r mod N) * H0 (r mod N)%nat (c mod N)%nat else 0)
    + (if (r =? c)%nat then oWWi g (r mod N) * (x_v N M x (r mod N) - x_ev N M x (r / N)) else 0).
(** CADMium/inverter/orbitalinvert.py:137-143: the equations. S - occ has shape (M, M) and column 0 is taken, so
    every normalisation row uses the norm of orbital 0. *)
Definition o_eqn (g : grid) (M : nat) (H0 : mat) (n0 occ : vec) (x : vec) : vec :=
  let N := Nelem g in
  fun r =>
    if (r <? M * N)%nat then sumR (M * N) (fun c => o_Hjac g M H0 x r c * x c)
    else if (r <? M * N + (M - 1))%nat then - (o_S g x 0 - occ (r - M * N)%nat) / 2
    else let k := (r - (M * N + (M - 1)))%nat in
         oWWi g k * ((sumR M (fun i => x_phi N x i k ^ 2) - n0 k) / 2).
(** CADMium/inverter/orbitalinvert.py:145-149 with the index arrays of lines 245-250. *)
Definition o_B2 (g : grid) (M : nat) (x : vec) : mat :=
  let N := Nelem g in fun r c => if (c =? r mod N)%nat then oWWi g (r mod N) * x r else 0.
Definition o_B3 (g : grid) (M : nat) (x : vec) : mat :=
  let N := Nelem g in fun r c => if (r <? (M - 1) * N)%nat && (c =? r / N)%nat then - (oWWi g (r mod N) * x r) else 0.
(** CADMium/inverter/orbitalinvert.py:155-164. *)
Definition o_jac (g : grid) (M : nat) (H0 : mat) (x : vec) : mat :=
  let N := Nelem g in let a := (M * N)%nat in let b := (M * N + (M - 1))%nat in
  fun r c =>
    if (r <? a)%nat then
      if (c <? a)%nat then o_Hjac g M H0 x r c
      else if (c <? b)%nat then o_B3 g M x r (c - a)%nat else o_B2 g M x r (c - b)%nat
    else if (c <? a)%nat then
      if (r <? b)%nat then o_B3 g M x c (r - a)%nat else o_B2 g M x c (r - b)%nat
    else 0.
(** CADMium/inverter/orbitalinvert.py:322-325. *)
Definition o_res_ks (g : grid) (M : nat) (eqn : vec) : R := maxabs (M * Nelem g) eqn.
Definition o_res_ncon (g : grid) (M : nat) (eqn : vec) : R := maxabs (Nelem g) (fun k => eqn (M * Nelem g + (M - 1) + k)%nat).

(** The loop of CADMium/inverter/orbitalinvert.py:294-444 over an arbitrary unknown [X]: [kres] gives the two
    residuals (which may be NaN), [upd true] is the Newton update and [upd false] the recomputation of the
    orbitals, both followed by symmetrisation and normalisation. *)
Definition nmulr (x : num) (c : R) : num :=
  match x with
  | Fin a => Fin (a * c)
  | NaN => NaN
  | PInf => if Rlt_dec 0 c then PInf else if Rlt_dec c 0 then NInf else NaN
  | NInf => if Rlt_dec 0 c then NInf else if Rlt_dec c 0 then PInf else NaN
  end.
Record oloop (X : Type) : Type := mkOL {
  ol_x : X; ol_iter : nat; ol_res : num; ol_force : bool; ol_ks : num; ol_n : num; ol_oks : num; ol_on : num }.
Arguments mkOL {X}. Arguments ol_x {X}. Arguments ol_iter {X}. Arguments ol_res {X}. Arguments ol_force {X}.
Arguments ol_ks {X}. Arguments ol_n {X}. Arguments ol_oks {X}. Arguments ol_on {X}.
(** lines 330-338. [old_ks] and [older_*] are the residuals of the previous and the one before (0 at the start). *)
Definition o_force (res ks n old_ks older_ks older_n : num) : bool :=
  gtb (Fin (/ 10 ^ 6)) res && gtb ks (nmulr old_ks (1 / 10)) && gtb (nmulr older_ks 10) ks
  && gtb n (nmulr older_n (1 / 10)) && gtb (nmulr older_n 10) n.
(** One pass, lines 305-444: the new state and whether the loop is finished. In the state, [ol_ks], [ol_n] are
    res_ks, res_ncon of the latest pass, [ol_oks], [ol_on] the old_ values (0 while they have not been shifted). *)
Definition o_step {X : Type} (o : invopt) (kres : X -> num * num) (update : bool -> X -> res X) (st : oloop X) : res (oloop X * bool) :=
  let it := S (ol_iter st) in
  let '(ks, n) := kres (ol_x st) in
  let shift := io_avoid o && (1 <? it)%nat in
  let oks := if shift then ol_ks st else ol_oks st in
  let on := if shift then ol_n st else ol_on st in
  let ooks := if shift then ol_oks st else Fin 0 in
  let oon := if shift then ol_on st else Fin 0 in
  let r := pymax ks n in
  let force := if io_avoid o && (2 <? it)%nat then o_force r ks n oks ooks oon else ol_force st in
  let st' x := mkOL x it r force ks n oks on in
  if gtb (Fin (io_tol o)) r then Ok (st' (ol_x st), true)
  else if (io_maxit o <=? Z.of_nat it)%Z then Ok (st' (ol_x st), true)
  else
    let newton := gtb n (nmulr ks (io_resf o)) || gtb (Fin (io_tol o * 10 ^ 2)) ks || force in
    do x' <- update newton (ol_x st);
    Ok (st' x', gtb r (Fin (10 ^ 2))).
Fixpoint o_loop {X : Type} (o : invopt) (kres : X -> num * num) (update : bool -> X -> res X) (fuel : nat) (st : oloop X) : res (option (oloop X)) :=
  match fuel with
  | O => Ok None
  | S f => do p <- o_step o kres update st;
           let '(st', fin) := p in if fin then Ok (Some st') else o_loop o kres update f st'
  end.
Definition o_start {X : Type} (x : X) : oloop X := mkOL x 0 (Fin 1) false (Fin 0) (Fin 0) (Fin 0) (Fin 0).
(** Number of passes that always suffices. *)
Definition o_fuel (o : invopt) : nat := S (Z.to_nat (io_maxit o)).

(** Symmetrisation and normalisation, lines 283-285 and 441-444. *)
Definition o_polish (g : grid) (ab : bool) (M : nat) (occ x : vec) : res vec :=
  do x1 <- (if ab then ab_symmetrize g M x else Ok x); normalize g M occ x1.
(** The solver's orbitals, eigenvalues as read off the unknown (lines 420-423, 459-461). *)
Definition o_store (g : grid) (M : nat) (x : vec) (s : solver) : solver :=
  let N := Nelem g in set_result s ((M, x_ev N M x), Some (M, x_phi N x)).
(** Lines 356-444: Newton step (use_iterative refers to the unbound name scipy, line 375) or recomputed orbitals. The
    loop variable is the pair of the unknown and the solver. *)
Definition o_update (g : grid) (E : invenv) (o : invopt) (M : nat) (n0 occ : vec) (newton : bool) (xs : vec * solver) : res (vec * solver) :=
  let N := Nelem g in
  let '(x, s) := xs in
  let H0 := hamiltonian g (s_m s) in
  if newton then
    if io_iter o then Err NameError else
    do d <- v_lin E (x_len N M) (o_jac g M H0 x) (o_eqn g M H0 n0 occ x);
    do x' <- o_polish g (io_ab o) M occ (fun r => x r + - 1 * d r);
    Ok (x', s)
  else
    let v := x_v N M x in
    let s1 := set_veff (o_store g M x s) v in
    do r <- v_orb E s1;
    let '((c, e), ph) := r in
    do p <- need ph;
    let last := e (c - 1)%nat in
    do x' <- o_polish g (io_ab o) M occ (x_pack N M (snd p) (fun i => e i - last) (fun k => v k - last));
    Ok (x', set_result s1 r).
Definition o_kres (g : grid) (M : nat) (n0 occ : vec) (xs : vec * solver) : num * num :=
  let e := o_eqn g M (hamiltonian g (s_m (snd xs))) n0 occ (fst xs) in
  (Fin (o_res_ks g M e), Fin (o_res_ncon g M e)).

(** Lines 199-236: with m <> 0 line 228 indexes a 1-D array with two indices; with an odd integer part of N and pol 1
    line 225 is out of range. N is cut to an integer when stored in the int array (N >= 0 here). *)
Definition o_setup (s : solver) : res unit :=
  if (s_m s =? 0)%Z then
    if (s_pol s =? 1)%nat && Z.odd (floorZ (s_N s)) then Err IndexError else Ok tt
  else Err IndexError.
(** Lines 256-281: the start vector. [phi0] is the flattened guess, [e0] = (length, values), [vs0] the guess for the
    potential. A solver that already has orbitals restarts from them. The numbers of stored orbitals and of
    eigenvalues are taken to be Nmo, as calc_orbitals and line 460 leave them. *)
Definition o_guess (g : grid) (s : solver) (phi0 : vec) (e0 : nat * vec) (vs0 : option (arr R)) : res vec :=
  let N := Nelem g in let M := s_Nmo s in
  match s_phi s with
  | None =>
      let '(L, e) := e0 in
      if (L <? M)%nat || (L =? 0)%nat then Err IndexError
      else do v <- need vs0;
           Ok (x_pack N M (fun i k => phi0 (k + i * N)%nat) (fun i => e i - e (L - 1)%nat) (fun k => arr_fun v k 0%nat - e (M - 1)%nat))
  | Some (c, p) =>
      do l <- eig_at s (-1);
      do ev <- need (s_eig s);
      Ok (x_pack N M (fun i k => - 1 * p i k) (fun i => snd ev i - l) (fun k => s_veff s k - l))
  end.

(** CADMium/inverter/orbitalinvert.py:168-481 for one level (lv = 1). Solver number i has m = i, so for more levels
    the second pass of the loop at line 212 raises IndexError. The returned report is a class attribute shared by
    all inversions; the array has shape (1,1). *)
Definition orbitalinvert (g : grid) (E : invenv) (n0 : vec) (phi0 : vec) (e0 : nat * vec) (vs0 : option (arr R)) (ispin : nat) (iv : inverter) : res (inverter * bool * invout) :=
  let N := Nelem g in
  let iv0 := match i_vs iv, i_us iv with
             | None, None => inv_us (inv_vs iv (Some (A2 (i_cols iv) (fun _ _ => 0)))) (Some (U2 N (i_cols iv) (fun _ _ => 0)))
             | _, _ => iv
             end in
  if negb (ispin <? i_cols iv)%nat then Err IndexError else
  let s := i_sol iv0 0%nat ispin in
  do u <- o_setup s;
  if (1 <? i_lv iv)%nat then Err IndexError else
  let M := s_Nmo s in
  let occ := fun _ : nat => 2 in
  let o := i_opt iv in
  do x0 <- o_guess g s phi0 e0 vs0;
  do x1 <- o_polish g (io_ab o) M occ x0;
  do r <- o_loop o (o_kres g M n0 occ) (o_update g E o M n0 occ) (o_fuel o) (o_start (x1, s));
  match r with
  | None => Err AssertionError
  | Some st =>
      let '(x, s1) := ol_x st in
      do vs' <- set_vcol (i_vs iv0) ispin (x_v N M x);
      let s2 := o_store g M x s1 in
      do h <- get_homo s2;
      do us' <- set_urow (i_us iv0) ispin h;
      do n <- calc_density g s2;
      let iv1 := inv_setveff (inv_solver (inv_us (inv_vs iv0 vs') us') 0 ispin s2) 0 ispin (x_v N M x) in
      Ok (iv1, negb (gtb (ol_res st) (Fin (io_tol o))),
          OArr 1 1 (fun _ _ => Some (mkInfo (ol_iter st) (ol_res st))))
  end.

(** CADMium/inverter/inverter.py:110-135. orbitalinvert with a 2-D target fails in the sparse product of
    orbitalinvert.py:141 (the set-up errors that may come first are not distinguished). *)
Definition invert (g : grid) (E : invenv) (n0 : arr R) (vs0 : option (arr R)) (phi0 : vec) (e0 : nat * vec) (ispin : nat) (iv : inverter) : res (inverter * invout) :=
  let t := io_type (i_opt iv) in
  if String.eqb t "wuyang" then linresponse g E n0 vs0 iv
  else if String.eqb t "simple" then simple g E n0 iv
  else if String.eqb t "orbitalinvert" then
    match n0 with
    | A1 n => do r <- orbitalinvert g E n phi0 e0 vs0 ispin iv; Ok (fst (fst r), snd r)
    | A2 _ _ => Err ValueError
    end
  else if String.eqb t "qinvert" then Err AttributeError
  else if String.eqb t "eigensolveinvert" then Err AttributeError
  else if String.eqb t "test" then Err AttributeError
  else Err ValueError.
