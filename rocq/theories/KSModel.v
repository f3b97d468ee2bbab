(** Model of CADMium/kohnsham/kohnsham.py, kohnsham/scf.py and the constructor of CADMium/pssolver/pssolver.py.
    Not modelled: printing; NaN inside orbitals, potentials and densities (arrays are exact reals); the internals
    of the worker processes, which enter as [e_worker]. *)
From Coq Require Import Reals List Arith ZArith Bool String.
From Verif Require Import Base GridModel HartreeModel SolverModel LibxcModel OptionsModel.
Import ListNotations.
Local Open Scope R_scope.

(** Arithmetic on floats that may be infinite or NaN (used for energies and residuals). *)
Definition nneg (x : num) : num := match x with Fin a => Fin (- a) | PInf => NInf | NInf => PInf | NaN => NaN end.
Definition nadd (x y : num) : num :=
  match x, y with
  | NaN, _ | _, NaN => NaN
  | Fin a, Fin b => Fin (a + b)
  | PInf, NInf | NInf, PInf => NaN
  | PInf, _ | _, PInf => PInf
  | NInf, _ | _, NInf => NInf
  end.
Definition nsub (x y : num) : num := nadd x (nneg y).
Definition nabs (x : num) : num := match x with Fin a => Fin (Rabs a) | PInf | NInf => PInf | NaN => NaN end.
Definition ndivn (x y : num) : num :=
  match x, y with
  | NaN, _ | _, NaN => NaN
  | Fin a, Fin b => ndiv a b
  | Fin _, _ => Fin 0
  | PInf, Fin b => if Rlt_dec b 0 then NInf else PInf
  | NInf, Fin b => if Rlt_dec b 0 then PInf else NInf
  | _, _ => NaN
  end.
(** np.max of a list of floats: NaN wins. *)
Definition npmax2 (a b : num) : num := match a, b with NaN, _ | _, NaN => NaN | _, _ => pymax a b end.
Definition npmax (l : list num) : res num :=
  match l with [] => Err ValueError | x :: r => Ok (fold_left npmax2 r x) end.

(** for k in range(n): body, with a state that the body may change and exceptions. *)
Fixpoint forN {S : Type} (n : nat) (body : nat -> S -> res S) (s : S) : res S :=
  match n with
  | O => Ok s
  | Datatypes.S k => do s' <- forN k body s; body k s'
  end.

(** Use of an attribute that may still be None in an array expression. *)
Definition need {A : Type} (o : option A) : res A := match o with Some a => Ok a | None => Err TypeError end.

(** Data of an array regardless of its shape. *)
Definition arr_fun (a : arr R) : mat := match a with A1 f => fun k _ => f k | A2 _ f => f end.

(** 0.5 * (f + mirror(f)), generic in the arithmetic (CADMium/kohnsham/kohnsham.py:155, 242, 363). *)
Definition sym_avg {A : Type} (add : A -> A -> A) (half : A -> A) (g : grid) (f : nat -> nat -> A) : nat -> nat -> A :=
  fun k s => half (add (f k s) (mirror2 g f k s)).
Definition sym_avgR (g : grid) (f : mat) : mat := sym_avg Rplus (Rmult (1 / 2)) g f.

(** * Solver array *)
(** CADMium/pssolver/pssolver.py:51-97. Only N, Nmo, Nlvls, pol and the options fractional, sym matter for the
    attributes kept in [solver]; N == -1 reads the missing attribute self.polarization (line 92). *)
Definition i_solver_init (Nmo : nat) (N : R) (Nlvls pol : nat) (opt : dict) : res solver :=
  do o <- configure SolverOptions opt;
  if Req_EM_T N (-1) then Err AttributeError
  else Ok (mkSolver (Z.of_nat Nlvls) pol N Nmo (getB o "fractional") (getB o "sym") (fun _ => 0) None None).
Definition upd2 {A : Type} (f : nat -> nat -> A) (i j : nat) (x : A) : nat -> nat -> A :=
  fun p q => if (p =? i)%nat && (q =? j)%nat then x else f p q.
Definition dummy_solver : solver := mkSolver 0 0 0 0 false false (fun _ => 0) None None.
(** CADMium/pssolver/pssolver.py:30-44; entries outside the array are never used. *)
Definition Pssolver (lv cols : nat) (Nmo : nat -> nat -> nat) (N : mat) (opt : dict) : res (nat -> nat -> solver) :=
  forN lv (fun i sol => forN cols (fun j sol =>
    do s <- i_solver_init (Nmo i j) (N i j) i cols opt; Ok (upd2 sol i j s)) sol) (fun _ _ => dummy_solver).

(** Attribute assignments on one solver (CADMium/pssolver/pssolver.py:160-167, kohnsham/kohnsham.py:231-232). *)
Definition set_veff (s : solver) (v : vec) : solver :=
  mkSolver (s_m s) (s_pol s) (s_N s) (s_Nmo s) (s_frac s) (s_sym s) v (s_phi s) (s_eig s).
Definition wres : Type := ((nat * vec) * option (nat * (nat -> vec)))%type.
Definition set_result (s : solver) (r : wres) : solver :=
  mkSolver (s_m s) (s_pol s) (s_N s) (s_Nmo s) (s_frac s) (s_sym s) (s_veff s) (snd r) (Some (fst r)).

(** * Kohn-Sham object *)
Record ksopt : Type := mkKSopt { o_int : string; o_sym : bool; o_frac : bool; o_xid : nat; o_cid : nat; o_fam : string }.

(** Energies left in self.E by energy() (CADMium/kohnsham/kohnsham.py:263-321). Vhxc, Eh are only set for dft. *)
Record kse : Type := mkE {
  E_Eks : vec; E_Vks : nat -> num; E_Ts : num; E_evals : list R;
  E_Enuc : R; E_Vext : R; E_Vhxc : option R; E_Eh : option R; E_Ex : R; E_Ec : R;
  E_Et : num; E_Vnn : R; E_E : num }.

(** self.V (CADMium/kohnsham/kohnsham.py:293-298, 356-358). *)
Record ksv : Type := mkV {
  V_vx : option mat; V_vc : option mat; V_vh : option mat;
  V_ex : option vec; V_ec : option vec; V_eh : option vec }.

(** CADMium/kohnsham/kohnsham.py:60-103 without the attributes used only by Partition. *)
Record ks : Type := mkKS {
  k_opt : ksopt; k_Za : R; k_Zb : R; k_pol : nat; k_lv : nat; k_cols : nat;
  k_sol : nat -> nat -> solver;
  k_vnuc : mat; k_vext : option mat; k_vhxc : option mat; k_veff : option mat; k_n : option mat;
  k_u : option R; k_E : option kse; k_V : ksv }.

Definition set_sol (k : ks) (x : nat -> nat -> solver) : ks :=
  mkKS (k_opt k) (k_Za k) (k_Zb k) (k_pol k) (k_lv k) (k_cols k) x (k_vnuc k) (k_vext k) (k_vhxc k) (k_veff k) (k_n k) (k_u k) (k_E k) (k_V k).
Definition set_vext (k : ks) (x : option mat) : ks :=
  mkKS (k_opt k) (k_Za k) (k_Zb k) (k_pol k) (k_lv k) (k_cols k) (k_sol k) (k_vnuc k) x (k_vhxc k) (k_veff k) (k_n k) (k_u k) (k_E k) (k_V k).
Definition set_vhxc (k : ks) (x : option mat) : ks :=
  mkKS (k_opt k) (k_Za k) (k_Zb k) (k_pol k) (k_lv k) (k_cols k) (k_sol k) (k_vnuc k) (k_vext k) x (k_veff k) (k_n k) (k_u k) (k_E k) (k_V k).
Definition set_veffs (k : ks) (x : option mat) : ks :=
  mkKS (k_opt k) (k_Za k) (k_Zb k) (k_pol k) (k_lv k) (k_cols k) (k_sol k) (k_vnuc k) (k_vext k) (k_vhxc k) x (k_n k) (k_u k) (k_E k) (k_V k).
Definition set_n (k : ks) (x : option mat) : ks :=
  mkKS (k_opt k) (k_Za k) (k_Zb k) (k_pol k) (k_lv k) (k_cols k) (k_sol k) (k_vnuc k) (k_vext k) (k_vhxc k) (k_veff k) x (k_u k) (k_E k) (k_V k).
Definition set_u (k : ks) (x : option R) : ks :=
  mkKS (k_opt k) (k_Za k) (k_Zb k) (k_pol k) (k_lv k) (k_cols k) (k_sol k) (k_vnuc k) (k_vext k) (k_vhxc k) (k_veff k) (k_n k) x (k_E k) (k_V k).
Definition set_EV (k : ks) (x : option kse) (v : ksv) : ks :=
  mkKS (k_opt k) (k_Za k) (k_Zb k) (k_pol k) (k_lv k) (k_cols k) (k_sol k) (k_vnuc k) (k_vext k) (k_vhxc k) (k_veff k) (k_n k) (k_u k) x v.

(** What the outside world does: e_worker iterative s is the (eig, phi) that a worker process started with the
    solver s delivers (iter_orbitals if [iterative], else calc_orbitals), None if it dies; the xc library; the
    two triangular solves of the Hartree potential. *)
Record env : Type := mkEnv { e_worker : bool -> solver -> option wres; e_lib : libfun; e_spL : vec -> vec; e_spU : vec -> vec }.

(** CADMium/kohnsham/kohnsham.py:138-155. For pol other than 1 and 2 all columns stay zero. *)
Definition ks_vnuc (g : grid) (Za Zb : R) (pol : nat) (sym : bool) : mat :=
  let v := coulomb g Za Zb in
  let f := fun k s => if ((pol =? 1) && (s =? 0))%nat%bool then v k
                      else if ((pol =? 2) && (s <? 2))%nat%bool then v k else 0 in
  if sym then sym_avgR g f else f.

(** CADMium/kohnsham/kohnsham.py:51-130 for two-dimensional Nmo, N of shapes (lv, cols), (lv', cols'); the solver
    shifts e0 are given by [ks_e0]. *)
Definition ks_init (g : grid) (Za Zb : R) (pol lv cols : nat) (Nmo : nat -> nat -> nat) (lv' cols' : nat) (N : mat) (opt : dict) : res ks :=
  do o <- configure KohnShamOptions opt;
  if negb ((lv =? lv')%nat && (cols =? cols')%nat) then Err AssertionError
  else
    let sym := getB o "sym" in
    do sol <- Pssolver lv cols Nmo N [("fractional"%string, VB (getB o "fractional")); ("sym"%string, VB sym)];
    Ok (mkKS (mkKSopt (getS o "interaction_type") sym (getB o "fractional") (Z.to_nat (getZ o "xfunc_id")) (Z.to_nat (getZ o "cfunc_id")) (getS o "xc_family"))
         Za Zb pol lv cols sol (ks_vnuc g Za Zb pol sym) None None None None None None (mkV None None None None None None)).
(** CADMium/kohnsham/kohnsham.py:127-130. *)
Definition ks_e0 (interaction : string) (Za Zb : R) (m : nat) : R :=
  if String.eqb interaction "ni" then - (3 / 2) * Rmax Za Zb ^ 2 / (INR m + 1) ^ 2
  else - Rmax Za Zb ^ 2 / (INR m + 1) ^ 2.

(** veff[:, j]. *)
Definition column (pol : nat) (M : mat) (j : nat) : res vec := if (j <? pol)%nat then Ok (fun k => M k j) else Err IndexError.

(** CADMium/kohnsham/kohnsham.py:164-166 (same loop in 182-184): columns outside, levels inside. *)
Definition distribute (k : ks) (v : mat) : res (nat -> nat -> solver) :=
  forN (k_cols k) (fun j sol => forN (k_lv k) (fun i sol =>
    do c <- column (k_pol k) v j; Ok (upd2 sol i j (set_veff (sol i j) c))) sol) (k_sol k).
Definition add3 (a b c : mat) : mat := fun k s => a k s + b k s + c k s.

(** CADMium/kohnsham/kohnsham.py:157-166. *)
Definition set_effective_potential (k : ks) : res ks :=
  do ve <- need (k_vext k);
  do vh <- need (k_vhxc k);
  let v := add3 (k_vnuc k) ve vh in
  do sol <- distribute k v;
  Ok (set_sol (set_veffs k (Some v)) sol).

(** CADMium/kohnsham/kohnsham.py:168-184: the argument is not used. *)
Definition set_veff_external (k : ks) (veff : mat) : res ks :=
  if (k_cols k =? 0)%nat || (k_lv k =? 0)%nat then Ok k
  else do v <- need (k_veff k); do sol <- distribute k v; Ok (set_sol k sol).

(** CADMium/kohnsham/kohnsham.py:211-226: the keys in start order; eig_results after all processes have been joined,
    [sched] being the order in which the workers finish. Each worker is forked with the solver as it is at the
    start, so it sees k_sol. *)
Definition keys (k : ks) : list (nat * nat) := flat_map (fun j => map (fun i => (i, j)) (seq 0 (k_lv k))) (seq 0 (k_cols k)).
Definition run_workers (w : solver -> option wres) (sol : nat -> nat -> solver) (sched : list (nat * nat)) : list ((nat * nat) * wres) :=
  fold_left (fun d ij => match w (sol (fst ij) (snd ij)) with Some r => (ij, r) :: d | None => d end) sched [].
Definition key_eqb (a b : nat * nat) : bool := ((fst a =? fst b) && (snd a =? snd b))%nat%bool.
Definition tget (d : list ((nat * nat) * wres)) (ij : nat * nat) : res wres :=
  match find (fun x => key_eqb (fst x) ij) d with Some x => Ok (snd x) | None => Err KeyError end.

(** CADMium/kohnsham/kohnsham.py:213: "ITERATIVE is True and dif < starttol". *)
Definition use_iter (iterative : bool) (dif : num) : bool := iterative && gtb (Fin (1 / 100)) dif.

(** CADMium/kohnsham/kohnsham.py:228-232. *)
Definition collect (k : ks) (d : list ((nat * nat) * wres)) : res (nat -> nat -> solver) :=
  forN (k_cols k) (fun j sol => forN (k_lv k) (fun i sol =>
    do r <- tget d (i, j); Ok (upd2 sol i j (set_result (sol i j) r))) sol) (k_sol k).
(** CADMium/kohnsham/kohnsham.py:205, 234-239. *)
Definition sum_dens (g : grid) (k : ks) (sol : nat -> nat -> solver) : res mat :=
  forN (k_cols k) (fun j n => forN (k_lv k) (fun i n =>
    do d <- calc_density g (sol i j);
    if (j <? k_pol k)%nat then Ok (fun x s => if (s =? j)%nat then n x s + d x else n x s) else Err IndexError) n) (fun _ _ => 0).
(** CADMium/kohnsham/kohnsham.py:186-244: updated object and nout. *)
Definition ks_density (g : grid) (w : env) (iterative : bool) (dif : num) (sched : list (nat * nat)) (k : ks) : res (ks * mat) :=
  let d := run_workers (e_worker w (use_iter iterative dif)) (k_sol k) sched in
  do sol <- collect k d;
  do n <- sum_dens g k sol;
  Ok (set_sol k sol, if o_sym (k_opt k) then sym_avgR g n else n).

(** grid.integrate(np.sum(n * v, axis=1)). *)
Definition pair_integral (g : grid) (pol : nat) (n v : mat) : R := integrate1 g (sum_cols pol (fun k s => n k s * v k s)).

(** CADMium/kohnsham/kohnsham.py:263-279: (Eks, Vks, Ts, evals). *)
Definition eacc : Type := (vec * (nat -> num) * num * list R)%type.
Definition energy_loop (g : grid) (k : ks) : res eacc :=
  forN (k_lv k) (fun i a => forN (k_cols k) (fun j a =>
    do r <- calc_energy g (k_sol k i j);
    let '(eks, Vs, Ts, _) := r in
    let '(aE, aV, aT, ev) := a in
    if (j <? k_pol k)%nat then
      Ok (fun s => if (s =? j)%nat then aE s + eks else aE s,
          fun s => if (s =? j)%nat then nadd (aV s) Vs else aV s,
          nadd aT Ts,
          (ev ++ match s_eig (k_sol k i j) with Some (c, e) => map e (seq 0 c) | None => [] end)%list)
    else Err IndexError) a) (fun _ => 0, fun _ => Fin 0, Fin 0, []).

(** CADMium/kohnsham/kohnsham.py:246-321 for the two interaction types that pass validation ('hfs' cannot occur). *)
Definition ks_energy (g : grid) (w : env) (k : ks) : res ks :=
  do a <- energy_loop g k;
  let '(aE, aV, aT, ev) := a in
  do n <- need (k_n k);
  let Enuc := pair_integral g (k_pol k) n (k_vnuc k) in
  do ve <- need (k_vext k);
  let Vext := pair_integral g (k_pol k) n ve in
  let Vnn := k_Za k * k_Zb k / (2 * ga g) in
  if String.eqb (o_int (k_opt k)) "ni" then
    let Et := nadd aT (Fin Enuc) in
    Ok (set_EV k (Some (mkE aE aV aT ev Enuc Vext None None 0 0 Et Vnn (nadd Et (Fin Vnn)))) (k_V k))
  else
    do vx0 <- need (k_vhxc k);
    let Vhxc := pair_integral g (k_pol k) n vx0 in
    do vh <- v_hartree g (e_spL w) (e_spU w) (A2 (k_pol k) n);
    let eh := fun x => 1 / 2 * arr_fun vh x 0%nat in
    let Eh := integrate1 g (fun x => sum_cols (k_pol k) n x * eh x) in
    do x <- get_xc g (e_lib w) (o_fam (k_opt k)) (o_xid (k_opt k)) (k_pol k) n;
    do c <- get_xc g (e_lib w) (o_fam (k_opt k)) (o_cid (k_opt k)) (k_pol k) n;
    let '(Ex, ex, vx) := x in
    let '(Ec, ec, vc) := c in
    let Et := nadd (nadd (nadd (nadd aT (Fin Enuc)) (Fin Eh)) (Fin Ex)) (Fin Ec) in
    Ok (set_EV k (Some (mkE aE aV aT ev Enuc Vext (Some Vhxc) (Some Eh) Ex Ec Et Vnn (nadd Et (Fin Vnn))))
         (mkV (Some vx) (Some vc) (Some (arr_fun vh)) (Some ex) (Some ec) (Some eh))).

(** CADMium/kohnsham/kohnsham.py:333-363 (the assignments to E.Ex, E.Ec are overwritten by energy() and left out). *)
Definition calc_hxc_potential (g : grid) (w : env) (k : ks) : res ks :=
  do kv <-
    (if String.eqb (o_int (k_opt k)) "ni" then
       do _ <- need (k_vext k); Ok (k, fun _ _ => 0)
     else
       do n <- need (k_n k);
       do x <- get_xc g (e_lib w) (o_fam (k_opt k)) (o_xid (k_opt k)) (k_pol k) n;
       do c <- get_xc g (e_lib w) (o_fam (k_opt k)) (o_cid (k_opt k)) (k_pol k) n;
       do vh <- v_hartree g (e_spL w) (e_spU w) (A2 (k_pol k) n);
       let v := add3 (snd x) (snd c) (arr_fun vh) in
       let V := k_V k in
       Ok (set_EV k (k_E k) (mkV (Some (snd x)) (Some (snd c)) (Some (arr_fun vh)) (V_ex V) (V_ec V) (V_eh V)), v));
  let '(k', v) := kv in
  Ok (set_vhxc k' (Some (if o_sym (k_opt k) then sym_avgR g v else v))).

(** Python max of a list of floats (no NaN): the first of the largest entries. *)
Definition pymaxR (l : list R) : res R :=
  match l with [] => Err ValueError | x :: r => Ok (fold_left (fun a b => if Rlt_dec a b then b else a) r x) end.
(** CADMium/kohnsham/kohnsham.py:365-384. *)
Definition calc_chempot (k : ks) : res ks :=
  do homos <- forN (k_lv k) (fun i l => forN (k_cols k) (fun j l => do h <- get_homo (k_sol k i j); Ok (l ++ [h])%list) l) [];
  do u <- pymaxR homos;
  Ok (set_u k (Some u)).

(** * Self-consistency loop (CADMium/kohnsham/scf.py) *)
Record scfopt : Type := mkSO { so_cont : bool; so_iter : bool; so_flip : bool; so_auto : bool; so_maxiter : Z; so_tol : R; so_alpha : R }.
(** CADMium/kohnsham/scf.py:26-30. *)
Definition scf_options (d : dict) : res scfopt :=
  do o <- configure_raw KohnShamSCFOptions d;
  Ok (mkSO (getB o "continuing") (getB o "iterative") (getB o "spinflipsym") (getB o "auto_tol") (getZ o "maxiter") (getR o "e_tol") (getR o "alpha")).

(** CADMium/kohnsham/scf.py:77, 90. *)
Definition flip_avg (g : grid) (pol : nat) (f : mat) : mat :=
  fun k s => (f k s + arr_fun (mirror g (spinflip (A2 pol f))) k s) / 2.

(** CADMium/kohnsham/scf.py:99 (integrate of an (Nelem,1) array is a number, otherwise an array). *)
Definition dens_residual (g : grid) (pol : nat) (n old : mat) : res num :=
  match integrate g (A2 pol (fun k s => Rabs (n k s - old k s))), integrate g (A2 pol (fun k s => Rabs (n k s))) with
  | IScal a, IScal b => Ok (ndiv a b)
  | IArr c a, IArr _ b => npmax (flat_map (fun k => map (fun s => ndiv (a k s) (b k s)) (seq 0 c)) (seq 0 (Nelem g)))
  | _, _ => Err ValueError
  end.
(** CADMium/kohnsham/scf.py:98-102. *)
Definition energy_residual (E old : num) : num := nabs (ndivn (nsub E old) E).
Definition residual (g : grid) (pol : nat) (E oldE : num) (n old : mat) : res num :=
  do dn <- dens_residual g pol n old; Ok (pymax (energy_residual E oldE) dn).

Record scst : Type := mkSt { c_ks : ks; c_diff : num; c_oldE : num; c_oldn : mat; c_iter : Z }.

(** CADMium/kohnsham/scf.py:64: "opt" is not defined (NameError) when the second disjunct is evaluated with auto_tol. *)
Definition scf_test (o : scfopt) (st : scst) : res bool :=
  if gtb (c_diff st) (Fin (so_tol o)) then Ok (c_iter st <? so_maxiter o)%Z
  else if so_auto o then Err NameError else Ok false.

(** CADMium/kohnsham/scf.py:71-73: the same assignments as [distribute], levels outside. *)
Definition distribute_scf (k : ks) (v : mat) : res (nat -> nat -> solver) :=
  forN (k_lv k) (fun i sol => forN (k_cols k) (fun j sol =>
    do c <- column (k_pol k) v j; Ok (upd2 sol i j (set_veff (sol i j) c))) sol) (k_sol k).

(** CADMium/kohnsham/scf.py:68-116; "dif" at line 107 is not defined. *)
Definition scf_body (g : grid) (w : env) (o : scfopt) (sched : list (nat * nat)) (st : scst) : res scst :=
  do k1 <- calc_hxc_potential g w (c_ks st);
  do ve <- need (k_vext k1);
  do vh <- need (k_vhxc k1);
  let v := add3 (k_vnuc k1) ve vh in
  do sol <- distribute_scf k1 v;
  let v' := if so_flip o then flip_avg g (k_pol k1) v else v in
  let k2 := set_sol (set_veffs k1 (Some v')) sol in
  do kn <- ks_density g w (so_iter o) (if so_iter o && so_cont o then Fin 0 else c_diff st) sched k2;
  let '(k3, nout) := kn in
  do n <- need (k_n k3);
  let mix := fun x s => (1 - so_alpha o) * n x s + so_alpha o * nout x s in
  let n' := if so_flip o then flip_avg g (k_pol k1) mix else mix in
  do k4 <- ks_energy g w (set_n k3 (Some n'));
  do k5 <- calc_chempot k4;
  do E <- need (k_E k5);
  do r <- residual g (k_pol k1) (E_E E) (c_oldE st) n' (c_oldn st);
  if so_auto o then Err NameError
  else Ok (mkSt k5 r (E_E E) n' (c_iter st + 1)%Z).

(** CADMium/kohnsham/scf.py:64-116; [sched t] is the finishing order of the workers in iteration t. *)
Fixpoint scf_loop (g : grid) (w : env) (o : scfopt) (sched : Z -> list (nat * nat)) (fuel : nat) (st : scst) : res scst :=
  match fuel with
  | O => Ok st
  | S f => do b <- scf_test o st;
           if b then do st' <- scf_body g w o (sched (c_iter st)) st; scf_loop g w o sched f st' else Ok st
  end.

(** CADMium/kohnsham/scf.py:36-51. len(None) raises TypeError. *)
Definition scf_start (g : grid) (w : env) (o : scfopt) (sched : list (nat * nat)) (k : ks) : res ks :=
  let vext := match k_vext k with None => fun _ _ => 0 | Some v => v end in
  if so_cont o then do _ <- need (k_n k); Ok (set_vext k (Some vext))
  else
    do k1 <- set_effective_potential (set_vhxc (set_vext k (Some vext)) (Some (fun _ _ => 0)));
    do kn <- ks_density g w false (Fin 0) sched k1;
    let '(k2, nout) := kn in
    Ok (set_n k2 (Some nout)).

(** CADMium/kohnsham/scf.py:21-116. The fuel is one more than the number of passes the counter allows. *)
Definition ks_scf (g : grid) (w : env) (sched : Z -> list (nat * nat)) (d : dict) (k : ks) : res scst :=
  do o <- scf_options d;
  do k0 <- scf_start g w o (sched 0%Z) k;
  scf_loop g w o sched (Datatypes.S (Z.to_nat (so_maxiter o))) (mkSt k0 (Fin 10) (Fin 0) (fun _ _ => 0) 1%Z).
