(** Vocabulary for the Kohn-Sham properties. *)
From Coq Require Import Reals List Arith Lia ZArith Bool String.
From Verif Require Import Base GridModel GridSpec HartreeModel SolverModel SolverSpec LibxcModel OptionsModel KSModel.
Import ListNotations.
Local Open Scope R_scope.

(** (i, j) is a place of the solver array: level i, spin column j. *)
Definition place (k : ks) (i j : nat) : Prop := (i < k_lv k)%nat /\ (j < k_cols k)%nat.

(** A finishing order of the workers: every place exactly once. *)
Definition schedule (k : ks) (l : list (nat * nat)) : Prop :=
  NoDup l /\ forall i j, In (i, j) l <-> place k i j.

(** Only orbitals and eigenvalues differ. *)
Definition with_orbitals (s s' : solver) (e : option (nat * vec)) (p : option (nat * (nat -> vec))) : Prop :=
  s_m s' = s_m s /\ s_pol s' = s_pol s /\ s_N s' = s_N s /\ s_Nmo s' = s_Nmo s /\ s_frac s' = s_frac s /\ s_sym s' = s_sym s /\
  s_veff s' = s_veff s /\ s_phi s' = p /\ s_eig s' = e.

(** Every electron is placed: fractional occupation, or whole shells. *)
Definition placed (s : solver) : Prop := 0 <= s_N s /\ (s_frac s = true \/ full_shells s).

(** What is assumed of the diagonalisers: occupied orbitals are not the zero function (in the sense of the
    quadrature); a solver without orbitals has no electrons. *)
Definition worker_ok (g : grid) (w : env) : Prop := forall it s r, e_worker w it s = Some r ->
  match snd r with
  | Some (c, p) => forall i, 0 < filling s i -> 0 < integrate1 g (fun x => p i x ^ 2)
  | None => s_N s = 0
  end.

(** Requested electrons in spin column j. *)
Definition electrons (k : ks) (j : nat) : R := sumR (k_lv k) (fun i => s_N (k_sol k i j)).

(** The quadrature does not see the mirror. *)
Definition mirror_invariant (g : grid) : Prop := forall f, integrate1 g (mirror1 g f) = integrate1 g f.

(** Mirror symmetric in each of the first c columns. *)
Definition symmetric (g : grid) (c : nat) (f : mat) : Prop :=
  forall k s, (k < Nelem g)%nat -> (s < c)%nat -> mirror1 g (fun x => f x s) k = f k s.

(** States visited by the SCF loop. *)
Inductive scf_trace (g : grid) (w : env) (o : scfopt) (sched : Z -> list (nat * nat)) (k : ks) : scst -> Prop :=
| trace_start : forall k0, scf_start g w o (sched 0%Z) k = Ok k0 ->
    scf_trace g w o sched k (mkSt k0 (Fin 10) (Fin 0) (fun _ _ => 0) 1%Z)
| trace_step : forall st st', scf_trace g w o sched k st -> scf_test o st = Ok true ->
    scf_body g w o (sched (c_iter st)) st = Ok st' -> scf_trace g w o sched k st'.

(** Same attributes apart from potential, orbitals and eigenvalues. *)
Definition same_static (s s' : solver) : Prop :=
  s_m s' = s_m s /\ s_pol s' = s_pol s /\ s_N s' = s_N s /\ s_Nmo s' = s_Nmo s /\ s_frac s' = s_frac s /\ s_sym s' = s_sym s.

(** Whatever its potential, a solver of k gets from its worker as many orbitals and eigenvalues as its electrons need. *)
Definition capable (w : env) (k : ks) : Prop := forall it i j s, place k i j -> same_static (k_sol k i j) s ->
  0 <= s_N s /\ exists c e p, e_worker w it s = Some ((c, e), Some (c, p)) /\ s_N s <= INR c * shell_size (s_m s) (s_pol s).

(** Hartree and exchange-correlation evaluation do not fail. *)
Definition hxc_available (g : grid) (w : env) (k : ks) : Prop := o_int (k_opt k) = "ni"%string \/
  (forall n, exists x c vh,
     get_xc g (e_lib w) (o_fam (k_opt k)) (o_xid (k_opt k)) (k_pol k) n = Ok x /\
     get_xc g (e_lib w) (o_fam (k_opt k)) (o_cid (k_opt k)) (k_pol k) n = Ok c /\
     HartreeModel.v_hartree g (e_spL w) (e_spU w) (A2 (k_pol k) n) = Ok vh).
