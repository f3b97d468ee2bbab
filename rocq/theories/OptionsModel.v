(** Option dictionaries and the pydantic classes of CADMium that consume them. *)
From Coq Require Import Reals List Arith ZArith Bool String Ascii.
From Verif Require Import Base.
Import ListNotations.
Local Open Scope string_scope.

(** Values of options: Python bool, int, float, str, list of floats. *)
Inductive pv : Type := VB (b : bool) | VZ (z : Z) | VR (r : R) | VS (s : string) | VL (l : list R).

(** A dict, in insertion order; keys of a Python dict are distinct. *)
Definition dict := list (string * pv).

(** str.lower (ASCII). *)
Definition lower_ascii (c : ascii) : ascii :=
  let n := nat_of_ascii c in
  if (65 <=? n)%nat && (n <=? 90)%nat then ascii_of_nat (n + 32) else c.
Fixpoint lower (s : string) : string :=
  match s with EmptyString => EmptyString | String c r => String (lower_ascii c) (lower r) end.

(** d[k]: the last assignment to a key counts (a dict comprehension may assign a key twice). *)
Fixpoint dget (d : dict) (k : string) : option pv :=
  match d with
  | [] => None
  | (k', v) :: r => match dget r k with Some x => Some x | None => if String.eqb k k' then Some v else None end
  end.

(** {k.lower(): v for k, v in d.items()} (CADMium/kohnsham/kohnsham.py:54, pssolver.py:54, partition.py:179,
    partition/scf.py:40, inverter.py:90). *)
Definition lower_keys (d : dict) : dict := map (fun kv => (lower (fst kv), snd kv)) d.

(** A pydantic BaseModel: field names with defaults and an optional list of admitted strings (the validator). *)
Record field : Type := mkField { f_name : string; f_default : pv; f_values : option (list string) }.
Definition schema := list field.
Definition names (sc : schema) : list string := map f_name sc.

(** Type check of a field: same kind as the default; an int is accepted for a float. Further pydantic
    coercions (e.g. "yes" for True) are not modelled: such values are treated as rejected. *)
Definition kind_ok (d v : pv) : bool :=
  match d, v with
  | VB _, VB _ | VZ _, VZ _ | VR _, VR _ | VR _, VZ _ | VS _, VS _ | VL _, VL _ => true
  | _, _ => false
  end.
Definition value_ok (f : field) (v : pv) : bool :=
  kind_ok (f_default f) v &&
  match f_values f, v with
  | Some l, VS s => existsb (String.eqb s) l
  | _, _ => true
  end.

(** Model( **d ): unknown keys are ignored (pydantic default), a bad value raises ValidationError, a
    ValueError. *)
Fixpoint pydantic (sc : schema) (d : dict) : res dict :=
  match sc with
  | [] => Ok []
  | f :: r =>
      do rest <- pydantic r d;
      match dget d (f_name f) with
      | None => Ok ((f_name f, f_default f) :: rest)
      | Some v => if value_ok f v then Ok ((f_name f, v) :: rest) else Err ValueError
      end
  end.

(** for i in d.keys(): if i not in Model().dict().keys(): raise ValueError *)
Definition known (sc : schema) (k : string) : bool := existsb (String.eqb k) (names sc).

(** CADMium/kohnsham/kohnsham.py:54-58, pssolver/pssolver.py:54-58, partition/partition.py:179-183,
    partition/scf.py:40-44, inverter/inverter.py:90-94. *)
Definition configure (sc : schema) (d : dict) : res dict :=
  let d' := lower_keys d in
  if forallb (known sc) (map fst d') then pydantic sc d' else Err ValueError.

(** CADMium/kohnsham/scf.py:26-30: the lower-cased key is only used for the check. *)
Definition configure_raw (sc : schema) (d : dict) : res dict :=
  if forallb (fun k => known sc (lower k)) (map fst d) then pydantic sc d else Err ValueError.

Definition B (n : string) (b : bool) : field := mkField n (VB b) None.
Definition I (n : string) (z : Z) : field := mkField n (VZ z) None.
Definition Fl (n : string) (r : R) : field := mkField n (VR r) None.
Definition St (n : string) (s : string) (vals : option (list string)) : field := mkField n (VS s) vals.

(** CADMium/kohnsham/kohnsham.py:31-44. *)
Definition KohnShamOptions : schema :=
  [St "interaction_type" "dft" (Some ["dft"; "ni"]); B "sym" false; B "fractional" false;
   I "xfunc_id" 1; I "cfunc_id" 12; St "xc_family" "lda" None].

(** CADMium/pssolver/pssolver.py:22-28. *)
Definition SolverOptions : schema :=
  [B "fractional" false; B "sym" false; B "iter_lin_solver" true; B "disp" true;
   Fl "tol_orbital" (/ 10 ^ 15); Fl "tol_lin_solver" (/ 10 ^ 4)].

(** CADMium/kohnsham/scf.py:8-17. *)
Definition KohnShamSCFOptions : schema :=
  [B "disp" true; B "continuing" false; B "iterative" true; B "spinflipsym" false; B "auto_tol" false;
   I "maxiter" 100; I "auto_tol_iter" 3; Fl "e_tol" (10 * / 10 ^ 6); Fl "alpha" (1 / 2)].

(** CADMium/partition/partition.py:59-92 (inherits KohnShamOptions). ke_param, a dict that is only handed to the
    unimplemented Paramke, is left out. *)
Definition PartitionOptions : schema :=
  (KohnShamOptions ++
  [St "vp_calc_type" "component" (Some ["component"; "potential_inversion"]);
   St "hxc_part_type" "exact" (Some ["exact"; "overlap_hxc_2"; "overlap_hxc"; "overlap_xc"; "surprisal"; "hartree"]);
   St "kinetic_part_type" "vonweiz" (Some ["vonweiz"; "inversion"; "libxcke"; "paramke"; "none"; "twoorbital"; "fixed"]);
   St "k_family" "gga" None; I "ke_func_id" 5; B "disp" false; B "ab_sym" false; B "fractonal" false;
   B "ens_spin_sym" false; B "isolated" false; B "fixed_q" false])%list.

(** CADMium/partition/scf.py:10-31. *)
Definition PartitionSCFOptions : schema :=
  [Fl "e_tol" (/ 10 ^ 7); I "max_iter" 50; mkField "alpha" (VL [(82 / 100)%R]) None; mkField "beta" (VL [(82 / 100)%R]) None;
   St "calc_type" "pdft" (Some ["pdft"; "sdft"]); B "disp" false; B "continuing" false; B "from_target_density" false;
   B "iterative" true; B "isolated" false; B "auto_tol" false; I "auto_tol_iter" 3; B "freeze_a" false; B "freeze_b" false].

(** CADMium/inverter/inverter.py:17-36. *)
Definition InverterOptions : schema :=
  [B "ab_sym" false; B "ens_spin_sym" false; B "use_iterative" false; B "disp" false; B "avoid_loop" false;
   St "invert_type" "wuyang" (Some ["wuyang"; "simple"; "orbitalinvert"; "qinvert"; "eigensolveinvert"; "test"]);
   Fl "k_val" (- / 10 ^ 12); Fl "tol_lin_solver" (/ 10 ^ 2); Fl "tol_invert" (/ 10 ^ 12);
   I "max_iter_lin_solver" 2000; I "max_iter_invert" 20; Fl "res_factor" 1].

(** Attribute access on a configured object. *)
Definition getB (o : dict) (k : string) : bool := match dget o k with Some (VB b) => b | _ => false end.
Definition getZ (o : dict) (k : string) : Z := match dget o k with Some (VZ z) => z | _ => 0%Z end.
Definition getR (o : dict) (k : string) : R := match dget o k with Some (VR r) => r | Some (VZ z) => IZR z | _ => 0%R end.
Definition getS (o : dict) (k : string) : string := match dget o k with Some (VS s) => s | _ => "" end.
Definition getL (o : dict) (k : string) : list R := match dget o k with Some (VL l) => l | _ => [] end.

(** CADMium/partition/scf.py:40-45: like [configure], then "isolated" is overwritten by the Partition's option. *)
Definition configure_partition_scf (isolated : bool) (d : dict) : res dict :=
  do o <- configure PartitionSCFOptions d;
  Ok (map (fun kv => if String.eqb (fst kv) "isolated" then (fst kv, VB isolated) else kv) o).
