(** Model of CADMium/partition/*.py: the Partition object, its energies, potentials and self-consistency loop.
    Not modelled: printing; the warnings other than the non-convergence one (scf.py:247); vp_surprise (in ExtraModel; never
    called: no accepted hxc_part_type reaches it); array entries that are infinite or NaN except where the type
    [num] is used (see [NotFinite] in Base). External numerics enter through [penv]. *)
From Coq Require Import Reals List Arith ZArith Bool String.
From Coquelicot Require Import Coquelicot.
From Verif Require Import Base GridModel HartreeModel SolverModel LibxcModel OptionsModel KSModel InverterModel.
Import ListNotations.
Local Open Scope R_scope.

(** * Data *)
(** Objects with attributes that may be missing (the classes V and E, CADMium/partition/partition.py:30-57 and
    CADMium/kohnsham/kohnsham.py:16-29): attribute name to value. *)
Definition attrs (A : Type) : Type := string -> option A.
Definition no_attrs {A : Type} : attrs A := fun _ => None.
Definition aset {A : Type} (d : attrs A) (k : string) (x : A) : attrs A := fun s => if String.eqb s k then Some x else d s.
(** Attribute access: AttributeError when missing (also for a method or attribute of None). *)
Definition have {A : Type} (o : option A) : res A := match o with Some a => Ok a | None => Err AttributeError end.
Definition attr {A : Type} (d : attrs A) (k : string) : res A := have (d k).

(** np.sum(x, axis=1); for x = None it raises numpy.AxisError, a ValueError. *)
Definition axis1 {A : Type} (o : option A) : res A := match o with Some a => Ok a | None => Err ValueError end.

(** for x in l: body. *)
Fixpoint forL {X S : Type} (l : list X) (body : X -> S -> res S) (s : S) : res S :=
  match l with [] => Ok s | x :: r => do s' <- body x s; forL r body s' end.

(** 2-D arrays of floats that may be infinite or NaN. *)
Definition nmat := nat -> nat -> num.
(** The array is finite (an infinite or NaN entry stops the model). *)
Definition is_fin (x : num) : bool := match x with Fin _ => true | _ => false end.
Definition to_R (x : num) : R := match x with Fin r => r | _ => 0 end.
Definition finite (rows cols : nat) (f : nmat) : res mat :=
  if forallb (fun k => forallb (fun s => is_fin (f k s)) (seq 0 cols)) (seq 0 rows)
  then Ok (fun k s => to_R (f k s)) else Err NotFinite.
Definition fin (x : num) : res R := match x with Fin r => Ok r | _ => Err NotFinite end.
(** n ** 0.5 of a 2-D array: NaN for negative entries. *)
Definition np_sqrt (rows cols : nat) (n : mat) : res mat :=
  finite rows cols (fun k s => if Rlt_dec (n k s) 0 then NaN else Fin (sqrt (n k s))).
Definition np_sqrt1 (rows : nat) (n : vec) : res vec :=
  do f <- np_sqrt rows 1 (fun k _ => n k); Ok (fun k => f k 0%nat).
(** nan_to_num(x, nan=0, posinf=0, neginf=0) is [to_R]; only NaN is removed by x[isnan(x)] = 0. *)
Definition no_nan (x : num) : num := match x with NaN => Fin 0 | y => y end.

(** The Kohn-Sham objects: KSa, KSA (upper integer of fragment A), KSb, KSB. *)
Inductive comp : Type := Ca | CA | Cb | CB.
Definition comp_eqb (x y : comp) : bool :=
  match x, y with Ca, Ca | CA, CA | Cb, Cb | CB, CB => true | _, _ => false end.

(** A Kohn-Sham object together with what Partition stores in it (CADMium/kohnsham/kohnsham.py:99-103). [f_Q] is None
    while Q is the initial zero array of shape (Nelem,). [f_homo i j]: solver[i,j].homo. [f_V]: attributes of V set
    by Partition; [f_vt], [f_VTs]: V.vt, V.Ts; [f_E]: attributes of E set by Partition. *)
Record frag : Type := mkF {
  f_ks : ks; f_scale : R; f_Q : option mat; f_alpha : R; f_frozen : option bool; f_homo : nat -> nat -> option R;
  f_V : attrs mat; f_vt : option nmat; f_VTs : option R; f_E : attrs R }.
Definition fk (f : frag) (k : ks) : frag := mkF k (f_scale f) (f_Q f) (f_alpha f) (f_frozen f) (f_homo f) (f_V f) (f_vt f) (f_VTs f) (f_E f).
Definition fscale (f : frag) (x : R) : frag := mkF (f_ks f) x (f_Q f) (f_alpha f) (f_frozen f) (f_homo f) (f_V f) (f_vt f) (f_VTs f) (f_E f).
Definition fQ (f : frag) (x : option mat) : frag := mkF (f_ks f) (f_scale f) x (f_alpha f) (f_frozen f) (f_homo f) (f_V f) (f_vt f) (f_VTs f) (f_E f).
Definition falpha (f : frag) (x : R) : frag := mkF (f_ks f) (f_scale f) (f_Q f) x (f_frozen f) (f_homo f) (f_V f) (f_vt f) (f_VTs f) (f_E f).
Definition ffrozen (f : frag) (x : bool) : frag := mkF (f_ks f) (f_scale f) (f_Q f) (f_alpha f) (Some x) (f_homo f) (f_V f) (f_vt f) (f_VTs f) (f_E f).
Definition fhomo (f : frag) (x : nat -> nat -> option R) : frag := mkF (f_ks f) (f_scale f) (f_Q f) (f_alpha f) (f_frozen f) x (f_V f) (f_vt f) (f_VTs f) (f_E f).
Definition fV (f : frag) (k : string) (x : mat) : frag := mkF (f_ks f) (f_scale f) (f_Q f) (f_alpha f) (f_frozen f) (f_homo f) (aset (f_V f) k x) (f_vt f) (f_VTs f) (f_E f).
Definition fvt (f : frag) (x : nmat) : frag := mkF (f_ks f) (f_scale f) (f_Q f) (f_alpha f) (f_frozen f) (f_homo f) (f_V f) (Some x) (f_VTs f) (f_E f).
Definition fTs (f : frag) (x : R) : frag := mkF (f_ks f) (f_scale f) (f_Q f) (f_alpha f) (f_frozen f) (f_homo f) (f_V f) (f_vt f) (Some x) (f_E f).
Definition fE (f : frag) (x : attrs R) : frag := mkF (f_ks f) (f_scale f) (f_Q f) (f_alpha f) (f_frozen f) (f_homo f) (f_V f) (f_vt f) (f_VTs f) x.

(** CADMium/partition/partition.py:59-92, the options that influence results. *)
Record popt : Type := mkPO {
  po_int : string; po_sym : bool; po_frac : bool; po_xid : nat; po_cid : nat; po_fam : string;
  po_vp : string; po_hxc : string; po_kin : string; po_kfam : string; po_kid : nat;
  po_ab : bool; po_ess : bool; po_iso : bool }.

(** A number or an array over the grid points (with kinetic_part_type vonweiz Ep_kin is an array). *)
Inductive sv : Type := SC (r : R) | AR (f : vec).
Definition sv_op (op : R -> R -> R) (x y : sv) : sv :=
  match x, y with
  | SC a, SC b => SC (op a b)
  | SC a, AR f => AR (fun k => op a (f k))
  | AR f, SC b => AR (fun k => op (f k) b)
  | AR f, AR h => AR (fun k => op (f k) (h k))
  end.

(** The object (CADMium/partition/partition.py:184-275). [p_E]: the attributes of E that are numbers, [p_T]: those
    that may be arrays (Ep_kin, Ep, Et, E); [p_vt]: V.vt with its number of columns; [p_x], [p_c]: (e_x, epsilon_x),
    (e_c, epsilon_c); [p_k]: (Tsm, tsm); [p_epk]: V.ep_kin. *)
Record part : Type := mkP {
  p_opt : popt; p_pol : nat; p_Za : R; p_Zb : R; p_nua : R; p_nub : R; p_ens : bool; p_va : vec; p_vb : vec;
  p_f : comp -> option frag;
  p_na : option mat; p_nb : option mat; p_nf : option mat;
  p_V : attrs mat; p_vt : option (nat * nmat); p_E : attrs R; p_T : attrs sv; p_Eks : vec; p_ev : list R * list R;
  p_x : option (R * vec); p_c : option (R * vec); p_k : option (R * vec);
  p_inv : option inverter; p_info : option invout; p_epk : option (arr num) }.
Definition set_frag (p : part) (c : comp) (f : frag) : part :=
  mkP (p_opt p) (p_pol p) (p_Za p) (p_Zb p) (p_nua p) (p_nub p) (p_ens p) (p_va p) (p_vb p)
    (fun d => if comp_eqb d c then Some f else p_f p d)
    (p_na p) (p_nb p) (p_nf p) (p_V p) (p_vt p) (p_E p) (p_T p) (p_Eks p) (p_ev p) (p_x p) (p_c p) (p_k p) (p_inv p) (p_info p) (p_epk p).
Definition set_dens (p : part) (na nb nf : mat) : part :=
  mkP (p_opt p) (p_pol p) (p_Za p) (p_Zb p) (p_nua p) (p_nub p) (p_ens p) (p_va p) (p_vb p) (p_f p)
    (Some na) (Some nb) (Some nf) (p_V p) (p_vt p) (p_E p) (p_T p) (p_Eks p) (p_ev p) (p_x p) (p_c p) (p_k p) (p_inv p) (p_info p) (p_epk p).
Definition set_V (p : part) (k : string) (x : mat) : part :=
  mkP (p_opt p) (p_pol p) (p_Za p) (p_Zb p) (p_nua p) (p_nub p) (p_ens p) (p_va p) (p_vb p) (p_f p)
    (p_na p) (p_nb p) (p_nf p) (aset (p_V p) k x) (p_vt p) (p_E p) (p_T p) (p_Eks p) (p_ev p) (p_x p) (p_c p) (p_k p) (p_inv p) (p_info p) (p_epk p).
Definition set_vt (p : part) (c : nat) (x : nmat) : part :=
  mkP (p_opt p) (p_pol p) (p_Za p) (p_Zb p) (p_nua p) (p_nub p) (p_ens p) (p_va p) (p_vb p) (p_f p)
    (p_na p) (p_nb p) (p_nf p) (p_V p) (Some (c, x)) (p_E p) (p_T p) (p_Eks p) (p_ev p) (p_x p) (p_c p) (p_k p) (p_inv p) (p_info p) (p_epk p).
Definition set_E (p : part) (k : string) (x : R) : part :=
  mkP (p_opt p) (p_pol p) (p_Za p) (p_Zb p) (p_nua p) (p_nub p) (p_ens p) (p_va p) (p_vb p) (p_f p)
    (p_na p) (p_nb p) (p_nf p) (p_V p) (p_vt p) (aset (p_E p) k x) (p_T p) (p_Eks p) (p_ev p) (p_x p) (p_c p) (p_k p) (p_inv p) (p_info p) (p_epk p).
Definition set_T (p : part) (k : string) (x : sv) : part :=
  mkP (p_opt p) (p_pol p) (p_Za p) (p_Zb p) (p_nua p) (p_nub p) (p_ens p) (p_va p) (p_vb p) (p_f p)
    (p_na p) (p_nb p) (p_nf p) (p_V p) (p_vt p) (p_E p) (aset (p_T p) k x) (p_Eks p) (p_ev p) (p_x p) (p_c p) (p_k p) (p_inv p) (p_info p) (p_epk p).
Definition set_eks (p : part) (x : vec) : part :=
  mkP (p_opt p) (p_pol p) (p_Za p) (p_Zb p) (p_nua p) (p_nub p) (p_ens p) (p_va p) (p_vb p) (p_f p)
    (p_na p) (p_nb p) (p_nf p) (p_V p) (p_vt p) (p_E p) (p_T p) x (p_ev p) (p_x p) (p_c p) (p_k p) (p_inv p) (p_info p) (p_epk p).
Definition set_evals (p : part) (x : list R * list R) : part :=
  mkP (p_opt p) (p_pol p) (p_Za p) (p_Zb p) (p_nua p) (p_nub p) (p_ens p) (p_va p) (p_vb p) (p_f p)
    (p_na p) (p_nb p) (p_nf p) (p_V p) (p_vt p) (p_E p) (p_T p) (p_Eks p) x (p_x p) (p_c p) (p_k p) (p_inv p) (p_info p) (p_epk p).
Definition set_xc (p : part) (x c : R * vec) : part :=
  mkP (p_opt p) (p_pol p) (p_Za p) (p_Zb p) (p_nua p) (p_nub p) (p_ens p) (p_va p) (p_vb p) (p_f p)
    (p_na p) (p_nb p) (p_nf p) (p_V p) (p_vt p) (p_E p) (p_T p) (p_Eks p) (p_ev p) (Some x) (Some c) (p_k p) (p_inv p) (p_info p) (p_epk p).
Definition set_kin (p : part) (x : R * vec) : part :=
  mkP (p_opt p) (p_pol p) (p_Za p) (p_Zb p) (p_nua p) (p_nub p) (p_ens p) (p_va p) (p_vb p) (p_f p)
    (p_na p) (p_nb p) (p_nf p) (p_V p) (p_vt p) (p_E p) (p_T p) (p_Eks p) (p_ev p) (p_x p) (p_c p) (Some x) (p_inv p) (p_info p) (p_epk p).
(** part.inverter = x is how users attach the Inverter (CADMium/partition/partition.py:218). *)
Definition set_inv (p : part) (x : option inverter) : part :=
  mkP (p_opt p) (p_pol p) (p_Za p) (p_Zb p) (p_nua p) (p_nub p) (p_ens p) (p_va p) (p_vb p) (p_f p)
    (p_na p) (p_nb p) (p_nf p) (p_V p) (p_vt p) (p_E p) (p_T p) (p_Eks p) (p_ev p) (p_x p) (p_c p) (p_k p) x (p_info p) (p_epk p).
Definition set_info (p : part) (x : invout) : part :=
  mkP (p_opt p) (p_pol p) (p_Za p) (p_Zb p) (p_nua p) (p_nub p) (p_ens p) (p_va p) (p_vb p) (p_f p)
    (p_na p) (p_nb p) (p_nf p) (p_V p) (p_vt p) (p_E p) (p_T p) (p_Eks p) (p_ev p) (p_x p) (p_c p) (p_k p) (p_inv p) (Some x) (p_epk p).
Definition set_epk (p : part) (x : arr num) : part :=
  mkP (p_opt p) (p_pol p) (p_Za p) (p_Zb p) (p_nua p) (p_nub p) (p_ens p) (p_va p) (p_vb p) (p_f p)
    (p_na p) (p_nb p) (p_nf p) (p_V p) (p_vt p) (p_E p) (p_T p) (p_Eks p) (p_ev p) (p_x p) (p_c p) (p_k p) (p_inv p) (p_info p) (Some x).

(** self.KSx; the attribute does not exist for KSA, KSB unless an ensemble has been constructed. *)
Definition get_f (p : part) (c : comp) : res frag := have (p_f p c).

(** External numerics: those of the Kohn-Sham objects and of the inverter; scipy.linalg.eig(a=F, b=S) for size M
    (eigenvalues and the matrix whose columns are the eigenvectors, taken to be real) and np.argsort. *)
Record penv : Type := mkPE {
  pe_env : env; pe_inv : invenv; pe_eig : nat -> mat -> mat -> vec * mat; pe_argsort : nat -> vec -> nat -> nat }.

(** The lists [self.KSa], [self.KSa, self.KSA], ... built at the head of every method. *)
Definition comps_a (ens : bool) : list comp := if ens then [Ca; CA] else [Ca].
Definition comps_b (ens : bool) : list comp := if ens then [Cb; CB] else [Cb].
Definition comps (ens : bool) : list comp := if ens then [Ca; CA; Cb; CB] else [Ca; Cb].
(** KSab: with ab_sym only fragment A. *)
Definition comps_ab (p : part) : list comp := if po_ab (p_opt p) then comps_a (p_ens p) else comps (p_ens p).

(** * Construction (CADMium/partition/partition.py) *)
(** Nmo and N of one component with their shapes. *)
Record fspec : Type := mkFS { fs_lv : nat; fs_cols : nat; fs_Nmo : nat -> nat -> nat; fs_lv' : nat; fs_cols' : nat; fs_N : mat }.
Definition new_frag (k : ks) : frag := mkF k 0 None 0 None (fun _ _ => None) no_attrs None None no_attrs.

(** Lines 278-308: one scale factor. *)
Definition scale0 (ens : bool) (nua nub : R) (c : comp) : R :=
  if ens then match c with Ca => 1 - nua | CA => nua | Cb => 1 - nub | CB => nub end
  else match c with Ca => nua | _ => nub end.
Definition calc_scale_factors (p : part) : res part :=
  let half := if po_ess (p_opt p) then fun x => x / 2 else fun x => x in
  forL (comps (p_ens p)) (fun c p => do f <- get_f p c; Ok (set_frag p c (fscale f (half (scale0 (p_ens p) (p_nua p) (p_nub p) c))))) p.

(** Lines 310-321: V.vext; for pol > 2 the further columns stay zero. *)
Definition p_vext (g : grid) (pol : nat) (Za Zb : R) : mat :=
  fun k s => if (s =? 0)%nat || ((s =? 1) && (pol =? 2))%nat then coulomb g Za 0 k + coulomb g 0 Zb k else 0.

(** Lines 250-262: one Kohn-Sham object; a sits at the left nucleus, b at the right one. *)
Definition frag_init (g : grid) (o : popt) (Za Zb : R) (pol : nat) (s : fspec) : res frag :=
  do k <- ks_init g Za Zb pol (fs_lv s) (fs_cols s) (fs_Nmo s) (fs_lv' s) (fs_cols' s) (fs_N s)
    [("interaction_type"%string, VS (po_int o)); ("sym"%string, VB (po_sym o)); ("fractional"%string, VB (po_frac o));
     ("xfunc_id"%string, VZ (Z.of_nat (po_xid o))); ("cfunc_id"%string, VZ (Z.of_nat (po_cid o))); ("xc_family"%string, VS (po_fam o))];
  Ok (new_frag k).
(** Lines 171-275. [spec Ca], [spec Cb] are (Nmo_a, N_a), (Nmo_b, N_b); for an ensemble the lists have two members,
    which are [spec Ca], [spec CA] and [spec Cb], [spec CB]. Paramke is an undefined name (line 271). Functional ids
    are natural numbers (negative ones become 0). *)
Definition partition_init (g : grid) (Za Zb : R) (pol : nat) (spec : comp -> fspec) (nua nub : R) (opt : dict) : res part :=
  do d <- configure PartitionOptions opt;
  let o := mkPO (getS d "interaction_type") (getB d "sym") (getB d "fractional") (Z.to_nat (getZ d "xfunc_id")) (Z.to_nat (getZ d "cfunc_id"))
             (getS d "xc_family") (getS d "vp_calc_type") (getS d "hxc_part_type") (getS d "kinetic_part_type")
             (getS d "k_family") (Z.to_nat (getZ d "ke_func_id")) (getB d "ab_sym") (getB d "ens_spin_sym") (getB d "isolated") in
  let ens := if Req_EM_T nua 1 then (if Req_EM_T nub 1 then false else true) else true in
  if (po_ab o && (if Req_EM_T Za Zb then false else true))%bool then Err ValueError else
  do fa <- frag_init g o Za 0 pol (spec Ca);
  do fb <- frag_init g o 0 Zb pol (spec Cb);
  let both := if Req_EM_T nua 1 then false else if Req_EM_T nub 1 then false else true in
  do fAB <- (if both then do A <- frag_init g o Za 0 pol (spec CA); do B <- frag_init g o 0 Zb pol (spec CB); Ok (Some A, Some B)
             else Ok (None, None));
  let p := mkP o pol Za Zb nua nub ens (coulomb g Za 0) (coulomb g 0 Zb)
             (fun c => match c with Ca => Some fa | Cb => Some fb | CA => fst fAB | CB => snd fAB end)
             None None None no_attrs None no_attrs no_attrs (fun _ => 0) ([], []) None None None None None None in
  do p1 <- calc_scale_factors p;
  if String.eqb (po_kin o) "paramke" then Err NameError else
  if (pol =? 0)%nat then Err IndexError else
  Ok (set_V p1 "vext" (p_vext g pol Za Zb)).

(** Lines 323-351. Mirrored attributes: n, Q, veff, vext, V.vx, V.vc, V.vh, V.vp, V.ex, V.ec, V.eh; E and u are copied.
    mirror(None) is an AttributeError. *)
Definition omap {A B : Type} (h : A -> B) (o : option A) : option B := match o with Some a => Some (h a) | None => None end.
Definition over {A : Type} (new old : option A) : option A := match new with Some a => Some a | None => old end.
Definition mirror_ksv (g : grid) (a b : ksv) : ksv :=
  mkV (over (omap (mirror2 g) (V_vx a)) (V_vx b)) (over (omap (mirror2 g) (V_vc a)) (V_vc b)) (over (omap (mirror2 g) (V_vh a)) (V_vh b))
      (over (omap (mirror1 g) (V_ex a)) (V_ex b)) (over (omap (mirror1 g) (V_ec a)) (V_ec b)) (over (omap (mirror1 g) (V_eh a)) (V_eh b)).
Definition mirror_frag (g : grid) (a b : frag) : res frag :=
  let ka := f_ks a in
  do n <- have (k_n ka);
  do ve <- have (k_veff ka);
  do vx <- have (k_vext ka);
  let kb := set_EV (set_vext (set_veffs (set_u (set_n (f_ks b) (Some (mirror2 g n))) (k_u ka)) (Some (mirror2 g ve))) (Some (mirror2 g vx)))
              (k_E ka) (mirror_ksv g (k_V ka) (k_V (f_ks b))) in
  let b1 := fE (fQ (fk b kb) (omap (mirror2 g) (f_Q a))) (f_E a) in
  Ok (match f_V a "vp"%string with Some v => fV b1 "vp" (mirror2 g v) | None => b1 end).
Definition mirrorAB (g : grid) (p : part) : res part :=
  forL (combine (comps_a (p_ens p)) (comps_b (p_ens p))) (fun cc p =>
    do a <- get_f p (fst cc); do b <- get_f p (snd cc); do b' <- mirror_frag g a b; Ok (set_frag p (snd cc) b')) p.

(** Lines 353-379. *)
Definition scaled_sum (p : part) (l : list comp) : res mat :=
  forL l (fun c acc => do f <- get_f p c; do n <- need (k_n (f_ks f)); Ok (fun k s => acc k s + n k s * f_scale f)) (fun _ _ => 0).
Definition flip (pol : nat) (n : mat) : mat := arr_fun (spinflip (A2 pol n)).
Definition with_flip (ess : bool) (pol : nat) (n : mat) : mat := if ess then fun k s => n k s + flip pol n k s else n.
Definition calc_protomolecule (p : part) : res part :=
  do na <- scaled_sum p (comps_a (p_ens p));
  do nb <- scaled_sum p (comps_b (p_ens p));
  let h := with_flip (po_ess (p_opt p)) (p_pol p) in
  Ok (set_dens p (h na) (h nb) (fun k s => h na k s + h nb k s)).

(** Lines 381-394. *)
Definition calc_Q (p : part) : res part :=
  forL (comps (p_ens p)) (fun c p =>
    do f <- get_f p c; do n <- need (k_n (f_ks f)); do nf <- have (p_nf p);
    Ok (set_frag p c (fQ f (Some (fun k s => to_R (ndiv (f_scale f * n k s) (nf k s))))))) p.

(** i_KS.Q in an array expression; the initial array of shape (Nelem,) does not broadcast. *)
Definition getQ (f : frag) : res mat := match f_Q f with Some q => Ok q | None => Err ValueError end.

(** * Components of the partition potential *)
(** CADMium/partition/vp_nuclear.py:10-15. *)
Definition vp_nuclear (p : part) : res part :=
  forL (comps (p_ens p)) (fun c p =>
    do f <- get_f p c; do v <- attr (p_V p) "vext"; Ok (set_frag p c (fV f "vp_pot" (fun k s => v k s - k_vnuc (f_ks f) k s)))) p.

(** -0.5 * elap @ f. *)
Definition kinop (g : grid) (f : vec) : vec := gapply g (fun i j => - (1 / 2) * elap g i j) f.

(** CADMium/partition/vp_kinetic.py:17: (-0.5 elap @ sqrt n) / sqrt n / w. *)
Definition vw_pot (g : grid) (pol : nat) (n : mat) : res nmat :=
  do r <- np_sqrt (Nelem g) pol n;
  Ok (fun k s => ndivn (ndiv (kinop g (fun x => r x s) k) (r k s)) (Fin (gw g k))).
(** CADMium/partition/vp_kinetic.py:17-34. *)
Definition vpk_vonweiz (g : grid) (p : part) : res part :=
  do nf <- have (p_nf p);
  do v <- vw_pot g (p_pol p) nf;
  forL (comps_a (p_ens p) ++ comps_b (p_ens p)) (fun c p =>
    do f <- get_f p c; do n <- need (k_n (f_ks f)); do vf <- vw_pot g (p_pol p) n;
    Ok (set_frag p c (fvt f (fun k s => Fin (to_R (vf k s)))))) (set_vt p (p_pol p) v).
(** CADMium/partition/vp_kinetic.py:41-50. *)
Definition vpk_libxc (g : grid) (w : penv) (p : part) : res part :=
  let xc := get_xc g (e_lib (pe_env w)) (po_kfam (p_opt p)) (po_kid (p_opt p)) (p_pol p) in
  do nf <- have (p_nf p);
  do x <- xc nf;
  let '(T, t, v) := x in
  forL (comps (p_ens p)) (fun c p =>
    do f <- get_f p c; do n <- need (k_n (f_ks f)); do x <- xc n;
    let '(T, t, v) := x in
    Ok (set_frag p c (fvt (fV (fTs f T) "ts" (fun k _ => t k)) (fun k s => Fin (v k s)))))
    (set_vt (set_kin p (T, t)) (p_pol p) (fun k s => Fin (v k s))).
(** CADMium/partition/vp_kinetic.py:107-114. zeros_like(None) is an array of objects, which np.isnan (line 181) rejects
    with a TypeError. *)
Definition vpk_none (p : part) : res part :=
  do nf <- have (p_nf p);
  forL (comps (p_ens p)) (fun c p =>
    do f <- get_f p c; do n <- need (k_n (f_ks f)); Ok (set_frag p c (fvt f (fun _ _ => Fin 0)))) (set_vt p (p_pol p) (fun _ _ => Fin 0)).

(** CADMium/partition/vp_kinetic.py:118-151, for pol = 1 (column 0 is the only one). *)
Definition two_C (g : grid) (r1 r2 : vec) : R := integrate1 g (fun k => (r1 k - r2 k) ^ 2).
Definition all_pos (n : nat) (f : vec) : bool := forallb (fun k => if Rlt_dec 0 (f k) then true else false) (seq 0 n).
(** Lines 134-151 on positive densities with a positive constant C and a positive radicand; otherwise an entry of
    the result is infinite or NaN. *)
Definition two_pot (g : grid) (n1 n2 : vec) : res (vec * vec) :=
  let N := Nelem g in
  let r1 := fun k => sqrt (n1 k) in let r2 := fun k => sqrt (n2 k) in
  let C := two_C g r1 r2 in
  let phi1 := fun k => (r1 k - r2 k) / sqrt C in
  let q := fun k => (n1 k + n2 k) / 2 - phi1 k ^ 2 in
  if negb (all_pos N n1 && all_pos N n2 && (if Rlt_dec 0 C then true else false) && all_pos N q) then Err NotFinite else
  let phi2 := fun k => sqrt (q k) in
  let d1 := fun k => kinop g phi1 k / gw g k in
  let d2 := fun k => kinop g phi2 k / gw g k in
  let i0 := integrate1 g d1 in
  let i1 := integrate1 g (fun k => phi1 k * d1 k) in
  let i2 := integrate1 g (fun k => phi1 k ^ 2 / phi2 k * d2 k) in
  let a1 := fun k => 1 / 2 * / sqrt (C * n1 k) * (d1 k - phi1 k * i0) in
  let a2 := fun k => - (1 / 2) * / sqrt (C * n2 k) * (d1 k - phi1 k * i1) in
  let b1 := fun k => d2 k * ((1 / 4 - 1 / 2 * / sqrt (C * n1 k) * phi1 k) / phi2 k) + 1 / 2 * (phi1 k / sqrt (C * n1 k)) * i2 in
  let b2 := fun k => d2 k * ((1 / 4 + 1 / 2 * / sqrt (C * n2 k) * phi1 k) / phi2 k) - 1 / 2 * (phi1 k / sqrt (C * n2 k)) * i2 in
  Ok (fun k => 2 * (a1 k + b1 k), fun k => 2 * (a2 k + b2 k)).
(** Line 132: eT @ sqrt n / (2 w sqrt n). *)
Definition two_frag (g : grid) (n : vec) : res vec :=
  if all_pos (Nelem g) n then Ok (fun k => kinop g (fun x => sqrt (n x)) k / (2 * gw g k * sqrt (n k))) else Err NotFinite.
(** Lines 118-151. Before calc_protomolecule has run, nb_frac does not exist (na_frac is None). *)
Definition vpk_two (g : grid) (p : part) : res part :=
  do n1 <- have (p_na p);
  do n2 <- have (p_nb p);
  if (p_pol p =? 2)%nat then Err ValueError else
  do p1 <- forL (comps (p_ens p)) (fun c p =>
    do f <- get_f p c; do n <- need (k_n (f_ks f)); do v <- two_frag g (fun k => n k 0%nat); Ok (set_frag p c (fvt f (fun k _ => Fin (v k))))) p;
  do v <- two_pot g (fun k => n1 k 0%nat) (fun k => n2 k 0%nat);
  Ok (set_vt p1 2 (fun k s => Fin (if (s =? 0)%nat then fst v k else snd v k))).

(** ** Initial guess of the inversion (CADMium/partition/initialguessinvert.py) *)
(** solver[i, spin] and its phi; np.append(phi, None, axis=1) is a ValueError. *)
Definition sol_at (f : frag) (i spin : nat) : res solver :=
  if (i <? k_lv (f_ks f))%nat && (spin <? k_cols (f_ks f))%nat then Ok (k_sol (f_ks f) i spin) else Err IndexError.
Definition sol_phi (f : frag) (i spin : nat) : res (list vec) :=
  do s <- sol_at f i spin;
  match s_phi s with None => Err ValueError | Some (c, ph) => Ok (map ph (seq 0 c)) end.
(** Lines 13-38: the guess for the potential. max([u]) is u; "veff - None" is a TypeError. Q[:, spin] of the initial
    array of shape (Nelem,) is an IndexError. *)
Definition Qcol (pol : nat) (f : frag) (spin : nat) : res vec :=
  match f_Q f with Some q => column pol q spin | None => Err IndexError end.
Definition guess_v0 (g : grid) (spin : nat) (p : part) : res vec :=
  do v <- forL (comps_ab p) (fun c acc =>
    do f <- get_f p c; do ve <- need (k_veff (f_ks f)); do cv <- column (p_pol p) ve spin; do cq <- Qcol (p_pol p) f spin;
    Ok (fun k => acc k + cv k * cq k)) (fun _ => 0);
  do v1 <- (if po_ess (p_opt p) then
    let o := if (spin =? 0)%nat then 1%nat else 0%nat in
    forL (comps_ab p) (fun c acc =>
      do f <- get_f p c; do ve <- need (k_veff (f_ks f)); do cv <- column (p_pol p) ve o; do u <- need (k_u (f_ks f));
      do cq <- Qcol (p_pol p) f o;
      Ok (fun k => acc k + (cv k - u) * cq k)) v
    else Ok v);
  Ok (if po_ab (p_opt p) then fun k => v1 k + mirror1 g v1 k else v1).
(** Lines 61-95: the orbitals of level i, the angular momentum used for H0, and m. *)
Definition guess_basis (spin i : nat) (p : part) : res (list vec * Z * Z) :=
  do fa <- get_f p Ca;
  do pa <- sol_phi fa i spin;
  do sa <- sol_at fa i spin;
  do fb <- get_f p Cb;
  do sb <- sol_at fb i spin;
  do A <- (if p_ens p then do fA <- get_f p CA; do pA <- sol_phi fA i spin; do sA <- sol_at fA i spin; Ok (pA, s_m sA, s_m sA)
           else Ok ([], s_m sa, s_m sb));
  let '(pA, mH, m) := A in
  do rest <- (if po_ab (p_opt p) then Ok (pa ++ pA)%list
              else do pb <- sol_phi fb i spin;
                   do pB <- (if p_ens p then do fB <- get_f p CB; sol_phi fB i spin else Ok []);
                   Ok (pb ++ pB)%list);
  Ok ((pa ++ pA ++ rest)%list, mH, m).
(** Weighted inner product phi.T @ W @ Wi @ phi. *)
Definition gdotw (g : grid) (a b : vec) : R := sumR (Nelem g) (fun k => a k * (oWWi g k * b k)).
(** phi / S0 followed by nan_to_num: a vector without a positive norm becomes zero. *)
Definition gunit (g : grid) (a : vec) : vec := if Rlt_dec 0 (gdotw g a a) then fun k => a k / sqrt (gdotw g a a) else fun _ => 0.
Definition col (l : list vec) (j : nat) : vec := nth j l (fun _ => 0).
(** Line 101: H = W^-1 H0 + diag v0. *)
Definition guess_H (g : grid) (m : Z) (v0 : vec) (f : vec) : vec := fun k => gapply g (hamiltonian g m) f k / gw g k + v0 k * f k.
(** Lines 97-132: one level; sorted eigenvalues, orbitals normalised to [occ]. The answer of scipy.linalg.eig is real here;
    complex eigenvalues, of which the code keeps the real parts and complex orbitals, are not modelled. *)
Definition guess_level (g : grid) (w : penv) (ess : bool) (v0 : vec) (b : list vec * Z * Z) : list R * list vec :=
  let '(l, mH, m) := b in
  let M := List.length l in
  let ph := map (gunit g) l in
  let S := fun i j => gdotw g (col ph i) (col ph j) in
  let F := fun i j => gdotw g (col ph i) (guess_H g mH v0 (col ph j)) in
  let '(ev, v) := pe_eig w M F S in
  let ix := pe_argsort w M ev in
  let occ := if ess then (if (m =? 0)%Z then 1 else 2) else (if (m =? 0)%Z then 2 else 4) in
  (map (fun j => ev (ix j)) (seq 0 M),
   map (fun j => let f := gunit g (fun k => sumR M (fun i => col ph i k * v i (ix j))) in fun k => f k * sqrt occ) (seq 0 M)).
(** Lines 11-140: (orbitals, eigenvalues, potential); Nsol is the largest number of levels. *)
Definition initialguessinvert (g : grid) (w : penv) (spin : nat) (p : part) : res (list vec * list R * vec) :=
  do v0 <- guess_v0 g spin p;
  do Nsol <- forL (comps_ab p) (fun c m => do f <- get_f p c;
    if (spin <? k_cols (f_ks f))%nat then Ok (Nat.max m (k_lv (f_ks f))) else Err IndexError) 0%nat;
  do r <- forN Nsol (fun i acc =>
    do b <- guess_basis spin i p;
    let '(e, ph) := guess_level g w (po_ess (p_opt p)) v0 b in
    Ok ((fst acc ++ ph)%list, (snd acc ++ e)%list)) ([], []);
  Ok (fst r, snd r, v0).
(** phi0.flatten() of the (Nelem, M) array, CADMium/partition/vp_kinetic.py:91. *)
Definition flat_phi (l : list vec) : vec := fun r => col l (r mod List.length l) (r / List.length l)%nat.

(** ** Kinetic part by inversion *)
(** CADMium/partition/vp_kinetic.py:56-73: the loop over the solvers of the lower (a, b) or upper (A, B) components. ub is
    never changed. *)
Definition chem_step (fa fb : frag) (ub : R) (i j : nat) (ua : R) : res R :=
  do sa <- sol_at fa i j;
  let ua1 := match f_homo fa i j with Some h => Rmax ua h | None => ua end in
  do sb <- sol_at fb i j;
  Ok (match f_homo fb i j with Some h => Rmax ub h | None => ua1 end).
Definition chem_loop (fa fb : frag) (ub ua : R) : res R :=
  forN (k_lv (f_ks fa)) (fun i ua => forN (k_cols (f_ks fa)) (fun j ua => chem_step fa fb ub i j ua) ua) ua.
Definition inv_chempot (p : part) : res R :=
  let u0 := - 1 / feps in
  do fa <- get_f p Ca;
  do fb <- get_f p Cb;
  do ua <- chem_loop fa fb u0 u0;
  do ua1 <- (if p_ens p then do fA <- get_f p CA; do fB <- get_f p CB; chem_loop fA fB u0 ua else Ok ua);
  Ok (Rmax ua1 u0).
(** CADMium/partition/vp_kinetic.py:98-100: the objects of column 0 are put into column 1 of the solver array. *)
Definition dup01 {A : Type} (f : nat -> nat -> A) : nat -> nat -> A := fun i j => if (j =? 1)%nat then f i 0%nat else f i j.
Definition inv_spin_copy (iv : inverter) : res inverter :=
  if (i_cols iv <? 2)%nat then Err IndexError else
  do vs <- (match i_vs iv with
            | Some (A2 c f) => if (c <? 2)%nat then Err IndexError else Ok (A2 c (dup01 f))
            | Some (A1 _) => Err IndexError
            | None => Err TypeError end);
  do us <- (match i_us iv with
            | Some (U2 r c u) => if (c <? 2)%nat then Err IndexError else Ok (U2 r c (dup01 u))
            | Some (U0 _) => Err TypeError
            | None => Err TypeError end);
  Ok (mkInv (i_opt iv) (i_lv iv) (i_cols iv) (dup01 (i_sol iv)) (dup01 (i_vset iv)) (dup01 (i_chi iv)) (dup01 (i_ked iv)) true
        (Some vs) (Some us) (i_Ts iv)).
(** CADMium/partition/vp_kinetic.py:86-95: one spin. *)
Definition inv_spin (g : grid) (w : penv) (spin : nat) (p : part) : res part :=
  do nf <- have (p_nf p);
  do c <- column (p_pol p) nf spin;
  let nt := if (p_pol p =? 2)%nat then fun k => 2 * c k else c in
  do gs <- initialguessinvert g w spin p;
  let '(ph, e, v0) := gs in
  do iv <- have (p_inv p);
  do r <- invert g (pe_inv w) (A1 nt) (Some (A2 1 (fun k _ => v0 k))) (flat_phi ph) (List.length e, fun i => nth i e 0) spin iv;
  Ok (set_info (set_inv p (Some (fst r))) (snd r)).
(** CADMium/partition/vp_kinetic.py:56-104; get_vt has Nelem rows (grids have more than one point). *)
Definition vpk_inversion (g : grid) (w : penv) (p : part) : res part :=
  do u <- inv_chempot p;
  do p1 <- forL (comps (p_ens p)) (fun c p =>
    do f <- get_f p c; do v <- have (k_veff (f_ks f)); Ok (set_frag p c (fvt f (fun k s => Fin (u - v k s))))) p;
  do p2 <- forN (if po_ess (p_opt p) then 1%nat else p_pol p) (fun spin p => inv_spin g w spin p) p1;
  do iv <- have (p_inv p2);
  do iv1 <- (if po_ess (p_opt p) then inv_spin_copy iv else Ok iv);
  do v <- get_vt g iv1;
  let '(_, c, v) := v in
  Ok (set_vt (set_inv p2 (Some iv1)) c (fun k s => Fin (v k s))).

(** CADMium/partition/vp_kinetic.py:160-181. V.vt - i_KS.V.vt broadcasts; a number of columns other than pol is
    rejected in the in-place sums of partition_potential.py:39-45. *)
Definition vpk_finish (g : grid) (p : part) : res part :=
  if String.eqb (po_kin (p_opt p)) "twoorbital" then
    do v <- have (p_vt p);
    do fa <- get_f p Ca; do va <- have (f_vt fa);
    do fb <- get_f p Cb; do vb <- have (f_vt fb);
    do xa <- finite (Nelem g) 1 (fun k _ => nsub (snd v k 0%nat) (va k 0%nat));
    do xb <- finite (Nelem g) 1 (fun k _ => nsub (snd v k 1%nat) (vb k 0%nat));
    Ok (set_frag (set_frag p Ca (fV fa "vp_kin" xa)) Cb (fV fb "vp_kin" xb))
  else if String.eqb (po_kin (p_opt p)) "fixed" then Ok p
  else
    forL (comps (p_ens p)) (fun c p =>
      do f <- get_f p c; do v <- have (p_vt p); do vf <- have (f_vt f);
      match bdim (fst v) (p_pol p) with
      | Some d => if negb (d =? p_pol p)%nat then Err ValueError else
          do x <- finite (Nelem g) (p_pol p) (fun k s => no_nan (nsub (snd v k (bix (fst v) s)) (vf k s)));
          Ok (set_frag p c (fV f "vp_kin" x))
      | None => Err ValueError
      end) p.
(** CADMium/partition/vp_kinetic.py:8-181. self.kinetic exists for libxcke only. *)
Definition vp_kinetic (g : grid) (w : penv) (p : part) : res part :=
  let t := po_kin (p_opt p) in
  do p1 <- (if String.eqb t "vonweiz" then vpk_vonweiz g p
            else if String.eqb t "libxcke" then vpk_libxc g w p
            else if String.eqb t "paramke" then Err AttributeError
            else if String.eqb t "inversion" then vpk_inversion g w p
            else if String.eqb t "none" then vpk_none p
            else if String.eqb t "twoorbital" then vpk_two g p
            else if String.eqb t "fixed" then Ok p
            else Err ValueError);
  vpk_finish g p1.

(** ** Overlap (CADMium/partition/vp_overlap.py) *)
(** scipy.special.erf. *)
Definition erf (x : R) : R := 2 / sqrt PI * RInt (fun t => exp (- t ^ 2)) 0 x.
(** Line 14. *)
Definition overlap_S (g : grid) (pol : nat) (na nb : mat) : res R :=
  do r <- np_sqrt1 (Nelem g) (fun k => sum_cols pol na k * sum_cols pol nb k);
  Ok (integrate1 g r).
(** Lines 26-31: scale * 0.5 * (nb / na) ** 0.5 with inf and NaN replaced by 0. *)
Definition dSdn (scale : R) (own other : mat) : mat :=
  fun k s => match ndiv (other k s) (own k s) with
             | Fin r => if Rlt_dec r 0 then 0 else scale * (1 / 2) * sqrt r
             | _ => 0
             end.
(** Line 32. *)
Definition dFdn (S : R) (d : mat) : mat := fun k s => 2 * / sqrt PI * exp (- (2 * S) ^ 2) * 2 * d k s.
(** Lines 9-42 ("self.optPartition is True" never holds). *)
Definition vp_overlap (g : grid) (p : part) : res part :=
  do na <- axis1 (p_na p);
  do nb <- have (p_nb p);
  do S <- overlap_S g (p_pol p) na nb;
  let put own other := fun c p =>
    do f <- get_f p c;
    let d := dSdn (f_scale f) own other in
    Ok (set_frag p c (fV (fV f "dSdn" d) "dFdn" (dFdn S d))) in
  do p1 <- forL (comps_a (p_ens p)) (put na nb) (set_E (set_E p "S" S) "F" (erf (2 * S)));
  forL (comps_b (p_ens p)) (put nb na) p1.

(** ** Correlated Hartree energy (CADMium/partition/EnsCorHar.py). Line 10 misspells optPartition. *)
Definition cross (c : comp) : comp := match c with Ca => CB | CA => Cb | Cb => CA | CB => Ca end.
Definition EnsCorHar (g : grid) (p : part) : res part :=
  if negb (p_ens p) then Err AttributeError else
  do p1 <- forL [Ca; CA; Cb; CB] (fun c p =>
    do f <- get_f p c; do h <- get_f p (cross c); do v <- have (V_vh (k_V (f_ks h))); do n <- need (k_n (f_ks f));
    Ok (set_frag p c (fE f (aset (f_E f) "Ehcor" (pair_integral g (p_pol p) n v / 2))))) p;
  do p2 <- forL [Ca; CA; Cb; CB] (fun c p =>
    do f <- get_f p c; do h <- get_f p (cross c); do v <- have (V_vh (k_V (f_ks h)));
    Ok (set_frag p c (fV f "vhcor" v))) p1;
  do e <- forL [Ca; CA; Cb; CB] (fun c e => do f <- get_f p2 c; do x <- attr (f_E f) "Ehcor"; Ok (e + f_scale f * x)) 0;
  Ok (set_E p2 "Ehcor" e).

(** * Energies *)
(** CADMium/partition/ep_nuclear.py:10-11. *)
Definition ep_nuclear (g : grid) (p : part) : res part :=
  do na <- axis1 (p_na p);
  do nb <- have (p_nb p);
  Ok (set_E p "Ep_pot" (integrate1 g (fun k => sum_cols (p_pol p) na k * p_vb p k) + integrate1 g (fun k => sum_cols (p_pol p) nb k * p_va p k))).

(** ** Kinetic (CADMium/partition/ep_kinetic.py) *)
(** Lines 14-16 / 32-34: the two expressions differ in sign and in the placing of the brackets. *)
Definition vw_mol (g : grid) (r : vec) : R := iprefac g * sumR (Nelem g) (fun k => gwi g k * r k * gapply g (fun i j => 1 / 2 * elap g i j) r k).
Definition vw_fragv (g : grid) (scale : R) (r : vec) : vec :=
  fun k => scale * iprefac g * sumR (Nelem g) (fun k => gwi g k * r k) * kinop g r k.
(** Lines 18-19 / 36-37: n ** (-0.5) / w * (-0.5 elap @ sqrt n). *)
Definition vw_dens (g : grid) (r : vec) : nat -> num := fun k => nmulr (ndivn (ndiv 1 (r k)) (Fin (gw g k))) (kinop g r k).
(** Lines 14-39: (Tsm, tsm, Tsf, tsf). The attributes V.ts of the fragments, which nothing reads, are left out. *)
Definition kin4 : Type := (sv * arr num * sv * arr num)%type.
Definition epk_vonweiz (g : grid) (p : part) : res (part * kin4) :=
  do nf <- have (p_nf p);
  do r <- np_sqrt1 (Nelem g) (sum_cols (p_pol p) nf);
  do a <- forL (comps (p_ens p)) (fun c acc =>
    do f <- get_f p c; do n <- axis1 (k_n (f_ks f)); do rf <- np_sqrt1 (Nelem g) (sum_cols (p_pol p) n); do Q <- getQ f;
    Ok (fun k => fst acc k + vw_fragv g (f_scale f) rf k,
        fun k => nadd (snd acc k) (nmulr (vw_dens g rf k) (f_scale f * sum_cols (p_pol p) Q k)))) (fun _ => 0, fun _ => Fin 0);
  Ok (p, (SC (vw_mol g r), A1 (vw_dens g r), AR (fst a), A1 (snd a))).
(** Lines 47-62. *)
Definition epk_libxc (p : part) : res (part * kin4) :=
  do T <- have (p_k p);
  do a <- forL (comps (p_ens p)) (fun c acc =>
    do f <- get_f p c; do Tf <- have (f_VTs f); do Q <- getQ f; do t <- attr (f_V f) "ts";
    Ok (fst acc + f_scale f * Tf, fun k => snd acc k + f_scale f * sum_cols (p_pol p) Q k * t k 0%nat)) (0, fun _ => 0);
  Ok (p, (SC (fst T), A1 (fun k => Fin (snd T k)), SC (fst a), A1 (fun k => Fin (snd a k)))).
(** Lines 89-106: the fragment's kinetic energy density; the last level of each column counts, and the sum is repeated
    for every solver and every column of V.ts. The model assumes at least one solver per fragment (without one the code
    reads V.ts of an earlier call). *)
Definition frag_ts (g : grid) (p : part) (f : frag) : res (nat -> num) :=
  let k := f_ks f in
  do ts <- forN (k_lv k) (fun i ts => forN (k_cols k) (fun j ts =>
    do t <- calc_ked_WFI g (hamiltonian g (s_m (k_sol k i j))) (k_sol k i j);
    if (j <? p_pol p)%nat then Ok (fun x s => if (s =? j)%nat then t x else ts x s) else Err IndexError) ts) (fun _ _ => 0);
  do n <- axis1 (k_n k);
  Ok (fun x => nmulr (ndiv (sum_cols (p_pol p) ts x) (sum_cols (p_pol p) n x)) (INR (k_lv k * k_cols k) * INR (p_pol p))).
(** Lines 66-110. V.ep_kin = tsm - tsf is a (Nelem, Nelem) array: tsm has shape (Nelem,), tsf (Nelem,1). *)
Definition epk_inversion (g : grid) (p : part) : res (part * kin4) :=
  do iv <- have (p_inv p);
  do t <- get_ts_WFI g iv;
  do nf <- have (p_nf p);
  let tsm := fun k => ndiv (sum_cols (i_cols iv) (snd t) k) (sum_cols (p_pol p) nf k) in
  do Tm <- get_Ts g (fst t);
  do Tm <- fin Tm;
  do a <- forL (comps_ab p) (fun c acc =>
    do f <- get_f p c; do e <- have (k_E (f_ks f)); do T <- fin (E_Ts e); do ts <- frag_ts g p f; do Q <- getQ f;
    Ok (fst acc + f_scale f * T, fun k => nadd (snd acc k) (nmulr (ts k) (f_scale f * sum_cols (p_pol p) Q k)))) (0, fun _ => Fin 0);
  let '(Tf, tf) := if po_ab (p_opt p) then (fst a * 2, fun k => nadd (snd a k) (mirror1 g (snd a) k)) else a in
  Ok (set_inv p (Some (fst t)), (SC Tm, A2 (Nelem g) (fun _ j => tsm j), SC Tf, A2 (Nelem g) (fun i _ => tf i))).
(** Lines 113-117. *)
Definition epk_none (p : part) : res (part * kin4) :=
  Ok (p, (SC 0, A2 1 (fun _ _ => Fin 0), SC 0, A2 1 (fun _ _ => Fin 0))).
(** Lines 121-163, for pol = 1; an entry of V.ep_kin that would be infinite or NaN stops the model. The attributes V.ts of the
    fragments and V.tsm, written here and read nowhere else, are not recorded. *)
Definition two_phi (g : grid) (n1 n2 : vec) : res (vec * vec) :=
  let r1 := fun k => sqrt (n1 k) in let r2 := fun k => sqrt (n2 k) in
  let C := two_C g r1 r2 in
  let nrm := sqrt (integrate1 g (fun k => n1 k + n2 k) / 2) in
  let phi1 := fun k => nrm * (r1 k - r2 k) / sqrt C in
  let q := fun k => n1 k + n2 k - phi1 k ^ 2 in
  if negb (all_pos (Nelem g) n1 && all_pos (Nelem g) n2 && (if Rlt_dec 0 C then true else false)
           && (if Rle_dec 0 (integrate1 g (fun k => n1 k + n2 k)) then true else false)
           && forallb (fun k => if Rle_dec 0 (q k) then true else false) (seq 0 (Nelem g))) then Err NotFinite
  else Ok (phi1, fun k => sqrt (q k)).
Definition two_T (g : grid) (f : vec) : R := integrate1 g (fun k => f k * kinop g f k / gw g k).
Definition two_ts (g : grid) (scale : R) (n : vec) : vec :=
  let r := fun k => sqrt (n k) in fun k => scale * r k * kinop g r k / (gw g k * n k).
Definition epk_two (g : grid) (p : part) : res (part * kin4) :=
  do n1 <- have (p_na p);
  do n2 <- have (p_nb p);
  do f <- two_phi g (fun k => n1 k 0%nat) (fun k => n2 k 0%nat);
  let '(f1, f2) := f in
  do nf <- have (p_nf p);
  let tsm := fun k => ndiv ((f1 k * kinop g f1 k + f2 k * kinop g f2 k) / gw g k) (sum_cols (p_pol p) nf k) in
  do a <- forL (if po_ab (p_opt p) then [Ca] else [Ca; Cb]) (fun c acc =>
    do f <- get_f p c; do n <- axis1 (k_n (f_ks f)); do Q <- getQ f;
    let n0 := sum_cols (p_pol p) n in
    if negb (all_pos (Nelem g) n0) then Err NotFinite else
    let r := fun k => sqrt (n0 k) in
    Ok (fst acc + f_scale f * iprefac g * sumR (Nelem g) (fun k => gwi g k * r k * kinop g r k),
        fun k => snd acc k + Q k 0%nat * two_ts g (f_scale f) n0 k)) (0, fun _ => 0);
  let '(Tf, tf) := if po_ab (p_opt p) then (fst a * 2, fun k => snd a k + (snd a k + mirror1 g (snd a) k)) else a in
  Ok (set_V (set_V p "phi1" (fun k _ => f1 k)) "phi2" (fun k _ => f2 k),
      (SC (two_T g f1 + two_T g f2), A2 1 (fun k _ => tsm k), SC Tf, A2 1 (fun k _ => Fin (tf k)))).
(** Element-wise operations on arrays of floats of equal shape. *)
Definition arr_map2 (op : num -> num -> num) (a b : arr num) : arr num :=
  match a, b with
  | A1 f, A1 h => A1 (fun k => op (f k) (h k))
  | A2 c f, A2 _ h => A2 c (fun k s => op (f k s) (h k s))
  | _, _ => a
  end.
(** Lines 10-186. *)
Definition ep_kinetic (g : grid) (p : part) : res part :=
  let t := po_kin (p_opt p) in
  do r <- (if String.eqb t "vonweiz" then epk_vonweiz g p
           else if String.eqb t "libxcke" || String.eqb t "paramke" then epk_libxc p
           else if String.eqb t "inversion" then epk_inversion g p
           else if String.eqb t "none" then epk_none p
           else if String.eqb t "twoorbital" then epk_two g p
           else Err ValueError);
  let '(p1, (Tm, tm, Tf, tf)) := r in
  let Tf' := if po_ess (p_opt p) then sv_op Rmult Tf (SC 2) else Tf in
  let tf' := if po_ess (p_opt p) then arr_map2 nadd tf tf else tf in
  Ok (set_epk (set_T p1 "Ep_kin" (sv_op Rminus Tm Tf')) (arr_map2 nsub tm tf')).

(** ** Hartree, exchange, correlation (CADMium/partition/ep_hxc.py) *)
(** hasattr(V, "frozen") is False or V.frozen is False (line 29). *)
Definition active (f : frag) : bool := match f_frozen f with Some true => false | _ => true end.
(** Lines 21-40: with ab_sym the mirror image is added in every pass. *)
Definition ehf_step (g : grid) (p : part) (c : comp) (acc : vec) : res vec :=
  do f <- get_f p c;
  do a <- (if active f then do Q <- getQ f; do e <- have (V_eh (k_V (f_ks f))); Ok (fun k => acc k + sum_cols (p_pol p) Q k * e k) else Ok acc);
  Ok (if po_ab (p_opt p) then fun k => a k + mirror1 g a k else a).
(** Lines 53-71 and 81-99. *)
Definition exf_sum (g : grid) (p : part) (e : ksv -> option vec) : res vec :=
  do a <- forL (comps_ab p) (fun c acc =>
    do f <- get_f p c;
    if active f then do Q <- getQ f; do x <- have (e (k_V (f_ks f))); Ok (fun k => acc k + sum_cols (p_pol p) Q k * x k) else Ok acc) (fun _ => 0);
  Ok (if po_ab (p_opt p) then fun k => a k + mirror1 g a k else a).
(** Lines 11-111. *)
Definition ep_dft (g : grid) (w : env) (p : part) : res part :=
  if String.eqb (po_int (p_opt p)) "dft" then
    do nf <- have (p_nf p);
    let n := sum_cols (p_pol p) nf in
    do vh <- v_hartree g (e_spL w) (e_spU w) (A1 n);
    let ehm := fun k => 1 / 2 * arr_fun vh k 0%nat in
    do Ehf <- attr (p_E p) "Ehf";
    do ehf <- forL (comps_ab p) (ehf_step g p) (fun _ => 0);
    do x <- have (p_x p);
    do Exf <- attr (p_E p) "Exf";
    do exf <- exf_sum g p V_ex;
    do c <- have (p_c p);
    do Ecf <- attr (p_E p) "Ecf";
    do ecf <- exf_sum g p V_ec;
    let p1 := set_E (set_E (set_E p "Ep_h" (integrate1 g (fun k => n k * ehm k) - Ehf)) "Ep_x" (fst x - Exf)) "Ep_c" (fst c - Ecf) in
    Ok (set_V (set_V (set_V p1 "ep_h" (fun k _ => ehm k - ehf k)) "ep_x" (fun k _ => snd x k - exf k)) "ep_c" (fun k _ => snd c k - ecf k))
  else Ok (set_E (set_E (set_E p "Ep_h" 0) "Ep_x" 0) "Ep_c" 0).
(** Lines 115-145. The accepted setting surprisal is not the tested "surprise". *)
Definition ep_hxc (g : grid) (w : env) (p : part) : res part :=
  do p1 <- ep_dft g w p;
  let t := po_hxc (p_opt p) in
  let hxc p := do h <- attr (p_E p) "Ep_h"; do x <- attr (p_E p) "Ep_x"; do c <- attr (p_E p) "Ep_c"; Ok (h, x, c) in
  if String.eqb t "exact" then do e <- hxc p1; let '(h, x, c) := e in Ok (set_E p1 "Ep_hxc" (h + x + c))
  else if String.eqb t "hartree" then do e <- hxc p1; let '(h, x, c) := e in Ok (set_E p1 "Ep_hxc" h)
  else if String.eqb t "overlap_xc" then
    do p2 <- vp_overlap g p1; do e <- hxc p2; let '(h, x, c) := e in do F <- attr (p_E p2) "F";
    Ok (set_E p2 "Ep_hxc" (h + F * (x + c)))
  else if String.eqb t "overlap_hxc" || String.eqb t "overlap_hxc_2" then
    do p2 <- vp_overlap g p1; do p3 <- EnsCorHar g p2; do e <- hxc p3; let '(h, x, c) := e in
    do F <- attr (p_E p3) "F"; do Eh <- attr (p_E p3) "Ehcor";
    Ok (set_E p3 "Ep_hxc" (F * (h + x + c) + (1 - F) * Eh))
  else Err ValueError.

(** CADMium/partition/partition_energy.py:10-21. *)
Definition partition_energy (g : grid) (w : env) (p : part) : res part :=
  if po_iso (p_opt p) then Ok (set_E (set_T (set_E (set_T p "Ep" (SC 0)) "Ep_pot" 0) "Ep_kin" (SC 0)) "Ep_hxc" 0)
  else
    do p1 <- ep_nuclear g p;
    do p2 <- ep_kinetic g p1;
    do p3 <- ep_hxc g w p2;
    do a <- attr (p_E p3) "Ep_pot"; do b <- attr (p_T p3) "Ep_kin"; do c <- attr (p_E p3) "Ep_hxc";
    Ok (set_T p3 "Ep" (sv_op Rplus (sv_op Rplus (SC a) b) (SC c))).

(** CADMium/partition/energy.py:13-20: the sums over the components of one fragment. *)
Record esum : Type := mkES { es_E : R; es_Ts : R; es_Eks : vec; es_Enuc : R; es_Ex : R; es_Ec : R; es_Eh : R; es_Vhxc : R }.
Definition es0 : esum := mkES 0 0 (fun _ => 0) 0 0 0 0 0.
(** Lines 33-42; E is an object without Ts until the fragment's energy() has run. *)
Definition es_step (dft : bool) (p : part) (c : comp) (a : esum) : res esum :=
  do f <- get_f p c;
  do e <- have (k_E (f_ks f));
  let s := f_scale f in
  do E <- fin (E_E e); do T <- fin (E_Ts e);
  let Eks := fun x => es_Eks a x + s * E_Eks e x in
  if dft then
    do Eh <- have (E_Eh e); do Vh <- have (E_Vhxc e);
    Ok (mkES (es_E a + s * E) (es_Ts a + s * T) Eks (es_Enuc a + s * E_Enuc e)
          (es_Ex a + s * E_Ex e) (es_Ec a + s * E_Ec e) (es_Eh a + s * Eh) (es_Vhxc a + s * Vh))
  else Ok (mkES (es_E a + s * E) (es_Ts a + s * T) Eks (es_Enuc a + s * E_Enuc e) (es_Ex a) (es_Ec a) (es_Eh a) (es_Vhxc a)).
(** Lines 80-100. *)
Definition es_double (a : esum) : esum :=
  mkES (es_E a * 2) (es_Ts a * 2) (fun x => es_Eks a x * 2) (es_Enuc a * 2) (es_Ex a * 2) (es_Ec a * 2) (es_Eh a * 2) (es_Vhxc a * 2).
(** Lines 22-27: in an ensemble the list of B holds KSB twice. *)
Definition energy_b (ens : bool) : list comp := if ens then [CB; CB] else [Cb].
Definition evals_of (p : part) (l : list comp) : res (list R) :=
  forL l (fun c acc => do f <- get_f p c; do e <- have (k_E (f_ks f)); Ok (acc ++ E_evals e)%list) [].
(** Lines 7-145. *)
Definition energy (g : grid) (w : env) (p : part) : res part :=
  let dft := String.eqb (po_int (p_opt p)) "dft" in
  do a <- forL (comps_a (p_ens p)) (es_step dft p) es0;
  do b <- (if po_ab (p_opt p) then Ok a else forL (energy_b (p_ens p)) (es_step dft p) es0);
  let h := if po_ess (p_opt p) then es_double else fun x => x in
  let a' := h a in let b' := h b in
  let p1 := set_E (set_E (set_E (set_E (set_E (set_E (set_E (set_E (set_E p "Ea" (es_E a')) "Eb" (es_E b')) "Ef" (es_E a' + es_E b'))
              "Tsf" (es_Ts a' + es_Ts b')) "Enucf" (es_Enuc a' + es_Enuc b')) "Exf" (es_Ex a' + es_Ex b'))
              "Ecf" (es_Ec a' + es_Ec b')) "Ehf" (es_Eh a' + es_Eh b')) "Vhxcf" (es_Vhxc a' + es_Vhxc b') in
  let p2 := set_eks p1 (fun x => es_Eks a' x + es_Eks b' x) in
  do p3 <- partition_energy g w p2;
  do Ep <- attr (p_T p3) "Ep";
  let Et := sv_op Rplus (SC (es_E a' + es_E b')) Ep in
  let Vnn := p_Za p * p_Zb p / (2 * ga g) in
  let p4 := set_T (set_E (set_T p3 "Et" Et) "Vnn" Vnn) "E" (sv_op Rplus Et (SC Vnn)) in
  do ea <- evals_of p4 (comps_a (p_ens p));
  do eb <- (if po_ab (p_opt p) then Ok ea else evals_of p4 (comps_b (p_ens p)));
  Ok (set_evals p4 (ea, eb)).

(** ** Hartree-exchange-correlation potential (CADMium/partition/vp_hxc.py) *)
Definition msub (a b : mat) : mat := fun k s => a k s - b k s.
(** Lines 17-40. For interaction_type ni, hartree is the number 0.0. *)
Definition vp_hxc_parts (g : grid) (w : env) (p : part) : res part :=
  let o := p_opt p in
  if String.eqb (po_hxc o) "exact" && String.eqb (po_int o) "ni" then
    forL (comps (p_ens p)) (fun c p =>
      do f <- get_f p c; do _ <- have (p_nf p);
      Ok (set_frag p c (fV (fV (fV f "vp_h" (fun _ _ => 0)) "vp_x" (fun _ _ => 0)) "vp_c" (fun _ _ => 0)))) p
  else if negb (String.eqb (po_int o) "dft") then Err AttributeError
  else
    do nf <- have (p_nf p);
    do vh <- v_hartree g (e_spL w) (e_spU w) (A2 (p_pol p) nf);
    do x <- get_xc g (e_lib w) (po_fam o) (po_xid o) (p_pol p) nf;
    do c <- get_xc g (e_lib w) (po_fam o) (po_cid o) (p_pol p) nf;
    let '(ex, epx, vx) := x in let '(ec, epc, vc) := c in
    let p1 := set_xc (set_V (set_V (set_V p "vh" (arr_fun vh)) "vx" vx) "vc" vc) (ex, epx) (ec, epc) in
    forL (comps (p_ens p)) (fun c p =>
      do f <- get_f p c;
      let V := k_V (f_ks f) in
      do fh <- have (V_vh V); do fx <- have (V_vx V); do fc <- have (V_vc V);
      let h := msub (arr_fun vh) fh in let x := msub vx fx in let c1 := msub vc fc in
      Ok (set_frag p c (fV (fV (fV (fV f "vp_h" h) "vp_x" x) "vp_c" c1) "vp_hxc" (add3 h x c1)))) p1.
(** i_KS.V.vp_hxc = h(i_KS.V.vp_h, vp_x, vp_c, ...). *)
Definition put_hxc (h : frag -> mat -> mat -> mat -> res mat) (p : part) : res part :=
  forL (comps (p_ens p)) (fun c p =>
    do f <- get_f p c; do a <- attr (f_V f) "vp_h"; do b <- attr (f_V f) "vp_x"; do d <- attr (f_V f) "vp_c"; do v <- h f a b d;
    Ok (set_frag p c (fV f "vp_hxc" v))) p.
(** Lines 43-108. Line 99 reads the missing attribute Ep_hxc. *)
Definition vp_hxc (g : grid) (w : env) (p : part) : res part :=
  do p1 <- vp_hxc_parts g w p;
  let t := po_hxc (p_opt p) in
  do p2 <- (if String.eqb t "overlap_xc" || String.eqb t "overlap_hxc" then vp_overlap g p1 else Ok p1);
  if String.eqb t "exact" then put_hxc (fun _ a b c => Ok (add3 a b c)) p2
  else if String.eqb t "hartree" then put_hxc (fun _ a _ _ => Ok a) p2
  else if String.eqb t "overlap_xc" then
    do p3 <- energy g w p2;
    do F <- attr (p_E p3) "F"; do x <- attr (p_E p3) "Ep_x"; do c <- attr (p_E p3) "Ep_c";
    put_hxc (fun f a b d => do dF <- attr (f_V f) "dFdn"; Ok (fun k s => a k s + F * (b k s + d k s) + (x + c) * dF k s)) p3
  else if String.eqb t "overlap_hxc" then
    do p3 <- EnsCorHar g p2;
    do p4 <- energy g w p3;
    do F <- attr (p_E p4) "F"; do h <- attr (p_E p4) "Ep_h"; do x <- attr (p_E p4) "Ep_x"; do c <- attr (p_E p4) "Ep_c"; do Eh <- attr (p_E p4) "Ehcor";
    put_hxc (fun f a b d => do dF <- attr (f_V f) "dFdn"; do v <- attr (f_V f) "vhcor";
      Ok (fun k s => F * (a k s + b k s + d k s) + (h + x + c) * dF k s + (1 - F) * v k s + Eh * dF k s)) p4
  else if String.eqb t "surprisal" then Err AttributeError
  else Err ValueError.

(** ** The partition potential (CADMium/partition/partition_potential.py) *)
(** The seven attributes that are combined, lines 39-45. *)
Definition vp_names : list string := ["vp"; "vp_pot"; "vp_kin"; "vp_hxc"; "vp_h"; "vp_x"; "vp_c"]%string.
(** Lines 36-45: one component. *)
Definition vp_own (p : part) (c : comp) : res part :=
  do f <- get_f p c;
  do a <- attr (f_V f) "vp_pot"; do b <- attr (f_V f) "vp_kin"; do d <- attr (f_V f) "vp_hxc";
  Ok (set_frag p c (fV f "vp" (add3 a b d))).
Definition vp_accum (c : comp) (p : part) : res part :=
  do p1 <- vp_own p c;
  forL vp_names (fun nm p => do f <- get_f p c; do v <- attr (f_V f) nm; do Q <- getQ f; do s <- attr (p_V p) nm;
    Ok (set_V p nm (fun k x => s k x + v k x * Q k x))) p1.
Definition vp_map (h : mat -> mat) (p : part) : res part :=
  forL vp_names (fun nm p => do v <- attr (p_V p) nm; Ok (set_V p nm (h v))) p.
(** Lines 11-65. *)
Definition vp_component (g : grid) (w : penv) (p : part) : res part :=
  do p1 <- vp_nuclear p;
  do p2 <- vp_kinetic g w p1;
  do p3 <- vp_hxc g (pe_env w) p2;
  do p4 <- forL vp_names (fun nm p => do _ <- have (p_nf p); Ok (set_V p nm (fun _ _ => 0))) p3;
  do p5 <- forL (comps (p_ens p)) vp_accum p4;
  do p6 <- (if po_ess (p_opt p) then vp_map (fun v => with_flip true (p_pol p) v) p5 else Ok p5);
  if po_ab (p_opt p) then vp_map (sym_avgR g) p6 else Ok p6.
(** Lines 67-113: with pol = 2, phi0 is unbound at line 95, after self.inverter.invert has been looked up (spinfip,
    line 90, is a misspelling); otherwise
    initialguessinvert is called without its argument (line 92). *)
Definition vp_inversion (p : part) : res part :=
  do fa <- get_f p Ca; do fb <- get_f p Cb;
  do ua <- need (k_u (f_ks fa)); do ub <- need (k_u (f_ks fb));
  do p1 <- forL (comps (p_ens p)) (fun c p => do f <- get_f p c; do v <- need (k_veff (f_ks f));
    Ok (set_frag p c (fvt f (fun k s => Fin (Rmax ua ub - v k s))))) p;
  if (p_pol p =? 2)%nat then
    do _ <- have (p_nf p1);
    do _ <- forL (comps (p_ens p)) (fun c _ => do f <- get_f p1 c; do _ <- getQ f; Ok tt) tt;
    if po_ess (p_opt p) then Err AttributeError else do _ <- have (p_inv p); Err UnboundLocalError
  else Err TypeError.
Definition partition_potential (g : grid) (w : penv) (p : part) : res (part * mat) :=
  if String.eqb (po_vp (p_opt p)) "component" then
    do p1 <- vp_component g w p; do v <- attr (p_V p1) "vp"; Ok (p1, v)
  else do p1 <- vp_inversion p; do v <- attr (p_V p1) "vp"; Ok (p1, v).

(** * Self-consistency loop (CADMium/partition/scf.py) *)
Record psopt : Type := mkPS {
  ps_tol : R; ps_maxit : Z; ps_alpha : list R; ps_sdft : bool; ps_cont : bool; ps_target : bool; ps_iter : bool; ps_auto : bool; ps_fa : bool; ps_fb : bool }.
(** Lines 40-45. *)
Definition psc_options (p : part) (d : dict) : res psopt :=
  do o <- configure_partition_scf (po_iso (p_opt p)) d;
  Ok (mkPS (getR o "e_tol") (getZ o "max_iter") (getL o "alpha") (String.eqb (getS o "calc_type") "sdft") (getB o "continuing")
        (getB o "from_target_density") (getB o "iterative") (getB o "auto_tol") (getB o "freeze_a") (getB o "freeze_b")).

(** Lines 55-72. *)
Definition in_a (c : comp) : bool := match c with Ca | CA => true | _ => false end.
Definition psc_setup (o : psopt) (p : part) : res part :=
  do p1 <- forL (comps (p_ens p)) (fun c p => do f <- get_f p c; Ok (set_frag p c (ffrozen f (if in_a c then ps_fa o else ps_fb o)))) p;
  do al <- (match ps_alpha o with [x] => Ok (x, x) | [x; y] => Ok (x, y) | _ => Err ValueError end);
  forL (comps (p_ens p)) (fun c p => do f <- get_f p c; Ok (set_frag p c (falpha f (if in_a c then fst al else snd al)))) p1.

(** i_KS.calc_chempot() (CADMium/kohnsham/kohnsham.py:365-384): every solver also records its homo
    (pssolver/get_homo.py:34-36). *)
Definition frag_chempot (f : frag) : res frag :=
  do k <- calc_chempot (f_ks f);
  Ok (fhomo (fk f k) (fun i j => match get_homo (k_sol (f_ks f) i j) with Ok h => Some h | Err _ => None end)).

(** Lines 107-118; [sched c] is the finishing order of the workers of component c. *)
Definition psc_guess (g : grid) (w : env) (o : psopt) (sched : comp -> list (nat * nat)) (c : comp) (p : part) : res part :=
  do f <- get_f p c;
  if ps_cont o then match k_n (f_ks f) with None => Err AssertionError | Some _ => Ok p end
  else
    do k1 <- set_effective_potential (set_vhxc (set_vext (f_ks f) (Some (fun _ _ => 0))) (Some (fun _ _ => 0)));
    do kn <- ks_density g w (ps_iter o) (Fin 0) (sched c) k1;
    do f1 <- frag_chempot (fk f (set_n (fst kn) (Some (snd kn))));
    Ok (set_frag p c f1).
(** Lines 120-126 and 190-196. *)
Definition psc_proto (g : grid) (o : psopt) (p : part) : res part :=
  do p1 <- (if po_ab (p_opt p) then mirrorAB g p else Ok p);
  do p2 <- (if ps_target o then Ok p1 else calc_protomolecule p1);
  calc_Q p2.
Definition psc_start (g : grid) (w : env) (o : psopt) (sched : comp -> list (nat * nat)) (p : part) : res part :=
  do p1 <- psc_setup o p;
  do p2 <- forL (comps_ab p) (psc_guess g w o sched) p1;
  psc_proto g o p2.

(** The variables of the loop, lines 129-138. [q_warn]: values of [iterations] at which the warning was issued. *)
Record pst : Type := mkPst {
  q_p : part; q_dif : num; q_oldE : R; q_oldn : mat; q_iter : Z; q_fail : nat; q_min : num; q_notmin : Z; q_warn : list Z }.

(** Lines 141-144: PartitionOptions objects cannot be subscripted (TypeError). *)
Definition psc_test (o : psopt) (s : pst) : res bool :=
  if gtb (q_dif s) (Fin (ps_tol o)) then Ok (q_iter s <=? ps_maxit o)%Z
  else if ps_auto o then Err TypeError else Ok false.

(** Lines 147-151. *)
Definition inverting (p : part) : bool := String.eqb (po_kin (p_opt p)) "inversion" && negb (po_iso (p_opt p)).
Definition psc_avoid (it : Z) (p : part) : res part :=
  if inverting p then do iv <- have (p_inv p); Ok (set_inv p (Some (inv_avoid iv (it =? 1)%Z))) else Ok p.
(** Lines 154-157; 0.0 * None is a TypeError. *)
Definition psc_hxc (g : grid) (w : env) (c : comp) (p : part) : res part :=
  do f <- get_f p c;
  do k <- calc_hxc_potential g w (f_ks f);
  do v <- need (k_vhxc k); do old <- need (k_vhxc (f_ks f));
  Ok (set_frag p c (fk f (set_vhxc k (Some (fun x s => 1 * v x s + 0 * old x s))))).
(** Lines 163-168. *)
Definition psc_vp (g : grid) (w : penv) (p : part) : res (part * mat) :=
  if po_iso (p_opt p) then
    do _ <- have (p_nf p);
    do p1 <- forL (comps_ab p) (fun c p => do f <- get_f p c; Ok (set_frag p c (fV f "vp" (fun _ _ => 0)))) p;
    Ok (p1, fun _ _ => 0)
  else partition_potential g w p.
(** Lines 172-188. *)
Definition psc_fragment (g : grid) (w : env) (o : psopt) (sched : comp -> list (nat * nat)) (dif : num) (vp : mat) (c : comp) (p : part) : res part :=
  do f <- get_f p c;
  do k0 <- (match f_frozen f with
            | Some true => Ok (f_ks f)
            | _ => if ps_sdft o then do v <- attr (f_V f) "vp"; Ok (set_vext (f_ks f) (Some v)) else Ok (set_vext (f_ks f) (Some vp))
            end);
  do k1 <- set_effective_potential k0;
  do kn <- ks_density g w (ps_iter o) dif (sched c) k1;
  do f1 <- frag_chempot (fk f (fst kn));
  do n <- need (k_n (f_ks f1));
  let mix := fun x s => (1 - f_alpha f) * n x s + f_alpha f * snd kn x s in
  do k2 <- ks_energy g w (set_n (f_ks f1) (Some mix));
  Ok (set_frag p c (fk f1 k2)).
(** Lines 200-202. With an array of energies Python's max needs the truth value of an array: ValueError (for grids of
    more than one point). *)
Definition psc_dif (g : grid) (p : part) (oldE : R) (oldn : mat) : res (R * mat * num) :=
  do E <- attr (p_T p) "E";
  do nf <- have (p_nf p);
  do dn <- dens_residual g (p_pol p) nf oldn;
  match E with
  | AR _ => Err ValueError
  | SC e => Ok (e, nf, pymax (nabs (ndiv (e - oldE) e)) dn)
  end.
(** Lines 219-231: the counter of consecutive failures. *)
Definition fail_step (opt : num) (n : nat) : res nat :=
  let n' := if gtb opt (Fin 1) then S n else 0%nat in
  if (1 <? n')%nat then Err SystemExit else Ok n'.
Definition psc_fail (out : option invout) (n : nat) : res nat :=
  match out with
  | Some (OArr r c o) => forN r (fun i n => forN c (fun j n => do x <- have (o i j); fail_step (optimality x) n) n) n
  | _ => Err AttributeError
  end.
(** Lines 146-247: one pass. *)
Definition psc_body (g : grid) (w : penv) (o : psopt) (sched : comp -> list (nat * nat)) (s : pst) : res pst :=
  do p1 <- psc_avoid (q_iter s) (q_p s);
  do p2 <- forL (comps_ab p1) (psc_hxc g (pe_env w)) p1;
  do p3 <- (if po_ab (p_opt p2) then mirrorAB g p2 else Ok p2);
  do pv <- psc_vp g w p3;
  do p4 <- forL (comps_ab p1) (psc_fragment g (pe_env w) o sched (q_dif s) (snd pv)) (fst pv);
  do p5 <- psc_proto g o p4;
  do p6 <- energy g (pe_env w) p5;
  do r <- psc_dif g p6 (q_oldE s) (q_oldn s);
  let '(E, nf, dif) := r in
  let better := gtb (q_min s) dif in
  do fl <- (if (String.eqb (po_kin (p_opt p6)) "inversion" || String.eqb (po_vp (p_opt p6)) "potential_inversion") && negb (po_iso (p_opt p6))
            then psc_fail (p_info p6) (q_fail s) else Ok (q_fail s));
  let it := (q_iter s + 1)%Z in
  Ok (mkPst p6 dif E nf it fl (if ps_auto o && better then dif else q_min s)
        (if ps_auto o then (if better then 0%Z else (q_notmin s + 1)%Z) else q_notmin s)
        (if (it =? ps_maxit o)%Z then (q_warn s ++ [it])%list else q_warn s)).
Fixpoint psc_loop (g : grid) (w : penv) (o : psopt) (sched : Z -> comp -> list (nat * nat)) (fuel : nat) (s : pst) : res pst :=
  match fuel with
  | O => Ok s
  | S n => do b <- psc_test o s;
           if b then do s' <- psc_body g w o (sched (q_iter s)) s; psc_loop g w o sched n s' else Ok s
  end.
(** Lines 34-247. The fuel is one more than the number of passes the counter allows; [sched 0] serves the initial
    guess. *)
Definition partition_scf (g : grid) (w : penv) (sched : Z -> comp -> list (nat * nat)) (d : dict) (p : part) : res pst :=
  do o <- psc_options p d;
  do p0 <- psc_start g (pe_env w) o (sched 0%Z) p;
  do nf <- have (p_nf p0);
  psc_loop g w o sched (S (Z.to_nat (ps_maxit o))) (mkPst p0 (Fin 10) 0 nf 1%Z 0 (Fin 10) 0%Z []).
