(** Vocabulary for the partition properties. *)
From Coq Require Import Reals List Arith Lia ZArith Bool String.
From Verif Require Import Base GridModel GridSpec HartreeModel SolverModel SolverSpec LibxcModel OptionsModel KSModel KSSpec InverterModel PartitionModel.
Import ListNotations.
Local Open Scope R_scope.

(** Sum over a list of components. *)
Fixpoint lsum (l : list comp) (h : comp -> R) : R := match l with [] => 0 | c :: r => h c + lsum r h end.

(** The components of a calculation: a, b; in an ensemble also A, B. *)
Definition member (ens : bool) (c : comp) : Prop := match c with Ca | Cb => True | CA | CB => ens = true end.

(** The Kohn-Sham objects of p are F. *)
Definition frags (p : part) (F : comp -> frag) : Prop := forall c, member (p_ens p) c -> p_f p c = Some (F c).
(** ... and their densities n. *)
Definition densities (p : part) (F : comp -> frag) (n : comp -> mat) : Prop :=
  frags p F /\ forall c, member (p_ens p) c -> k_n (f_ks (F c)) = Some (n c).

(** Weight of a component: 1, or 1 - nu and nu in an ensemble; half of it when every component also stands for its
    spin-flipped copy. *)
Definition weight (ens ess : bool) (nua nub : R) (c : comp) : R :=
  (if ens then match c with Ca => 1 - nua | CA => nua | Cb => 1 - nub | CB => nub end else 1) * (if ess then / 2 else 1).

(** The mirror image of component c of fragment A. *)
Definition twin (c : comp) : comp := match c with Ca => Cb | CA => CB | x => x end.
Definition of_a (c : comp) : Prop := c = Ca \/ c = CA.

(** b is the mirror image of a on the grid, in every column. *)
Definition mirrored (g : grid) (a b : mat) : Prop :=
  forall ia ir s, is_point g ia ir -> b (pos g ia ir) s = a (pos g (Na g - 1 - ia) ir) s.
Definition mirrored1 (g : grid) (a b : vec) : Prop :=
  forall ia ir, is_point g ia ir -> b (pos g ia ir) = a (pos g (Na g - 1 - ia) ir).
(** b is a's mirror image whenever a exists. *)
Definition mirrored_opt (g : grid) (a b : option mat) : Prop := forall x, a = Some x -> exists y, b = Some y /\ mirrored g x y.
Definition mirrored_opt1 (g : grid) (a b : option vec) : Prop := forall x, a = Some x -> exists y, b = Some y /\ mirrored1 g x y.

(** The energies computed by the Kohn-Sham objects are e. *)
Definition energies (p : part) (F : comp -> frag) (e : comp -> kse) : Prop :=
  frags p F /\ forall c, member (p_ens p) c -> k_E (f_ks (F c)) = Some (e c).
(** Weighted sum of a quantity over the listed components, twice it when every component also stands for its
    spin-flipped copy. *)
Definition share (ess : bool) (F : comp -> frag) (l : list comp) (h : comp -> R) : R :=
  (if ess then 2 else 1) * lsum l (fun c => f_scale (F c) * h c).
(** Value of an optional number. *)
Definition val (o : option R) : R := match o with Some x => x | None => 0 end.

(** Density of a group of components in column s, the spin-flipped copy included. *)
Definition group (ess : bool) (pol : nat) (F : comp -> frag) (n : comp -> mat) (l : list comp) (k s : nat) : R :=
  lsum l (fun c => f_scale (F c) * (n c k s + (if ess then n c k (pol - 1 - s)%nat else 0))).
(** Fragment and protomolecular densities na, nb, nf stored in p are those of the component densities n. *)
Definition protomolecule (p : part) (F : comp -> frag) (n : comp -> mat) (na nb nf : mat) : Prop :=
  p_na p = Some na /\ p_nb p = Some nb /\ p_nf p = Some nf /\
  (forall k s, na k s = group (po_ess (p_opt p)) (p_pol p) F n (if p_ens p then [Ca; CA] else [Ca]) k s) /\
  (forall k s, nb k s = group (po_ess (p_opt p)) (p_pol p) F n (if p_ens p then [Cb; CB] else [Cb]) k s) /\
  (forall k s, nf k s = na k s + nb k s).
(** The nuclear potential of every component is that of its own nucleus. *)
Definition at_nuclei (p : part) (F : comp -> frag) : Prop :=
  forall c, member (p_ens p) c -> forall k s, (s < p_pol p)%nat -> k_vnuc (f_ks (F c)) k s = match c with Ca | CA => p_va p k | Cb | CB => p_vb p k end.

(** k is the result of a call of energy(). *)
Definition evaluated (g : grid) (w : env) (k : ks) : Prop := exists k0, ks_energy g w k0 = Ok k.
(** Every component has the polarisation and interaction type of the partition object and at most one nucleus. *)
Definition belongs (p : part) (F : comp -> frag) : Prop := forall c, member (p_ens p) c ->
  k_pol (f_ks (F c)) = p_pol p /\ o_int (k_opt (f_ks (F c))) = po_int (p_opt p) /\ k_Za (f_ks (F c)) * k_Zb (f_ks (F c)) = 0.
(** Fragment B is the mirror image of fragment A. *)
Definition ab_mirror (g : grid) (p : part) (F : comp -> frag) (n : comp -> mat) : Prop :=
  mirror_invariant g /\ (forall k, (k < Nelem g)%nat -> p_vb p k = mirror1 g (p_va p) k) /\
  forall c, member (p_ens p) c -> of_a c -> f_scale (F (twin c)) = f_scale (F c) /\ mirrored g (n c) (n (twin c)).
(** Potential energy of the density nf in the field of both nuclei. *)
Definition nuclear_total (g : grid) (p : part) (nf : mat) : R := integrate1 g (fun k => sumR (p_pol p) (fun s => nf k s) * (p_va p k + p_vb p k)).
(** Sum with its spin-flipped copy (ens_spin_sym), and the average with the mirror image (ab_sym). *)
Definition processed (g : grid) (ess ab : bool) (pol : nat) (S : mat) (k s : nat) : R :=
  let f := fun x => S x s + (if ess then S x (pol - 1 - s)%nat else 0) in
  if ab then / 2 * (f k + mirror1 g f k) else f k.
(** The reported parts of the partition potential. *)
Definition parts : list string := ["vp"; "vp_pot"; "vp_kin"; "vp_hxc"; "vp_h"; "vp_x"; "vp_c"]%string.
(** The loop state s is reached after n passes of Partition.scf; [l]: optimality values of the inversion reports of these
    passes in the order in which they are examined. *)
Definition reports (p : part) : list num :=
  match p_info p with
  | Some (OArr r c o) => flat_map (fun i => flat_map (fun j => match o i j with Some x => [optimality x] | None => [] end) (seq 0 c)) (seq 0 r)
  | _ => []
  end.
Inductive passes (g : grid) (w : penv) (sched : Z -> comp -> list (nat * nat)) (d : dict) (p : part) (o : psopt) : nat -> list num -> pst -> Prop :=
| pass_start : forall p0 nf, psc_options p d = Ok o -> psc_start g (pe_env w) o (sched 0%Z) p = Ok p0 -> p_nf p0 = Some nf ->
    passes g w sched d p o 0 [] (mkPst p0 (Fin 10) 0 nf 1%Z 0 (Fin 10) 0%Z [])
| pass_step : forall n l s s', passes g w sched d p o n l s -> psc_test o s = Ok true -> psc_body g w o (sched (q_iter s)) s = Ok s' ->
    passes g w sched d p o (S n) (l ++ reports (q_p s'))%list s'.
(** Two consecutive reports with optimality above one. *)
Definition two_failures (l : list num) : Prop := exists l1 a b l2, l = (l1 ++ a :: b :: l2)%list /\ gtb a (Fin 1) = true /\ gtb b (Fin 1) = true.
(** Mixing parameter of component c for the values of the option alpha. *)
Definition step_size (l : list R) (c : comp) : option R :=
  match l with [x] => Some x | [x; y] => Some (match c with Ca | CA => x | _ => y end) | _ => None end.
(** Components solved in every pass: all of them, with ab_sym those of fragment A. *)
Definition computed (p : part) (c : comp) : Prop := member (p_ens p) c /\ (po_ab (p_opt p) = true -> of_a c).
(** The stored densities na, nb, nf and Q functions q are those of the current component densities n; with ab_sym fragment
    B has the mirror image densities. *)
Definition settled (g : grid) (p : part) (F : comp -> frag) (n : comp -> mat) (na nb nf : mat) (q : comp -> mat) : Prop :=
  densities p F n /\ protomolecule p F n na nb nf /\
  (forall c, member (p_ens p) c -> f_Q (F c) = Some (q c) /\
     forall k s, (nf k s <> 0 -> q c k s = f_scale (F c) * n c k s / nf k s) /\ (nf k s = 0 -> q c k s = 0)) /\
  (po_ab (p_opt p) = true -> forall c, member (p_ens p) c -> of_a c -> mirrored g (n c) (n (twin c))).
(** Component b of fragment B is the mirror image of component a of fragment A: density, effective and external potential;
    equal energies and chemical potential. *)
Definition twins (g : grid) (a b : frag) : Prop :=
  (exists n n', k_n (f_ks a) = Some n /\ k_n (f_ks b) = Some n' /\ mirrored g n n') /\
  (exists v v', k_veff (f_ks a) = Some v /\ k_veff (f_ks b) = Some v' /\ mirrored g v v') /\
  (exists v v', k_vext (f_ks a) = Some v /\ k_vext (f_ks b) = Some v' /\ mirrored g v v') /\
  k_E (f_ks b) = k_E (f_ks a) /\ k_u (f_ks b) = k_u (f_ks a) /\
  mirrored_opt g (V_vx (k_V (f_ks a))) (V_vx (k_V (f_ks b))) /\ mirrored_opt g (V_vc (k_V (f_ks a))) (V_vc (k_V (f_ks b))) /\
  mirrored_opt g (V_vh (k_V (f_ks a))) (V_vh (k_V (f_ks b))) /\ mirrored_opt1 g (V_ex (k_V (f_ks a))) (V_ex (k_V (f_ks b))) /\
  mirrored_opt1 g (V_ec (k_V (f_ks a))) (V_ec (k_V (f_ks b))) /\ mirrored_opt1 g (V_eh (k_V (f_ks a))) (V_eh (k_V (f_ks b))).
(** The component whose density is the one of c, up to a mirror image. *)
Definition source (p : part) (c : comp) : comp := if po_ab (p_opt p) then match c with Ca | Cb => Ca | _ => CA end else c.
(** Overlap of two fragment densities: integral of the square root of the product of the total densities. *)
Definition overlap (g : grid) (pol : nat) (na nb : mat) : R := integrate1 g (fun k => sqrt (sumR pol (fun s => na k s) * sumR pol (fun s => nb k s))).
(** The array n with entry (k, s) replaced. *)
Definition updated (n : mat) (k s : nat) (v : R) : mat := fun x j => if (x =? k)%nat && (j =? s)%nat then v else n x j.
(** Quadrature weight of grid point k, the volume element included. *)
Definition qweight (g : grid) (k : nat) : R := iprefac g * (gwi g k * gw g k).
(** A new Partition object, an Inverter having been attached to it or not. *)
Definition constructed (g : grid) (Za Zb : R) (pol : nat) (spec : comp -> fspec) (nua nub : R) (opt : dict) (p : part) : Prop :=
  exists p0, partition_init g Za Zb pol spec nua nub opt = Ok p0 /\ (p = p0 \/ exists iv, p = set_inv p0 (Some iv)).
