(** Properties C45-C61: the partition calculation. *)
From Coq Require Import Reals List Arith Lia Lra ZArith Bool String.
From Verif Require Import Base BaseLemmas GridModel GridSpec HartreeModel HartreeSpec SolverModel SolverSpec SolverProofs SolverWitness SolverCases GridProofs GridWitness GridMore SolverThms LibxcModel OptionsModel OptionsProofs KSModel KSSpec KSProofs KSWit InverterModel InverterSpec InverterWit InverterTotal.
From Verif Require Import PartitionModel PartitionSpec PartitionBase PartitionConstr PartitionDens PartitionFrame PartitionEnergy PartitionEp PartitionTotal PartitionKin PartitionPot PartitionChem PartitionLoop PartitionStep PartitionPass PartitionScf PartitionRun PartitionFinal Gauss PartitionOverlap PartitionModes PartitionNew PartitionGood PartitionWit PartitionWit2 PartitionRefute PartitionMain.
Import ListNotations.
Local Open Scope string_scope.
Local Open Scope R_scope.
Local Opaque sinh cosh.

(** * C45: construction *)
Theorem C45_construction :
  forall (g : grid) (Za Zb : R) (pol : nat) (spec : comp -> fspec) (nua nub : R) (opt : dict) (p : part),
  partition_init g Za Zb pol spec nua nub opt = Ok p ->
  exists d : dict,
    configure PartitionOptions opt = Ok d /\
    p_opt p =
    {|
      po_int := getS d "interaction_type";
      po_sym := getB d "sym";
      po_frac := getB d "fractional";
      po_xid := Z.to_nat (getZ d "xfunc_id");
      po_cid := Z.to_nat (getZ d "cfunc_id");
      po_fam := getS d "xc_family";
      po_vp := getS d "vp_calc_type";
      po_hxc := getS d "hxc_part_type";
      po_kin := getS d "kinetic_part_type";
      po_kfam := getS d "k_family";
      po_kid := Z.to_nat (getZ d "ke_func_id");
      po_ab := getB d "ab_sym";
      po_ess := getB d "ens_spin_sym";
      po_iso := getB d "isolated"
    |} /\
    (getB d "ab_sym" = true -> Za = Zb) /\
    p_pol p = pol /\
    p_Za p = Za /\
    p_Zb p = Zb /\
    p_nua p = nua /\
    p_nub p = nub /\
    (0 < pol)%nat /\
    p_va p = coulomb g Za 0 /\
    p_vb p = coulomb g 0 Zb /\
    p_V p "vext" = Some (p_vext g pol Za Zb) /\
    (nua = 1 /\ nub = 1 /\ p_ens p = false /\ p_f p CA = None /\ p_f p CB = None \/ nua <> 1 /\ nub <> 1 /\ p_ens p = true) /\
    (forall c : comp,
     member (p_ens p) c ->
     exists f : frag,
       frag_init g (p_opt p) match c with
                             | Ca | CA => Za
                             | _ => 0
                             end match c with
                                 | Ca | CA => 0
                                 | _ => Zb
                                 end pol (spec c) = Ok f /\
       p_f p c = Some (fscale f (weight (p_ens p) (po_ess (p_opt p)) nua nub c))).
Proof. exact @init_inv. Qed.
Print Assumptions C45_construction.
Theorem C45_components :
  forall (g : grid) (o : popt) (Za Zb : R) (pol : nat) (s : fspec) (f : frag),
  frag_init g o Za Zb pol s = Ok f ->
  exists k : ks,
    f = new_frag k /\
    k_Za k = Za /\
    k_Zb k = Zb /\
    k_pol k = pol /\
    k_lv k = fs_lv s /\
    k_cols k = fs_cols s /\
    k_n k = None /\
    k_E k = None /\
    k_vext k = None /\
    k_vhxc k = None /\
    k_veff k = None /\
    k_u k = None /\
    o_int (k_opt k) = po_int o /\
    o_sym (k_opt k) = po_sym o /\
    o_frac (k_opt k) = po_frac o /\
    o_xid (k_opt k) = po_xid o /\
    o_cid (k_opt k) = po_cid o /\
    o_fam (k_opt k) = po_fam o /\
    (forall i j : nat,
     place k i j -> s_m (k_sol k i j) = Z.of_nat i /\ s_N (k_sol k i j) = fs_N s i j /\ s_Nmo (k_sol k i j) = fs_Nmo s i j).
Proof. exact @frag_init_inv. Qed.
Print Assumptions C45_components.
Theorem C45_scale_factors :
  forall (g : grid) (Za Zb : R) (pol : nat) (spec : comp -> fspec) (nua nub : R) (opt : dict) (p : part),
  partition_init g Za Zb pol spec nua nub opt = Ok p ->
  exists F : comp -> frag,
    frags p F /\
    (p_ens p = false <-> nua = 1) /\
    (p_ens p = false <-> nub = 1) /\
    (p_ens p = false -> p_f p CA = None /\ p_f p CB = None) /\
    (forall c : comp,
     member (p_ens p) c ->
     f_scale (F c) =
     (if p_ens p then match c with
                      | Ca => 1 - nua
                      | CA => nua
                      | Cb => 1 - nub
                      | CB => nub
                      end else 1) * (if po_ess (p_opt p) then / 2 else 1)) /\
    lsum (if p_ens p then [Ca; CA] else [Ca]) (fun c : comp => f_scale (F c)) = (if po_ess (p_opt p) then / 2 else 1) /\
    lsum (if p_ens p then [Cb; CB] else [Cb]) (fun c : comp => f_scale (F c)) = (if po_ess (p_opt p) then / 2 else 1).
Proof. exact @new_weights. Qed.
Print Assumptions C45_scale_factors.
Theorem C45_one_nu_fails :
  forall (g : grid) (Za Zb : R) (pol : nat) (spec : comp -> fspec) (nua nub : R) (opt : dict) (p : part),
  nua = 1 /\ nub <> 1 \/ nua <> 1 /\ nub = 1 -> partition_init g Za Zb pol spec nua nub opt <> Ok p.
Proof. exact @init_one_nu. Qed.
Print Assumptions C45_one_nu_fails.
Theorem C45_one_nu_error :
  forall (g : grid) (Za Zb : R) (pol : nat) (spec : comp -> fspec) (nua nub : R) (opt : dict) (p : part),
  nua = 1 /\ nub <> 1 \/ nua <> 1 /\ nub = 1 ->
  partition_init g Za Zb pol spec 1 1 opt = Ok p -> partition_init g Za Zb pol spec nua nub opt = Err AttributeError.
Proof. exact @init_one_nu_error. Qed.
Print Assumptions C45_one_nu_error.
Theorem C45_charges :
  forall (g : grid) (Za Zb : R) (pol : nat) (spec : comp -> fspec) (nua nub : R) (opt d : dict),
  configure PartitionOptions opt = Ok d ->
  getB d "ab_sym" = true -> Za <> Zb -> partition_init g Za Zb pol spec nua nub opt = Err ValueError.
Proof. exact @init_ab_charges. Qed.
Print Assumptions C45_charges.
Theorem C45_unknown_option :
  forall (g : grid) (Za Zb : R) (pol : nat) (spec : comp -> fspec) (nua nub : R) (opt : list (string * pv)) (key : string),
  In key (map fst opt) ->
  ~ In (lower key) (map f_name PartitionOptions) -> partition_init g Za Zb pol spec nua nub opt = Err ValueError.
Proof. exact @init_unknown_opt. Qed.
Print Assumptions C45_unknown_option.
Theorem C45_paramke_fails :
  forall (g : grid) (Za Zb : R) (pol : nat) (spec : comp -> fspec) (nua nub : R) (opt d : dict) (p : part),
  configure PartitionOptions opt = Ok d ->
  getS d "kinetic_part_type" = "paramke" -> partition_init g Za Zb pol spec nua nub opt <> Ok p.
Proof. exact @init_paramke. Qed.
Print Assumptions C45_paramke_fails.
Lemma C45_witness : (exists p, partition_init g22 2 1 2 w_spec (1/2) (1/4) [] = Ok p) /\ (exists p, partition_init g22 2 1 2 w_spec 1 1 [] = Ok p) /\
  (1 = 1 /\ 1 / 4 <> 1) /\ (exists d, configure PartitionOptions (w_opt "none" true false) = Ok d /\ getB d "ab_sym" = true) /\ (2 <> 1) /\
  ~ In (lower "kinetic") (map f_name PartitionOptions) /\ (exists d, configure PartitionOptions (w_opt "paramke" false false) = Ok d /\ getS d "kinetic_part_type" = "paramke").
Proof.
  split; [destruct (w_default_ok 2 1 (1/2) (1/4)) as (p & H); [lra|exists p; exact H]|]. split; [destruct (w_default_ok 2 1 1 1) as (p & H); [tauto|exists p; exact H]|]. split; [lra|].
  split; [eexists; split; reflexivity|]. split; [lra|]. split; [cbn; intuition discriminate|]. eexists; split; reflexivity.
Qed.

(** * C46: the protomolecular density *)
Theorem C46_total :
  forall (p : part) (F : comp -> frag) (n : comp -> mat),
  densities p F n ->
  exists na nb : mat,
    calc_protomolecule p = Ok (set_dens p na nb (fun k s : nat => na k s + nb k s)) /\
    (forall k s : nat, na k s = group (po_ess (p_opt p)) (p_pol p) F n (if p_ens p then [Ca; CA] else [Ca]) k s) /\
    (forall k s : nat, nb k s = group (po_ess (p_opt p)) (p_pol p) F n (if p_ens p then [Cb; CB] else [Cb]) k s).
Proof. exact @proto_spec. Qed.
Print Assumptions C46_total.
Theorem C46_density :
  forall (p : part) (F : comp -> frag) (n : comp -> mat) (p' : part),
  densities p F n ->
  calc_protomolecule p = Ok p' ->
  exists na nb nf : mat,
    p_na p' = Some na /\
    p_nb p' = Some nb /\
    p_nf p' = Some nf /\
    p_f p' = p_f p /\
    (forall k s : nat, na k s = group (po_ess (p_opt p)) (p_pol p) F n (if p_ens p then [Ca; CA] else [Ca]) k s) /\
    (forall k s : nat, nb k s = group (po_ess (p_opt p)) (p_pol p) F n (if p_ens p then [Cb; CB] else [Cb]) k s) /\
    (forall k s : nat, nf k s = group (po_ess (p_opt p)) (p_pol p) F n (if p_ens p then [Ca; CA; Cb; CB] else [Ca; Cb]) k s) /\
    (forall k s : nat, nf k s = na k s + nb k s).
Proof. exact @proto_density. Qed.
Print Assumptions C46_density.
Theorem C46_electrons :
  forall (g : grid) (p : part) (F : comp -> frag) (n : comp -> mat) (p' : part) (nf : mat) (s : nat),
  densities p F n ->
  calc_protomolecule p = Ok p' ->
  p_nf p' = Some nf ->
  integrate1 g (fun k : nat => nf k s) =
  lsum (if p_ens p then [Ca; CA; Cb; CB] else [Ca; Cb])
    (fun c : comp =>
     f_scale (F c) *
     (integrate1 g (fun k : nat => n c k s) +
      (if po_ess (p_opt p) then integrate1 g (fun k : nat => n c k (p_pol p - 1 - s)%nat) else 0))).
Proof. exact @proto_integral. Qed.
Print Assumptions C46_electrons.
Theorem C46_spin_symmetric :
  forall (pol : nat) (F : comp -> frag) (n : comp -> mat) (l : list comp) (k s : nat),
  (s < pol)%nat -> group true pol F n l k (pol - 1 - s) = group true pol F n l k s.
Proof. exact @group_flip. Qed.
Print Assumptions C46_spin_symmetric.
(** Every pass leaves these densities. *)
Theorem C46_run :
  forall (g : grid) (w : penv) (sched : Z -> comp -> list (nat * nat)) (d : dict) (p : part) (o : psopt) 
    (n : nat) (l : list num) (s : pst),
  passes g w sched d p o n l s ->
  ps_target o = false ->
  exists (F : comp -> frag) (m : comp -> mat) (na nb nf : mat) (q : comp -> mat),
    settled g (q_p s) F m na nb nf q /\ q_oldn s = nf.
Proof. exact @run_settled. Qed.
Print Assumptions C46_run.
Lemma C46_witness : exists p o s F m na nb nf q, partition_init g22 2 1 2 w_spec (1/2) (1/4) (w_opt "none" false true) = Ok p /\ p_ens p = true /\ po_ess (p_opt p) = true /\ ps_target o = false /\
  passes g22 w_env w_sched [] p o 0 [] s /\ settled g22 (q_p s) F m na nb nf q /\ nf 0%nat 0%nat = 2 * w_den /\ 0 < w_den.
Proof.
  assert (NU : 1 / 2 = 1 <-> 1 / 4 = 1) by lra. destruct (w_setup "none" false true 2 1 (1/2) (1/4)) as (p & H & _ & _ & ES & _ & _ & _ & _ & SY & FA & _); [auto|discriminate|exact NU|].
  destruct (w_begin _ _ _ _ _ _ H FA) as (o & s & P & T & C). destruct (w_settled _ _ _ _ _ _ w_env w_sched [] o 0%nat [] s H SY eq_refl C T P) as (F & m & na & nb & nf & q & S & _ & V).
  destruct (new_weights _ _ _ _ _ _ _ _ _ H) as (_ & _ & EN & _). exists p, o, s, F, m, na, nb, nf, q. split; [exact H|]. split; [destruct (p_ens p); auto; exfalso; assert (1 / 2 = 1) by (apply EN; reflexivity); lra|]. repeat (split; [assumption|]). split; [|apply w_den_pos].
  apply (V 0%nat 0%nat); [rewrite g22_n|]; lia.
Qed.

(** * C47: the Q functions *)
Theorem C47_total :
  forall (p : part) (F : comp -> frag) (n : comp -> mat) (nf : mat),
  densities p F n -> p_nf p = Some nf -> exists p' : part, calc_Q p = Ok p'.
Proof. exact @PartitionDens.Q_total. Qed.
Print Assumptions C47_total.
Theorem C47_values :
  forall (p : part) (F : comp -> frag) (n : comp -> mat) (nf : mat) (p' : part),
  densities p F n ->
  p_nf p = Some nf ->
  calc_Q p = Ok p' ->
  exists q : comp -> mat,
    Q_of p' q /\
    (forall (c : comp) (k s : nat), member (p_ens p) c -> nf k s <> 0 -> q c k s = f_scale (F c) * n c k s / nf k s) /\
    (forall (c : comp) (k s : nat), member (p_ens p) c -> nf k s = 0 -> q c k s = 0).
Proof. exact @Q_values. Qed.
Print Assumptions C47_values.
Theorem C47_partition_of_unity :
  forall (p : part) (F : comp -> frag) (n : comp -> mat) (p1 p2 : part),
  densities p F n ->
  calc_protomolecule p = Ok p1 ->
  calc_Q p1 = Ok p2 ->
  exists (q : comp -> mat) (nf : mat),
    p_nf p2 = Some nf /\
    Q_of p2 q /\
    (forall k s : nat,
     (s < p_pol p)%nat ->
     nf k s <> 0 ->
     lsum (if p_ens p then [Ca; CA; Cb; CB] else [Ca; Cb]) (fun c : comp => q c k s + (if po_ess (p_opt p) then q c k (p_pol p - 1 - s)%nat else 0)) = 1) /\
    (forall (c : comp) (k s : nat), member (p_ens p) c -> nf k s = 0 -> q c k s = 0) /\
    ((forall c : comp, member (p_ens p) c -> 0 <= f_scale (F c) /\ (forall k s : nat, 0 <= n c k s)) ->
     forall (c : comp) (k s : nat), member (p_ens p) c -> 0 <= q c k s <= 1 /\ q c k s * nf k s = f_scale (F c) * n c k s).
Proof. exact @Q_unity. Qed.
Print Assumptions C47_partition_of_unity.
Lemma C47_witness : exists p F n p1 p2, densities p F n /\ calc_protomolecule p = Ok p1 /\ calc_Q p1 = Ok p2 /\ p_ens p = true /\ (forall c, member (p_ens p) c -> 0 <= f_scale (F c) /\ forall k s, 0 <= n c k s) /\
  n Ca 0%nat 0%nat = 1 /\ n Cb 0%nat 0%nat = 0.
Proof.
  set (n' := fun c : comp => match c with Ca => left_dens | Cb => right_dens | _ => fun _ _ => 0 end).
  destruct (two_nu 1 (1/2) (1/4)) as (q & G & _ & HG & EQ & _ & _ & _ & WG & _); [lra|lra|].
  pose proof (hand_frags n' n' (fun _ => 0) q G HG) as HH. assert (DD : densities (by_hand n' n' one_energy (fun _ => 0) q) (F_hand n' n' (fun _ => 0) G) n') by (split; [exact HH|reflexivity]).
  destruct (proto_spec _ _ _ DD) as (na & nb & E & _). destruct (PartitionDens.Q_total (set_dens (by_hand n' n' one_energy (fun _ => 0) q) na nb (fun k s => na k s + nb k s)) (F_hand n' n' (fun _ => 0) G) n' (fun k s => na k s + nb k s)) as (p2 & E2); [exact DD|reflexivity|].
  do 3 eexists. exists (set_dens (by_hand n' n' one_energy (fun _ => 0) q) na nb (fun k s => na k s + nb k s)), p2. split; [exact DD|]. split; [exact E|]. split; [exact E2|]. split; [exact EQ|]. split; [|split; reflexivity].
  intros c _. split; [change (0 <= f_scale (G c)); rewrite WG; unfold weight; destruct c; lra|]. intros k s. destruct c; unfold n', left_dens, right_dens; try lra; destruct (k mod 2 =? 0)%nat; lra.
Qed.

(** * C48: mirror symmetry *)
Theorem C48_mirror :
  forall (g : grid) (a b b' : frag), mirror_frag g a b = Ok b' -> mirror_of g a b b'.
Proof. exact @mirror_frag_spec. Qed.
Print Assumptions C48_mirror.
Theorem C48_mirrorAB :
  forall (g : grid) (p p' : part),
  mirrorAB g p = Ok p' ->
  p' = with_f p (p_f p') /\
  (forall c : comp,
   member (p_ens p) c ->
   of_a c ->
   p_f p' c = p_f p c /\
   (exists a b b' : frag,
      p_f p c = Some a /\ p_f p (twin c) = Some b /\ mirror_frag g a b = Ok b' /\ p_f p' (twin c) = Some b')) /\
  (forall c : comp, ~ member (p_ens p) c -> p_f p' c = p_f p c).
Proof. exact @mirrorAB_inv. Qed.
Print Assumptions C48_mirrorAB.
Theorem C48_mirrorAB_when :
  forall (g : grid) (p : part),
  (forall c : comp, member (p_ens p) c -> exists f : frag, p_f p c = Some f) ->
  (forall c : comp,
   member (p_ens p) c ->
   of_a c -> exists f : frag, p_f p c = Some f /\ k_n (f_ks f) <> None /\ k_veff (f_ks f) <> None /\ k_vext (f_ks f) <> None) ->
  exists p' : part, mirrorAB g p = Ok p'.
Proof. exact @mirror_total. Qed.
Print Assumptions C48_mirrorAB_when.
Theorem C48_density :
  forall (g : grid) (p : part) (F : comp -> frag) (n : comp -> mat) (p' : part) (nf : mat),
  densities p F n ->
  calc_protomolecule p = Ok p' ->
  p_nf p' = Some nf ->
  (forall c : comp, member (p_ens p) c -> of_a c -> f_scale (F (twin c)) = f_scale (F c) /\ mirrored g (n c) (n (twin c))) ->
  mirrored g nf nf.
Proof. exact @proto_symmetric. Qed.
Print Assumptions C48_density.
(** Nothing checks that nu_a = nu_b. *)
Theorem C48_density_refuted :
  forall Z nua nub : R,
  nua <> 1 ->
  nub <> 1 ->
  nua <> nub ->
  exists (p : part) (F : comp -> frag) (n : comp -> mat) (p' : part) (nf : mat),
    densities p F n /\
    po_ab (p_opt p) = true /\
    p_ens p = true /\
    (forall c : comp, f_scale (F c) = weight true false nua nub c) /\
    (forall c : comp, member (p_ens p) c -> of_a c -> mirrored g22 (n c) (n (twin c))) /\
    p_Za p = Z /\ calc_protomolecule p = Ok p' /\ p_nf p' = Some nf /\ ~ mirrored g22 nf nf.
Proof. exact @not_symmetric. Qed.
Print Assumptions C48_density_refuted.
Theorem C48_run :
  forall (g : grid) (w : penv) (sched : Z -> comp -> list (nat * nat)) (d : dict) (p : part) (o : psopt) 
    (n : nat) (l : list num) (s : pst),
  passes g w sched d p o n l s ->
  po_ab (p_opt p) = true ->
  forall c : comp,
  member (p_ens p) c -> of_a c -> exists a b : frag, p_f (q_p s) c = Some a /\ p_f (q_p s) (twin c) = Some b /\ twins g a b.
Proof. exact @run_twins. Qed.
Print Assumptions C48_run.
Theorem C48_run_density :
  forall (g : grid) (w : penv) (sched : Z -> comp -> list (nat * nat)) (d : dict) (p : part) (o : psopt) 
    (n : nat) (l : list num) (s : pst) (nf : mat),
  passes g w sched d p o n l s ->
  ps_target o = false ->
  po_ab (p_opt p) = true ->
  (forall (c : comp) (fa fb : frag),
   member (p_ens p) c -> of_a c -> p_f p c = Some fa -> p_f p (twin c) = Some fb -> f_scale fb = f_scale fa) ->
  p_nf (q_p s) = Some nf -> mirrored g nf nf.
Proof. exact @run_symmetric. Qed.
Print Assumptions C48_run_density.
Theorem C48_run_Q :
  forall (g : grid) (w : penv) (sched : Z -> comp -> list (nat * nat)) (d : dict) (p : part) (o : psopt) 
    (n : nat) (l : list num) (s : pst),
  passes g w sched d p o n l s ->
  ps_target o = false ->
  po_ab (p_opt p) = true ->
  (forall (c : comp) (fa fb : frag),
   member (p_ens p) c -> of_a c -> p_f p c = Some fa -> p_f p (twin c) = Some fb -> f_scale fb = f_scale fa) ->
  exists q : comp -> mat, Q_of (q_p s) q /\ (forall c : comp, member (p_ens p) c -> of_a c -> mirrored g (q c) (q (twin c))).
Proof. exact @run_Q_mirrored. Qed.
Print Assumptions C48_run_Q.
Lemma C48_witness : exists p o n l s a b, po_ab (p_opt p) = true /\ p_ens p = true /\ ps_target o = false /\ passes g22 w_env w_sched [] p o (S n) l s /\ p_f (q_p s) CA = Some a /\ p_f (q_p s) CB = Some b /\ twins g22 a b /\
  (forall c fa fb, member (p_ens p) c -> of_a c -> p_f p c = Some fa -> p_f p (twin c) = Some fb -> f_scale fb = f_scale fa) /\ (exists nf, p_nf (q_p s) = Some nf).
Proof.
  destruct (w_runs "libxcke" true false 1 1 (1/2) (1/2)) as (p & o & n & l & s & H & _ & AB & _ & _ & _ & _ & _ & SY & EN & _ & P & _ & T & _); auto; [tauto|].
  assert (E : p_ens p = true) by (destruct (p_ens p); auto; exfalso; assert (1 / 2 = 1) by (apply EN; reflexivity); lra).
  destruct (run_twins _ _ _ _ _ _ _ _ _ P AB CA E (or_intror eq_refl)) as (a & b & A1 & A2 & A3). exists p, o, n, l, s, a, b. repeat (split; [assumption|]). split.
  - destruct (init_new _ _ _ _ _ _ _ _ _ H) as (F & HF & _ & _ & _ & _ & W). intros c fa fb Hc Ha F1 F2. rewrite (HF c Hc) in F1. injection F1 as <-. rewrite (HF (twin c)) in F2 by (destruct Ha as [-> | ->]; cbn; auto). injection F2 as <-. apply W; auto.
  - destruct (run_settled _ _ _ _ _ _ _ _ _ P T) as (F & m & na & nb & nf & q & (_ & (_ & _ & N & _) & _) & _). exists nf. exact N.
Qed.

(** * C49: energies *)
Theorem C49_sums :
  forall (g : grid) (w : env) (p : part) (F : comp -> frag) (e : comp -> kse) (p' : part),
  energies p F e ->
  energy g w p = Ok p' ->
  let A := if p_ens p then [Ca; CA] else [Ca] in
  let B := if po_ab (p_opt p) then A else if p_ens p then [CB; CB] else [Cb] in
  let sum := fun h : comp -> R => share (po_ess (p_opt p)) F A h + share (po_ess (p_opt p)) F B h in
  let dft := fun (h : kse -> R) (c : comp) => if po_int (p_opt p) =? "dft" then h (e c) else 0 in
  p_E p' "Ea" = Some (share (po_ess (p_opt p)) F A (fun c : comp => to_R (E_E (e c)))) /\
  p_E p' "Eb" = Some (share (po_ess (p_opt p)) F B (fun c : comp => to_R (E_E (e c)))) /\
  p_E p' "Ef" = Some (sum (fun c : comp => to_R (E_E (e c)))) /\
  p_E p' "Tsf" = Some (sum (fun c : comp => to_R (E_Ts (e c)))) /\
  p_E p' "Enucf" = Some (sum (fun c : comp => E_Enuc (e c))) /\
  p_E p' "Exf" = Some (sum (dft E_Ex)) /\
  p_E p' "Ecf" = Some (sum (dft E_Ec)) /\
  p_E p' "Ehf" = Some (sum (dft (fun x : kse => val (E_Eh x)))) /\
  p_E p' "Vhxcf" = Some (sum (dft (fun x : kse => val (E_Vhxc x)))) /\
  (forall s : nat, p_Eks p' s = sum (fun c : comp => E_Eks (e c) s)) /\
  p_E p' "Vnn" = Some (p_Za p * p_Zb p / (2 * ga g)) /\
  p_ev p' =
  (flat_map (fun c : comp => E_evals (e c)) A,
   flat_map (fun c : comp => E_evals (e c)) (if po_ab (p_opt p) then A else if p_ens p then [Cb; CB] else [Cb])) /\
  (exists Ep : sv,
     p_T p' "Ep" = Some Ep /\
     p_T p' "Et" = Some (sv_op Rplus (SC (sum (fun c : comp => to_R (E_E (e c))))) Ep) /\
     p_T p' "E" =
     Some (sv_op Rplus (sv_op Rplus (SC (sum (fun c : comp => to_R (E_E (e c))))) Ep) (SC (p_Za p * p_Zb p / (2 * ga g))))).
Proof. exact @energy_sums. Qed.
Print Assumptions C49_sums.
Theorem C49_run_sums :
  forall (g : grid) (w : penv) (sched : Z -> comp -> list (nat * nat)) (d : dict) (p : part) (o : psopt) 
    (n : nat) (l : list num) (s : pst),
  passes g w sched d p o (S n) l s ->
  exists (F : comp -> frag) (e : comp -> kse),
    energies (q_p s) F e /\
    (let A := if p_ens p then [Ca; CA] else [Ca] in
     let B := if po_ab (p_opt p) then A else if p_ens p then [CB; CB] else [Cb] in
     let sum := fun h : comp -> R => share (po_ess (p_opt p)) F A h + share (po_ess (p_opt p)) F B h in
     p_E (q_p s) "Ea" = Some (share (po_ess (p_opt p)) F A (fun c : comp => to_R (E_E (e c)))) /\
     p_E (q_p s) "Eb" = Some (share (po_ess (p_opt p)) F B (fun c : comp => to_R (E_E (e c)))) /\
     p_E (q_p s) "Ef" = Some (sum (fun c : comp => to_R (E_E (e c)))) /\
     p_E (q_p s) "Tsf" = Some (sum (fun c : comp => to_R (E_Ts (e c)))) /\
     p_E (q_p s) "Enucf" = Some (sum (fun c : comp => E_Enuc (e c))) /\
     (forall j : nat, p_Eks (q_p s) j = sum (fun c : comp => E_Eks (e c) j))).
Proof. exact @run_sums. Qed.
Print Assumptions C49_run_sums.
Theorem C49_run_energy :
  forall (g : grid) (w : penv) (sched : Z -> comp -> list (nat * nat)) (d : dict) (p : part) (o : psopt) 
    (n : nat) (l : list num) (s : pst),
  passes g w sched d p o (S n) l s ->
  exists Ef Ep E : R,
    p_E (q_p s) "Ef" = Some Ef /\
    p_T (q_p s) "Ep" = Some (SC Ep) /\
    p_T (q_p s) "E" = Some (SC E) /\
    E = Ef + Ep + p_Za p * p_Zb p / (2 * ga g) /\ q_oldE s = E /\ (po_iso (p_opt p) = true -> Ep = 0).
Proof. exact @run_bookkeeping. Qed.
Print Assumptions C49_run_energy.
(** In an ensemble without ab_sym the upper component of B is counted twice and the lower one not at all. *)
Theorem C49_ensemble_refuted :
  forall (g : grid) (w : env) (p : part) (F : comp -> frag) (e : comp -> kse) (p' : part),
  energies p F e ->
  energy g w p = Ok p' ->
  p_ens p = true ->
  po_ab (p_opt p) = false ->
  p_E p' "Eb" = Some (share (po_ess (p_opt p)) F [Cb; CB] (fun c : comp => to_R (E_E (e c)))) <->
  f_scale (F Cb) * to_R (E_E (e Cb)) = f_scale (F CB) * to_R (E_E (e CB)).
Proof. exact @eb_wrong. Qed.
Print Assumptions C49_ensemble_refuted.
Lemma C49_witness : (exists p F e p', energies p F e /\ energy g22 ex_env p = Ok p' /\ p_ens p = true /\ po_ab (p_opt p) = false /\ p_E p' "Ea" = Some 1 /\ p_E p' "Eb" = Some (1 / 2) /\
    share (po_ess (p_opt p)) F [Cb; CB] (fun c => to_R (E_E (e c))) = (if po_ess (p_opt p) then 2 else 1)) /\
  (exists p o n l s, po_iso (p_opt p) = false /\ passes g22 w_env w_sched [] p o (S n) l s) /\ (exists p o n l s, po_iso (p_opt p) = true /\ passes g22 w_env w_sched [] p o (S n) l s).
Proof.
  split; [|split].
  - destruct (wrong_run 1 1) as (p & F & e & p' & HE & E & EN & AB & _ & _ & W & A & B). exists p, F, e, p'. repeat (split; [assumption|]). unfold share. cbn [lsum]. destruct (W Cb Logic.I) as (W1 & W2). destruct (W CB eq_refl) as (W3 & W4). rewrite W1, W2, W3, W4. unfold weight. cbn [to_R]. destruct (po_ess (p_opt p)); lra.
  - destruct (w_runs "none" false true 2 1 1 1) as (p & o & n & l & s & _ & _ & _ & _ & I & _ & _ & _ & _ & _ & _ & P & _); [auto|discriminate|tauto|]. exists p, o, n, l, s. auto.
  - destruct (w_iso_runs 2 1 1 1) as (p & o & n & l & s & _ & I & _ & _ & P & _); [tauto|]. exists p, o, n, l, s. auto.
Qed.

(** * C50: fragment and partition energies reassemble the molecular functional *)
Theorem C50_energy :
  forall (g : grid) (w : env) (p : part) (F : comp -> frag) (n : comp -> mat) (na nb nf : mat) (e : comp -> kse) (p' : part),
  protomolecule p F n na nb nf ->
  densities p F n ->
  energies p F e ->
  at_nuclei p F ->
  belongs p F ->
  po_int (p_opt p) = "dft" ->
  po_hxc (p_opt p) = "exact" ->
  po_kin (p_opt p) = "inversion" ->
  po_iso (p_opt p) = false ->
  (forall c : comp, In c (comps_ab p) -> evaluated g w (f_ks (F c))) ->
  po_ab (p_opt p) = false /\ p_ens p = false \/ po_ab (p_opt p) = true /\ ab_mirror g p F n ->
  energy g w p = Ok p' ->
  exists (iv : inverter) (T : R) (vh : arr R) (x c : R * vec),
    p_inv p' = Some iv /\
    get_Ts g iv = Ok (Fin T) /\
    v_hartree g (e_spL w) (e_spU w) (A1 (fun k : nat => sumR (p_pol p) (fun s : nat => nf k s))) = Ok vh /\
    p_x p = Some x /\
    p_c p = Some c /\
    p_T p' "Et" =
    Some
      (SC
         (T + nuclear_total g p nf +
          1 / 2 * integrate1 g (fun k : nat => sumR (p_pol p) (fun s : nat => nf k s) * entry vh k 0) + 
          fst x + fst c)).
Proof. exact @reassembles. Qed.
Print Assumptions C50_energy.
Theorem C50_run :
  forall (g : grid) (w : penv) (sched : Z -> comp -> list (nat * nat)) (d : dict) (p : part) (o : psopt) 
    (n : nat) (l : list num) (s0 s : pst) (F0 : comp -> frag),
  passes g w sched d p o n l s0 ->
  psc_test o s0 = Ok true ->
  psc_body g w o (sched (q_iter s0)) s0 = Ok s ->
  ps_target o = false ->
  frags p F0 ->
  at_nuclei p F0 ->
  belongs p F0 ->
  po_int (p_opt p) = "dft" ->
  po_hxc (p_opt p) = "exact" ->
  po_kin (p_opt p) = "inversion" ->
  po_iso (p_opt p) = false ->
  po_ab (p_opt p) = false /\ p_ens p = false \/
  po_ab (p_opt p) = true /\
  mirror_invariant g /\
  (forall k : nat, (k < Nelem g)%nat -> p_vb p k = mirror1 g (p_va p) k) /\
  (forall c : comp, member (p_ens p) c -> of_a c -> f_scale (F0 (twin c)) = f_scale (F0 c)) ->
  exists (iv : inverter) (T : R) (vh : arr R) (nf nf0 : mat) (x c : R * vec * mat),
    p_inv (q_p s) = Some iv /\
    get_Ts g iv = Ok (Fin T) /\
    p_nf (q_p s) = Some nf /\
    p_nf (q_p s0) = Some nf0 /\
    v_hartree g (e_spL (pe_env w)) (e_spU (pe_env w)) (A1 (fun k : nat => sumR (p_pol p) (fun s1 : nat => nf k s1))) = Ok vh /\
    get_xc g (e_lib (pe_env w)) (po_fam (p_opt p)) (po_xid (p_opt p)) (p_pol p) nf0 = Ok x /\
    get_xc g (e_lib (pe_env w)) (po_fam (p_opt p)) (po_cid (p_opt p)) (p_pol p) nf0 = Ok c /\
    p_T (q_p s) "Et" =
    Some
      (SC
         (T + nuclear_total g p nf +
          1 / 2 * integrate1 g (fun k : nat => sumR (p_pol p) (fun s1 : nat => nf k s1) * entry vh k 0) + 
          fst (fst x) + fst (fst c))).
Proof. exact @run_reassembles. Qed.
Print Assumptions C50_run.
Theorem C50_new :
  forall (g : grid) (Za Zb : R) (pol : nat) (spec : comp -> fspec) (nua nub : R) (opt : dict) (p : part) 
    (w : penv) (sched : Z -> comp -> list (nat * nat)) (d : dict) (o : psopt) (n : nat) (l : list num) 
    (s0 s : pst),
  constructed g Za Zb pol spec nua nub opt p ->
  passes g w sched d p o n l s0 ->
  psc_test o s0 = Ok true ->
  psc_body g w o (sched (q_iter s0)) s0 = Ok s ->
  ps_target o = false ->
  po_int (p_opt p) = "dft" ->
  po_hxc (p_opt p) = "exact" ->
  po_kin (p_opt p) = "inversion" ->
  po_iso (p_opt p) = false ->
  po_sym (p_opt p) = false ->
  (pol <= 2)%nat ->
  po_ab (p_opt p) = false /\ nua = 1 \/ po_ab (p_opt p) = true /\ nua = nub /\ mirror_invariant g ->
  exists (iv : inverter) (T : R) (vh : arr R) (nf nf0 : mat) (x c : R * vec * mat),
    p_inv (q_p s) = Some iv /\
    get_Ts g iv = Ok (Fin T) /\
    p_nf (q_p s) = Some nf /\
    p_nf (q_p s0) = Some nf0 /\
    v_hartree g (e_spL (pe_env w)) (e_spU (pe_env w)) (A1 (fun k : nat => sumR pol (fun s1 : nat => nf k s1))) = Ok vh /\
    get_xc g (e_lib (pe_env w)) (po_fam (p_opt p)) (po_xid (p_opt p)) pol nf0 = Ok x /\
    get_xc g (e_lib (pe_env w)) (po_fam (p_opt p)) (po_cid (p_opt p)) pol nf0 = Ok c /\
    p_T (q_p s) "E" =
    Some
      (SC
         (T + integrate1 g (fun k : nat => sumR pol (fun s1 : nat => nf k s1) * coulomb g Za Zb k) +
          1 / 2 * integrate1 g (fun k : nat => sumR pol (fun s1 : nat => nf k s1) * entry vh k 0) + 
          fst (fst x) + fst (fst c) + Za * Zb / (2 * ga g))).
Proof. exact @new_reassembles. Qed.
Print Assumptions C50_new.
Lemma C50_witness : exists p o n l s0 s, constructed g22 2 1 2 w_spec 1 1 (w_opt "inversion" false false) p /\ passes g22 w_env w_sched [] p o n l s0 /\ psc_test o s0 = Ok true /\ psc_body g22 w_env o (w_sched (q_iter s0)) s0 = Ok s /\
  ps_target o = false /\ po_int (p_opt p) = "dft" /\ po_hxc (p_opt p) = "exact" /\ po_kin (p_opt p) = "inversion" /\ po_iso (p_opt p) = false /\ po_sym (p_opt p) = false /\ po_ab (p_opt p) = false /\ p_ens p = false.
Proof.
  destruct (w_inversion_runs 2 1 1 1) as (p & o & n & l & s & C & K & AB & _ & IS & IN & HX & _ & SY & EN & _ & P & _ & T & _); [tauto|]. inversion P; subst.
  exists p, o, n. do 3 eexists. split; [exact C|]. split; [eassumption|]. split; [eassumption|]. split; [eassumption|]. repeat (split; [assumption|]). apply EN. reflexivity.
Qed.

(** * C51: the partition potential *)
Theorem C51_average :
  forall (g : grid) (w : penv) (p p' : part),
  vp_component g w p = Ok p' ->
  exists (u : comp -> string -> mat) (q : comp -> mat),
    embedding p' u q /\
    (forall (c : comp) (k s : nat),
     member (p_ens p) c -> u c "vp" k s = u c "vp_pot" k s + u c "vp_kin" k s + u c "vp_hxc" k s) /\
    (forall nm : string,
     In nm parts ->
     exists v : mat,
       p_V p' nm = Some v /\
       (forall k s : nat,
        (k < Nelem g)%nat ->
        (s < p_pol p)%nat ->
        v k s =
        processed g (po_ess (p_opt p)) (po_ab (p_opt p)) (p_pol p)
          (fun k0 s0 : nat =>
           lsum (if p_ens p then [Ca; CA; Cb; CB] else [Ca; Cb]) (fun c : comp => u c nm k0 s0 * q c k0 s0)) k s)).
Proof. exact @potential_sum. Qed.
Print Assumptions C51_average.
Theorem C51_splits :
  forall (g : grid) (w : penv) (p p' : part),
  vp_component g w p = Ok p' ->
  exists v a b d : mat,
    p_V p' "vp" = Some v /\
    p_V p' "vp_pot" = Some a /\
    p_V p' "vp_kin" = Some b /\
    p_V p' "vp_hxc" = Some d /\ (forall k s : nat, (k < Nelem g)%nat -> (s < p_pol p)%nat -> v k s = a k s + b k s + d k s).
Proof. exact @potential_splits. Qed.
Print Assumptions C51_splits.
Theorem C51_exact_splits :
  forall (g : grid) (w : penv) (p p' : part),
  vp_component g w p = Ok p' ->
  po_hxc (p_opt p) = "exact" ->
  exists v a b d : mat,
    p_V p' "vp_hxc" = Some v /\
    p_V p' "vp_h" = Some a /\
    p_V p' "vp_x" = Some b /\
    p_V p' "vp_c" = Some d /\ (forall k s : nat, (k < Nelem g)%nat -> (s < p_pol p)%nat -> v k s = a k s + b k s + d k s).
Proof. exact @exact_splits. Qed.
Print Assumptions C51_exact_splits.
Theorem C51_symmetric :
  forall (g : grid) (w : penv) (p p' : part) (nm : string) (v : mat),
  vp_component g w p = Ok p' -> po_ab (p_opt p) = true -> In nm parts -> p_V p' nm = Some v -> symmetric g (p_pol p) v.
Proof. exact @potential_symmetric. Qed.
Print Assumptions C51_symmetric.
Theorem C51_common :
  forall (g : grid) (w : penv) (p p' : part) (u : comp -> string -> mat) (q : comp -> mat) (U : nat -> nat -> R) (v : mat),
  vp_component g w p = Ok p' ->
  embedding p' u q ->
  p_V p' "vp" = Some v ->
  (forall (c : comp) (k s : nat), member (p_ens p) c -> (k < Nelem g)%nat -> (s < p_pol p)%nat -> u c "vp" k s = U k s) ->
  (forall k s : nat,
   (k < Nelem g)%nat ->
   (s < p_pol p)%nat ->
   lsum (if p_ens p then [Ca; CA; Cb; CB] else [Ca; Cb])
     (fun c : comp => q c k s + (if po_ess (p_opt p) then q c k (p_pol p - 1 - s)%nat else 0)) = 1) ->
  (po_ess (p_opt p) = true -> forall k s : nat, (k < Nelem g)%nat -> (s < p_pol p)%nat -> U k (p_pol p - 1 - s)%nat = U k s) ->
  (po_ab (p_opt p) = true -> symmetric g (p_pol p) U) ->
  forall k s : nat, (k < Nelem g)%nat -> (s < p_pol p)%nat -> v k s = U k s.
Proof. exact @potential_common. Qed.
Print Assumptions C51_common.
Lemma C51_witness : exists p1 p2, vp_component g22 w_env p1 = Ok p2 /\ po_ab (p_opt p1) = true /\ po_ess (p_opt p1) = true /\ p_ens p1 = true /\ po_hxc (p_opt p1) = "exact".
Proof.
  destruct (w_runs "libxcke" true true 1 1 (1/2) (1/2)) as (p & o & n & l & s & H & _ & AB & ES & IS & _ & HX & VP & SY & EN & _ & P & _ & T & _); auto; [tauto|].
  assert (E : p_ens p = true) by (destruct (p_ens p); auto; exfalso; assert (1 / 2 = 1) by (apply EN; reflexivity); lra).
  destruct (pass_component _ _ _ _ _ _ _ _ _ P IS VP) as (p1 & p2 & X & O & N & _). exists p1, p2. rewrite O, N. auto 10.
Qed.

(** * C52: nuclear potential and energy *)
Theorem C52_potential :
  forall (p : part) (F : comp -> frag) (v : mat) (p' : part),
  frags p F ->
  at_nuclei p F ->
  p_V p "vext" = Some v ->
  (forall k s : nat, (s < p_pol p)%nat -> v k s = p_va p k + p_vb p k) ->
  vp_nuclear p = Ok p' ->
  forall c : comp,
  member (p_ens p) c ->
  exists (f : frag) (u : mat),
    p_f p' c = Some f /\
    f_V f "vp_pot" = Some u /\
    (forall k s : nat, (s < p_pol p)%nat -> u k s = match c with
                                                    | Ca | CA => p_vb p k
                                                    | _ => p_va p k
                                                    end).
Proof. exact @vp_nuclear_spec. Qed.
Print Assumptions C52_potential.
Theorem C52_new_object :
  forall (g : grid) (Za Zb : R) (pol : nat) (spec : comp -> fspec) (nua nub : R) (opt : dict) (p : part),
  partition_init g Za Zb pol spec nua nub opt = Ok p ->
  po_sym (p_opt p) = false ->
  (pol <= 2)%nat ->
  exists (F : comp -> frag) (v : mat),
    frags p F /\
    at_nuclei p F /\ p_V p "vext" = Some v /\ (forall k s : nat, (s < p_pol p)%nat -> v k s = p_va p k + p_vb p k).
Proof. exact @init_nuclei. Qed.
Print Assumptions C52_new_object.
Theorem C52_partition_energy :
  forall (g : grid) (p : part) (F : comp -> frag) (n : comp -> mat) (na nb nf : mat) (p' : part),
  protomolecule p F n na nb nf ->
  ep_nuclear g p = Ok p' ->
  p' =
  set_E p "Ep_pot"
    (share (po_ess (p_opt p)) F (if p_ens p then [Ca; CA] else [Ca])
       (fun c : comp => integrate1 g (fun k : nat => sum_cols (p_pol p) (n c) k * p_vb p k)) +
     share (po_ess (p_opt p)) F (if p_ens p then [Cb; CB] else [Cb])
       (fun c : comp => integrate1 g (fun k : nat => sum_cols (p_pol p) (n c) k * p_va p k))).
Proof. exact @ep_nuclear_spec. Qed.
Print Assumptions C52_partition_energy.
Theorem C52_sum :
  forall (g : grid) (p : part) (F : comp -> frag) (n : comp -> mat) (na nb nf : mat) (h : comp -> R) (p' : part),
  protomolecule p F n na nb nf ->
  at_nuclei p F ->
  ep_nuclear g p = Ok p' ->
  (forall c : comp, member (p_ens p) c -> h c = pair_integral g (p_pol p) (n c) (k_vnuc (f_ks (F c)))) ->
  exists x : R,
    p_E p' "Ep_pot" = Some x /\
    share (po_ess (p_opt p)) F (if p_ens p then [Ca; CA; Cb; CB] else [Ca; Cb]) h + x = nuclear_total g p nf.
Proof. exact @nuclear_sum. Qed.
Print Assumptions C52_sum.
Theorem C52_energy :
  forall (g : grid) (w : env) (p : part) (F : comp -> frag) (n : comp -> mat) (na nb nf : mat) (e : comp -> kse) (p' : part),
  protomolecule p F n na nb nf ->
  densities p F n ->
  energies p F e ->
  at_nuclei p F ->
  belongs p F ->
  po_iso (p_opt p) = false ->
  (forall c : comp, In c (comps_ab p) -> evaluated g w (f_ks (F c))) ->
  po_ab (p_opt p) = false /\ p_ens p = false \/ po_ab (p_opt p) = true /\ ab_mirror g p F n ->
  energy g w p = Ok p' ->
  exists a b : R, p_E p' "Enucf" = Some a /\ p_E p' "Ep_pot" = Some b /\ a + b = nuclear_total g p nf.
Proof. exact @nuclear_energy. Qed.
Print Assumptions C52_energy.
Lemma C52_witness : exists p F v, partition_init g22 2 1 2 w_spec (1/2) (1/4) [] = Ok p /\ frags p F /\ at_nuclei p F /\ p_V p "vext" = Some v /\ (forall k s, (s < p_pol p)%nat -> v k s = p_va p k + p_vb p k) /\
  exists p', vp_nuclear p = Ok p'.
Proof.
  destruct (w_default_ok 2 1 (1/2) (1/4)) as (p & H); [lra|]. pose proof (w_default_opt _ _ _ _ _ H) as (_ & _ & SY & _). destruct (init_nuclei _ _ _ _ _ _ _ _ _ H SY) as (F & v & HF & AN & V & VV); [lia|].
  exists p, F, v. repeat (split; [assumption|]). unfold vp_nuclear.
  assert (L : forall l q, p_V q "vext" = Some v -> (forall c, In c l -> exists f, p_f q c = Some f) -> exists q', forL l (fun c q => do f <- get_f q c; do v <- attr (p_V q) "vext"; Ok (set_frag q c (fV f "vp_pot" (fun k s => v k s - k_vnuc (f_ks f) k s)))) q = Ok q').
  { induction l as [|c l IH]; intros q Q M; cbn [forL]; [eauto|]. destruct (M c (or_introl eq_refl)) as (f & Ef). unfold get_f at 1. rewrite Ef. cbn [have bind]. unfold attr at 1. rewrite Q. cbn [have bind]. apply IH; [exact Q|].
    intros c' Hc'. unfold set_frag. cbn [p_f]. destruct (comp_eqb c' c); [eauto|]. apply M. right. exact Hc'. }
  apply L; [exact V|]. intros c Hc. exists (F c). apply HF. destruct (p_ens p), c; cbn in *; intuition congruence.
Qed.

(** * C53: settings that can and cannot run *)
Theorem C53_never :
  forall (g : grid) (w : penv) (o : psopt) (sched : comp -> list (nat * nat)) (s s' : pst),
  dead (q_p s) -> psc_body g w o sched s <> Ok s'.
Proof. exact @dead_never. Qed.
Print Assumptions C53_never.
Theorem C53_run_not :
  forall (g : grid) (w : penv) (sched : Z -> comp -> list (nat * nat)) (d : dict) (p : part) (o : psopt) 
    (n : nat) (l : list num) (s : pst), passes g w sched d p o (S n) l s -> ~ dead p.
Proof. exact @run_not_dead. Qed.
Print Assumptions C53_run_not.
Theorem C53_scf_dead :
  forall (g : grid) (w : penv) (sched : Z -> comp -> list (nat * nat)) (d : dict) (p : part) (s : pst),
  dead p ->
  partition_scf g w sched d p = Ok s -> exists o : psopt, psc_options p d = Ok o /\ ((ps_maxit o < 1)%Z \/ 10 <= ps_tol o).
Proof. exact @dead_scf. Qed.
Print Assumptions C53_scf_dead.
Theorem C53_overlap_first_pass :
  forall (g : grid) (w : penv) (sched : Z -> comp -> list (nat * nat)) (d : dict) (p : part) (o : psopt) 
    (n : nat) (l : list num) (s : pst) (f : frag),
  passes g w sched d p o (S n) l s ->
  po_iso (p_opt p) = false ->
  po_hxc (p_opt p) = "overlap_xc" \/ po_hxc (p_opt p) = "overlap_hxc" -> p_f p Ca = Some f -> k_E (f_ks f) <> None.
Proof. exact @overlap_first_pass. Qed.
Print Assumptions C53_overlap_first_pass.
Theorem C53_twoorbital_first_pass :
  forall (g : grid) (w : penv) (sched : Z -> comp -> list (nat * nat)) (d : dict) (p : part) (o : psopt) 
    (n : nat) (l : list num) (s : pst) (f g0 : frag),
  passes g w sched d p o (S n) l s ->
  po_iso (p_opt p) = false ->
  po_kin (p_opt p) = "twoorbital" ->
  p_ens p = true -> p_f p Ca = Some f -> p_f p CA = Some g0 -> k_E (f_ks f) <> None \/ f_V g0 "vp_kin" <> None.
Proof. exact @two_first_pass. Qed.
Print Assumptions C53_twoorbital_first_pass.
Theorem C53_new_overlap :
  forall (g : grid) (Za Zb : R) (pol : nat) (spec : comp -> fspec) (nua nub : R) (opt : dict) (p : part) 
    (w : penv) (sched : Z -> comp -> list (nat * nat)) (d : dict) (o : psopt) (n : nat) (l : list num) 
    (s : pst),
  constructed g Za Zb pol spec nua nub opt p ->
  po_iso (p_opt p) = false ->
  po_hxc (p_opt p) = "overlap_xc" \/ po_hxc (p_opt p) = "overlap_hxc" -> ~ passes g w sched d p o (S n) l s.
Proof. exact @new_overlap_never. Qed.
Print Assumptions C53_new_overlap.
Theorem C53_new_twoorbital :
  forall (g : grid) (Za Zb : R) (pol : nat) (spec : comp -> fspec) (nua nub : R) (opt : dict) (p : part) 
    (w : penv) (sched : Z -> comp -> list (nat * nat)) (d : dict) (o : psopt) (n : nat) (l : list num) 
    (s : pst),
  constructed g Za Zb pol spec nua nub opt p ->
  po_iso (p_opt p) = false -> po_kin (p_opt p) = "twoorbital" -> p_ens p = true -> ~ passes g w sched d p o (S n) l s.
Proof. exact @new_two_never. Qed.
Print Assumptions C53_new_twoorbital.
Theorem C53_new_scf :
  forall (g : grid) (Za Zb : R) (pol : nat) (spec : comp -> fspec) (nua nub : R) (opt : dict) (p : part) 
    (w : penv) (sched : Z -> comp -> list (nat * nat)) (d : dict) (s : pst),
  constructed g Za Zb pol spec nua nub opt p ->
  po_iso (p_opt p) = false ->
  (po_hxc (p_opt p) = "overlap_xc" \/ po_hxc (p_opt p) = "overlap_hxc") \/ po_kin (p_opt p) = "twoorbital" /\ p_ens p = true ->
  partition_scf g w sched d p = Ok s -> exists o : psopt, psc_options p d = Ok o /\ ((ps_maxit o < 1)%Z \/ 10 <= ps_tol o).
Proof. exact @new_scf. Qed.
Print Assumptions C53_new_scf.
(** The default settings are among them. *)
Theorem C53_default_refuted :
  forall (g : grid) (Za Zb : R) (pol : nat) (spec : comp -> fspec) (nua nub : R) (p : part),
  constructed g Za Zb pol spec nua nub [] p -> dead p.
Proof. exact @default_dead. Qed.
Print Assumptions C53_default_refuted.
Theorem C53_works :
  forall (Lv : nat) (g : grid) (w : penv) (sched : Z -> comp -> list (nat * nat)) (d : dict) (p : part) 
    (o : psopt) (lv : nat),
  (0 < Nelem g)%nat ->
  psc_options p d = Ok o ->
  ps_target o = false ->
  ps_cont o = false ->
  ps_auto o = false ->
  Datatypes.length (ps_alpha o) = 1%nat \/ Datatypes.length (ps_alpha o) = 2%nat ->
  (1 <= p_pol p)%nat ->
  workable g w p ->
  (po_iso (p_opt p) = false -> some (p_V p "vext")) ->
  equipped g (pe_env w) sched lv p ->
  inv_live Lv w p -> (inverting p = true -> lsq_converges (pe_inv w)) -> exists s : pst, partition_scf g w sched d p = Ok s.
Proof. exact @scf_works. Qed.
Print Assumptions C53_works.
Lemma C53_witness : (exists p, constructed g22 2 1 2 w_spec (1/2) (1/4) [] p /\ dead p) /\
  (exists p o, po_kin (p_opt p) = "libxcke" /\ psc_options p [] = Ok o /\ ps_target o = false /\ ps_cont o = false /\ ps_auto o = false /\ workable g22 w_env p /\ equipped g22 (pe_env w_env) w_sched 1 p) /\
  (exists p, constructed g22 1 1 2 w_spec (1/2) (1/2) [("hxc_part_type", VS "overlap_xc")] p /\ po_iso (p_opt p) = false /\ po_hxc (p_opt p) = "overlap_xc") /\
  (exists p, constructed g22 1 1 2 w_spec (1/2) (1/2) [("kinetic_part_type", VS "twoorbital")] p /\ po_iso (p_opt p) = false /\ po_kin (p_opt p) = "twoorbital" /\ p_ens p = true).
Proof.
  split; [|split; [|split]].
  - destruct (w_default_ok 2 1 (1/2) (1/4)) as (p & H); [lra|]. exists p. pose proof (init_constructed _ _ _ _ _ _ _ _ _ H) as C. split; [exact C|]. eapply default_dead. exact C.
  - destruct (w_setup "libxcke" true true 1 1 (1/2) (1/2)) as (p & H & K & _ & _ & _ & _ & _ & _ & _ & FA & W); auto; [tauto|]. destruct (w_run _ _ _ _ _ _ H FA W ltac:(unfold inverting; rewrite K; reflexivity)) as (o & _ & _ & _ & _ & O & _). exists p, o. destruct (defaults _ _ O) as (D1 & D2 & _ & D3 & _). repeat (split; [assumption|]). eapply w_equipped; eauto.
  - assert (C : exists d, configure PartitionOptions [("hxc_part_type", VS "overlap_xc")] = Ok d /\ exists k, configure KohnShamOptions (ks_dict d) = Ok k) by (eexists; (split; [reflexivity|]); eexists; reflexivity). destruct C as (d & C & k & C2).
    destruct (w_init 1 1 (1/2) (1/2) _ d k C C2) as (p & H); [injection C as <-; discriminate|auto|tauto|]. exists p. split; [apply init_constructed; exact H|]. pose proof (init_inv _ _ _ _ _ _ _ _ _ H) as (d' & C' & O & _). rewrite C in C'. injection C' as <-. rewrite O. injection C as <-. split; reflexivity.
  - assert (C : exists d, configure PartitionOptions [("kinetic_part_type", VS "twoorbital")] = Ok d /\ exists k, configure KohnShamOptions (ks_dict d) = Ok k) by (eexists; (split; [reflexivity|]); eexists; reflexivity). destruct C as (d & C & k & C2).
    destruct (w_init 1 1 (1/2) (1/2) _ d k C C2) as (p & H); [injection C as <-; discriminate|auto|tauto|]. exists p. split; [apply init_constructed; exact H|]. pose proof (init_inv _ _ _ _ _ _ _ _ _ H) as (d' & C' & O & _ & _ & _ & _ & _ & _ & _ & _ & _ & _ & EN & _). rewrite C in C'. injection C' as <-. split; [rewrite O; injection C as <-; reflexivity|]. split; [rewrite O; injection C as <-; reflexivity|]. destruct EN as [(X & _)|(_ & _ & X)]; [lra|exact X].
Qed.

(** * C54: overlap *)
Theorem C54_values :
  forall (g : grid) (p p' : part),
  vp_overlap g p = Ok p' ->
  exists na nb : mat,
    p_na p = Some na /\
    p_nb p = Some nb /\
    (forall k : nat,
     (k < Nelem g)%nat -> 0 <= sumR (p_pol p) (fun s : nat => na k s) * sumR (p_pol p) (fun s : nat => nb k s)) /\
    p_E p' "S" = Some (overlap g (p_pol p) na nb) /\
    p_E p' "F" = Some (erf (2 * overlap g (p_pol p) na nb)) /\
    (forall c : comp,
     member (p_ens p) c ->
     exists f f' : frag,
       p_f p c = Some f /\
       p_f p' c = Some f' /\
       (let d := dSdn (f_scale f) (own_dens c na nb) (other_dens c na nb) in
        f_V f' "dSdn" = Some d /\
        f_V f' "dFdn" = Some (fun k s : nat => 4 / sqrt PI * exp (-4 * overlap g (p_pol p) na nb ^ 2) * d k s))).
Proof. exact @overlap_spec. Qed.
Print Assumptions C54_values.
Theorem C54_range :
  forall (g : grid) (pol : nat) (na nb : mat),
  grid_ok g ->
  (forall k : nat, (k < Nelem g)%nat -> 0 <= gwi g k) -> 0 <= overlap g pol na nb /\ 0 <= erf (2 * overlap g pol na nb) < 1.
Proof. exact @overlap_range. Qed.
Print Assumptions C54_range.
Theorem C54_symmetric :
  forall (g : grid) (pol : nat) (a b : mat), overlap g pol a b = overlap g pol b a.
Proof. exact @overlap_comm. Qed.
Print Assumptions C54_symmetric.
Theorem C54_derivative :
  forall (g : grid) (pol : nat) (own other : mat) (k s : nat),
  (k < Nelem g)%nat ->
  (s < pol)%nat ->
  let T := sumR pol (fun j : nat => own k j) in
  let U := sumR pol (fun j : nat => other k j) in
  0 < T ->
  0 < U ->
  Derive.is_derive (K := Hierarchy.R_AbsRing) (V := Hierarchy.R_NormedModule) (fun v : R => erf (2 * overlap g pol (updated own k s v) other))
    (own k s) (qweight g k * (4 / sqrt PI * exp (-4 * overlap g pol own other ^ 2) * (/ 2 * sqrt (U / T)))).
Proof. exact @F_derive. Qed.
Print Assumptions C54_derivative.
Theorem C54_potential :
  forall (g : grid) (p p' : part) (c : comp) (na nb : mat) (k : nat),
  vp_overlap g p = Ok p' ->
  p_pol p = 1%nat ->
  p_na p = Some na ->
  p_nb p = Some nb ->
  member (p_ens p) c ->
  (k < Nelem g)%nat ->
  let own := own_dens c na nb in
  let other := other_dens c na nb in
  0 < own k 0%nat ->
  0 < other k 0%nat ->
  exists (f f' : frag) (D : mat) (d : R),
    p_f p c = Some f /\
    p_f p' c = Some f' /\
    f_V f' "dFdn" = Some D /\
    Derive.is_derive (K := Hierarchy.R_AbsRing) (V := Hierarchy.R_NormedModule) (fun v : R => erf (2 * overlap g 1 (updated own k 0 v) other))
      (own k 0%nat) d /\ qweight g k * D k 0%nat = f_scale f * d.
Proof. exact @dFdn_derivative. Qed.
Print Assumptions C54_potential.
(** With two spin columns the code's per-column ratio is the derivative only where it equals the ratio of the totals. *)
Theorem C54_polarised_refuted :
  forall (g : grid) (p p' : part) (c : comp) (na nb : mat) (k s : nat),
  vp_overlap g p = Ok p' ->
  p_na p = Some na ->
  p_nb p = Some nb ->
  member (p_ens p) c ->
  (k < Nelem g)%nat ->
  (s < p_pol p)%nat ->
  qweight g k <> 0 ->
  let own := own_dens c na nb in
  let other := other_dens c na nb in
  let T := sumR (p_pol p) (fun j : nat => own k j) in
  let U := sumR (p_pol p) (fun j : nat => other k j) in
  0 < own k s ->
  0 <= other k s ->
  0 < T ->
  0 < U ->
  exists (f f' : frag) (D : mat) (d : R),
    p_f p c = Some f /\
    p_f p' c = Some f' /\
    f_V f' "dFdn" = Some D /\
    Derive.is_derive (K := Hierarchy.R_AbsRing) (V := Hierarchy.R_NormedModule)
      (fun v : R => erf (2 * overlap g (p_pol p) (updated own k s v) other))
      (own k s) d /\ (f_scale f <> 0 -> qweight g k * D k s = f_scale f * d <-> other k s / own k s = U / T).
Proof. exact @dFdn_polarised. Qed.
Print Assumptions C54_polarised_refuted.
Theorem C54_finite :
  forall (c : R) (own other : nat -> nat -> R) (k s : nat),
  0 <= own k s ->
  0 <= other k s -> dSdn c own other k s = (if Req_EM_T (own k s) 0 then 0 else c * / 2 * sqrt (other k s / own k s)).
Proof. exact @dSdn_val. Qed.
Print Assumptions C54_finite.
Lemma C54_witness : (exists p p', vp_overlap g22 p = Ok p' /\ p_pol p = 1%nat /\ p_na p = Some (fun _ _ => 1) /\ p_nb p = Some (fun _ _ => 2) /\ p_ens p = false) /\
  (exists p p', vp_overlap g22 p = Ok p' /\ p_pol p = 2%nat /\ p_na p = Some (fun _ _ => 1) /\ p_nb p = Some (fun _ s => if (s =? 0)%nat then 3 else 1)) /\ qweight g22 0 <> 0 /\ grid_ok g22 /\ (forall k, (k < Nelem g22)%nat -> 0 <= gwi g22 k).
Proof.
  split; [|split; [|split; [|split]]].
  - destruct (w_overlap 1 1 1 (fun _ _ => 1) (fun _ _ => 2) (fun _ _ => 3)) as (p0 & p' & _ & H); [auto|tauto|intros; lra|]. cbv zeta in H. destruct H as (A & B & C & D & E). do 2 eexists. split; [exact E|]. repeat (split; [assumption|]). apply D. reflexivity.
  - destruct (w_overlap 2 1 1 (fun _ _ => 1) (fun _ s => if (s =? 0)%nat then 3 else 1) (fun _ _ => 3)) as (p0 & p' & _ & H); [auto|tauto|intros k s; destruct (s =? 0)%nat; intros; lra|]. cbv zeta in H. destruct H as (A & B & C & D & E). do 2 eexists. split; [exact E|]. auto.
  - assert (X : (0 < Nelem g22)%nat) by (rewrite g22_n; lia). pose proof (g22_full 0%nat X) as Q. unfold InverterSpec.weight in Q. unfold qweight. intros Z. assert (P := iprefac_pos g22 g22_ok). apply Rmult_integral in Z. destruct Z as [Z|Z]; [lra|]. replace (2 * PI * hr g22 * ha g22 * gwi g22 0%nat * gw g22 0%nat) with (2 * PI * hr g22 * ha g22 * (gwi g22 0%nat * gw g22 0%nat)) in Q by ring. rewrite Z in Q. lra.
  - apply g22_ok.
  - intros k Hk. rewrite g22_gwi by exact Hk. lra.
Qed.

(** * C55: the von Weizsaecker kinetic energy *)
Theorem C55_energy_refuted :
  forall (g : grid) (p : part) (F : comp -> frag) (n : comp -> mat) (nf : mat) (p' : part),
  grid_ok g ->
  densities p F n ->
  p_nf p = Some nf ->
  po_kin (p_opt p) = "vonweiz" ->
  ep_kinetic g p = Ok p' ->
  exists a : vec,
    p_T p' "Ep_kin" = Some (AR a) /\
    (forall k : nat,
     a k =
     - vw_energy g (tvec (p_pol p) nf) -
     (if po_ess (p_opt p) then 2 else 1) *
     lsum (if p_ens p then [Ca; CA; Cb; CB] else [Ca; Cb])
       (fun c : comp => vw_wrong g F (fun c0 : comp => tvec (p_pol p) (n c0)) c k)).
Proof. exact @vonweiz_energy. Qed.
Print Assumptions C55_energy_refuted.
Theorem C55_density :
  forall (g : grid) (p : part) (F : comp -> frag) (n : comp -> mat) (nf : mat) (p' : part),
  grid_ok g ->
  densities p F n ->
  p_nf p = Some nf ->
  po_kin (p_opt p) = "vonweiz" ->
  ep_kinetic g p = Ok p' ->
  (forall k : nat, (k < Nelem g)%nat -> 0 < tvec (p_pol p) nf k) ->
  exists t tf : nat -> num,
    p_epk p' = Some (A1 (fun k : nat => nsub (t k) (tf k))) /\
    (forall k : nat, (k < Nelem g)%nat -> exists x : R, t k = Fin x) /\
    integrate1 g (fun k : nat => tvec (p_pol p) nf k * to_R (t k)) = vw_energy g (tvec (p_pol p) nf).
Proof. exact @vonweiz_density. Qed.
Print Assumptions C55_density.
Theorem C55_sign :
  forall (g : grid) (n r : vec), grid_ok g -> np_sqrt1 (Nelem g) n = Ok r -> vw_mol g r = - vw_energy g n.
Proof. exact @vw_mol_spec. Qed.
Print Assumptions C55_sign.
Lemma C55_witness : grid_ok g22 /\ exists p F n nf p', densities p F n /\ p_nf p = Some nf /\ po_kin (p_opt p) = "vonweiz" /\ ep_kinetic g22 p = Ok p' /\ p_ens p = true /\ (forall k, (k < Nelem g22)%nat -> 0 < tvec (p_pol p) nf k).
Proof.
  split; [apply g22_ok|]. destruct (w_vonweiz 2 1 (1/2) (1/4)) as (p0 & o & s & F & n & nf & p' & H & P & D & N & K & E & V); [lra|]. exists (q_p s), F, n, nf, p'. repeat (split; [assumption|]). split; [|exact V].
  pose proof (run_static _ _ _ _ _ _ _ _ _ P) as (_ & _ & _ & _ & _ & _ & R7 & _). rewrite R7. destruct (new_weights _ _ _ _ _ _ _ _ _ H) as (_ & _ & EN & _). destruct (p_ens p0); auto; exfalso; assert (1 / 2 = 1) by (apply EN; reflexivity); lra.
Qed.

(** * C56: the chemical potential of the inversion *)
Theorem C56_ab_sym :
  forall (p : part) (F : comp -> frag) (u : R),
  frags p F ->
  (forall (c : comp) (i j : nat), member (p_ens p) c -> of_a c -> place (f_ks (F c)) i j -> f_homo (F (twin c)) i j = None) ->
  inv_chempot p = Ok u -> -1 / feps <= u /\ (forall h : R, homo_of_a p F h -> h <= u) /\ (u = -1 / feps \/ homo_of_a p F u).
Proof. exact @chempot_ab. Qed.
Print Assumptions C56_ab_sym.
(** Otherwise the last solver of fragment B decides. *)
Theorem C56_last_refuted :
  forall (p : part) (F : comp -> frag) (u h : R),
  frags p F ->
  let c := if p_ens p then CB else Cb in
  let a := if p_ens p then CA else Ca in
  (0 < k_lv (f_ks (F a)))%nat ->
  (0 < k_cols (f_ks (F a)))%nat ->
  f_homo (F c) (k_lv (f_ks (F a)) - 1) (k_cols (f_ks (F a)) - 1) = Some h -> -1 / feps <= h -> inv_chempot p = Ok u -> u = h.
Proof. exact @chempot_last_b. Qed.
Print Assumptions C56_last_refuted.
Theorem C56_kinetic_potential :
  forall (g : grid) (w : penv) (p p' : part),
  vpk_inversion g w p = Ok p' ->
  exists u : R,
    inv_chempot p = Ok u /\
    (forall c : comp,
     member (p_ens p) c ->
     exists (f : frag) (v : mat) (f' : frag),
       p_f p c = Some f /\
       k_veff (f_ks f) = Some v /\ p_f p' c = Some f' /\ f_vt f' = Some (fun k s : nat => Fin (u - v k s))).
Proof. exact @inversion_vt. Qed.
Print Assumptions C56_kinetic_potential.
Lemma C56_witness : (exists p p', p_ens p = false /\ vpk_inversion g22 w_env p = Ok p') /\ (exists p F u, frags p F /\ (forall c i j, member (p_ens p) c -> of_a c -> place (f_ks (F c)) i j -> f_homo (F (twin c)) i j = None) /\ homo_of_a p F (- 1 / 2) /\ inv_chempot p = Ok u) /\
  exists p F u, frags p F /\ p_ens p = false /\ (0 < k_lv (f_ks (F Ca)))%nat /\ (0 < k_cols (f_ks (F Ca)))%nat /\ f_homo (F Cb) (k_lv (f_ks (F Ca)) - 1) (k_cols (f_ks (F Ca)) - 1) = Some 0 /\ homo_of_a p F (0 + 1) /\ -1 / feps <= 0 /\ inv_chempot p = Ok u.
Proof.
  split; [|split].
  - destruct (w_inversion_runs 2 1 1 1) as (p & o & n & l & s & _ & K & _ & _ & IS & _ & _ & VP & _ & EN & _ & P & _); [tauto|]. destruct (pass_component _ _ _ _ _ _ _ _ _ P IS VP) as (p1 & p2 & E & O & N & _). unfold vp_component in E.
    destruct (vp_nuclear p1) as [q|] eqn:E1; [|discriminate]. cbn [bind] in E. pose proof (vp_nuclear_same _ _ E1) as S. assert (KQ : po_kin (p_opt q) = "inversion"%string /\ p_ens q = false) by (destruct S as (-> & _ & _ & _ & _ & _ & -> & _); rewrite O, N; split; [exact K|apply EN; reflexivity]). destruct KQ as (KQ & EQ).
    unfold vp_kinetic in E. rewrite KQ in E. cbn [String.eqb Ascii.eqb Bool.eqb] in E. destruct (vpk_inversion g22 w_env q) as [q'|] eqn:E2; [|discriminate]. eauto.
  - destruct (chem_ab_case (- 1 / 2)) as (p & F & u & A1 & A2 & A3 & A4 & A5 & A6). exists p, F, u. auto.
  - destruct (chem_b_case 0) as (p & F & u & A1 & A2 & A3 & A4 & A5 & A6 & A7 & A8). exists p, F, u. repeat (split; [assumption|]). split; [|exact A8]. assert (0 < feps) by (unfold feps; apply Rinv_0_lt_compat, pow_lt; lra). assert (0 < / feps) by (apply Rinv_0_lt_compat; auto). unfold Rdiv. lra.
Qed.

(** * C57: energy densities of the fragments *)
Theorem C57_exchange :
  forall (g : grid) (p : part) (F : comp -> frag) (q : comp -> mat) (sel : ksv -> option vec) (h : comp -> vec) (a : vec),
  frags p F ->
  has_Q p F q ->
  (forall c : comp, member (p_ens p) c -> sel (k_V (f_ks (F c))) = Some (h c)) ->
  exf_sum g p sel = Ok a ->
  forall k : nat,
  (k < Nelem g)%nat ->
  a k =
  (if po_ab (p_opt p)
   then
    lsum (if p_ens p then [Ca; CA] else [Ca])
      (fun c : comp => qpart (p_pol p) F q h c k + mirror1 g (qpart (p_pol p) F q h c) k)
   else lsum (if p_ens p then [Ca; CA; Cb; CB] else [Ca; Cb]) (fun c : comp => qpart (p_pol p) F q h c k)).
Proof. exact @exf_spec. Qed.
Print Assumptions C57_exchange.
Theorem C57_hartree :
  forall (g : grid) (p : part) (F : comp -> frag) (q : comp -> mat) (h : comp -> vec) (a : vec),
  frags p F ->
  has_Q p F q ->
  (forall c : comp, member (p_ens p) c -> V_eh (k_V (f_ks (F c))) = Some (h c)) ->
  forL (comps_ab p) (ehf_step g p) (fun _ : nat => 0) = Ok a ->
  forall k : nat,
  (k < Nelem g)%nat ->
  a k =
  (if po_ab (p_opt p)
   then
    if p_ens p
    then
     2 * (qpart (p_pol p) F q h Ca k + mirror1 g (qpart (p_pol p) F q h Ca) k) +
     (qpart (p_pol p) F q h CA k + mirror1 g (qpart (p_pol p) F q h CA) k)
    else qpart (p_pol p) F q h Ca k + mirror1 g (qpart (p_pol p) F q h Ca) k
   else lsum (if p_ens p then [Ca; CA; Cb; CB] else [Ca; Cb]) (fun c : comp => qpart (p_pol p) F q h c k)).
Proof. exact @ehf_spec. Qed.
Print Assumptions C57_hartree.
Theorem C57_parts :
  forall (g : grid) (w : env) (p p' : part),
  ep_dft g w p = Ok p' ->
  po_int (p_opt p) = "dft" ->
  exists
    (nf : mat) (vh : arr R) (Ehf : R) (ehf : vec) (x : R * vec) (Exf : R) (exf : vec) (c : R * vec) 
  (Ecf : R) (ecf : vec),
    p_nf p = Some nf /\
    v_hartree g (e_spL w) (e_spU w) (A1 (fun k : nat => sumR (p_pol p) (fun s : nat => nf k s))) = Ok vh /\
    p_E p "Ehf" = Some Ehf /\
    forL (comps_ab p) (ehf_step g p) (fun _ : nat => 0) = Ok ehf /\
    p_x p = Some x /\
    p_E p "Exf" = Some Exf /\
    exf_sum g p V_ex = Ok exf /\
    p_c p = Some c /\
    p_E p "Ecf" = Some Ecf /\
    exf_sum g p V_ec = Ok ecf /\
    p_E p' "Ep_h" = Some (1 / 2 * integrate1 g (fun k : nat => sumR (p_pol p) (fun s : nat => nf k s) * entry vh k 0) - Ehf) /\
    p_E p' "Ep_x" = Some (fst x - Exf) /\
    p_E p' "Ep_c" = Some (fst c - Ecf) /\
    (exists h : mat, p_V p' "ep_h" = Some h /\ (forall k s : nat, h k s = 1 / 2 * entry vh k 0 - ehf k)) /\
    (exists h : mat, p_V p' "ep_x" = Some h /\ (forall k s : nat, h k s = snd x k - exf k)) /\
    (exists h : mat, p_V p' "ep_c" = Some h /\ (forall k s : nat, h k s = snd c k - ecf k)).
Proof. exact @ep_dft_inv. Qed.
Print Assumptions C57_parts.
Theorem C57_kinetic :
  forall (g : grid) (p p' : part),
  ep_kinetic g p = Ok p' ->
  exists (p1 : part) (Tm : sv) (tm : arr num) (Tf : sv) (tf : arr num),
    p_T p' "Ep_kin" = Some (sv_op Rminus Tm (if po_ess (p_opt p) then sv_op Rmult Tf (SC 2) else Tf)) /\
    p_epk p' = Some (arr_map2 nsub tm (if po_ess (p_opt p) then arr_map2 nadd tf tf else tf)) /\
    p_inv p' = p_inv p1 /\
    (po_kin (p_opt p) = "vonweiz" /\ epk_vonweiz g p = Ok (p1, (Tm, tm, Tf, tf)) \/
     (po_kin (p_opt p) = "libxcke" \/ po_kin (p_opt p) = "paramke") /\ epk_libxc p = Ok (p1, (Tm, tm, Tf, tf)) \/
     po_kin (p_opt p) = "inversion" /\ epk_inversion g p = Ok (p1, (Tm, tm, Tf, tf)) \/
     po_kin (p_opt p) = "none" /\ epk_none p = Ok (p1, (Tm, tm, Tf, tf)) \/
     po_kin (p_opt p) = "twoorbital" /\ epk_two g p = Ok (p1, (Tm, tm, Tf, tf))).
Proof. exact @ep_kinetic_inv. Qed.
Print Assumptions C57_kinetic.
Theorem C57_hartree_refuted :
  forall (g : grid) (p : part) (F : comp -> frag) (q : comp -> mat) (h : comp -> vec) (a : vec) (k : nat),
  frags p F ->
  has_Q p F q ->
  (forall c : comp, member (p_ens p) c -> V_eh (k_V (f_ks (F c))) = Some (h c)) ->
  forL (comps_ab p) (ehf_step g p) (fun _ : nat => 0) = Ok a ->
  (k < Nelem g)%nat ->
  po_ab (p_opt p) = true ->
  p_ens p = true ->
  a k = lsum [Ca; CA] (fun c : comp => qpart (p_pol p) F q h c k + mirror1 g (qpart (p_pol p) F q h c) k) <->
  qpart (p_pol p) F q h Ca k + mirror1 g (qpart (p_pol p) F q h Ca) k = 0.
Proof. exact @hartree_twice. Qed.
Print Assumptions C57_hartree_refuted.
Lemma C57_witness : (exists q q' F qf hh hx ah ax, ep_dft g22 ex_env q = Ok q' /\ po_int (p_opt q) = "dft" /\ frags q F /\ has_Q q F qf /\ (forall c, member (p_ens q) c -> V_eh (k_V (f_ks (F c))) = Some (hh c)) /\
    (forall c, member (p_ens q) c -> V_ex (k_V (f_ks (F c))) = Some (hx c)) /\ forL (comps_ab q) (ehf_step g22 q) (fun _ => 0) = Ok ah /\ exf_sum g22 q V_ex = Ok ax) /\
  (exists p F q h a, frags p F /\ has_Q p F q /\ (forall c, member (p_ens p) c -> V_eh (k_V (f_ks (F c))) = Some (h c)) /\ forL (comps_ab p) (ehf_step g22 p) (fun _ => 0) = Ok a /\ po_ab (p_opt p) = true /\ p_ens p = true /\
    forall k, (k < Nelem g22)%nat -> a k = 3 / 2 /\ lsum [Ca; CA] (fun c => qpart (p_pol p) F q h c k + mirror1 g22 (qpart (p_pol p) F q h c) k) = 1).
Proof.
  split; [|apply hartree_wrong]. destruct (w_runs "libxcke" false false 2 1 (1/2) (1/4)) as (p & o & n & l & s & _ & _ & AB & _ & IS & IN & _ & _ & _ & _ & _ & P & _); [auto|discriminate|lra|].
  pose proof (passes_start _ _ _ _ _ _ _ _ _ P) as (O & _). destruct (defaults _ _ O) as (_ & _ & _ & _ & D5 & D6 & _). destruct (pass_ep _ _ _ _ _ _ _ _ _ P IS IN AB D5 D6) as (q & q' & F & qf & hh & hx & ah & ax & A1 & A2 & A3 & A4). exists q, q', F, qf, hh, hx, ah, ax. rewrite A2. tauto.
Qed.

(** * C58: the loop of Partition.scf *)
Theorem C58_trace :
  forall (g : grid) (w : penv) (sched : Z -> comp -> list (nat * nat)) (d : dict) (p : part) (s : pst),
  partition_scf g w sched d p = Ok s ->
  exists (o : psopt) (n : nat) (l : list num), passes g w sched d p o n l s /\ psc_test o s = Ok false.
Proof. exact @pscf_trace. Qed.
Print Assumptions C58_trace.
Theorem C58_bound :
  forall (g : grid) (w : penv) (sched : Z -> comp -> list (nat * nat)) (d : dict) (p : part) (s : pst),
  partition_scf g w sched d p = Ok s ->
  exists (o : psopt) (n : nat) (l : list num),
    psc_options p d = Ok o /\
    passes g w sched d p o n l s /\
    (Z.of_nat n <= Z.max 0 (ps_maxit o))%Z /\
    ((Z.of_nat n < ps_maxit o)%Z -> q_dif s = NaN \/ q_dif s = NInf \/ (exists r : R, q_dif s = Fin r /\ r <= ps_tol o)) /\
    q_warn s = (if (2 <=? ps_maxit o)%Z && (ps_maxit o - 1 <=? Z.of_nat n)%Z then [ps_maxit o] else []) /\
    (ps_auto o = true -> q_dif s = PInf \/ (exists r : R, q_dif s = Fin r /\ ps_tol o < r)).
Proof. exact @pscf_bound. Qed.
Print Assumptions C58_bound.
Theorem C58_stops :
  forall (g : grid) (w : penv) (sched : Z -> comp -> list (nat * nat)) (d : dict) (p : part) (o : psopt) 
    (n : nat) (l : list num) (s : pst),
  passes g w sched d p o n l s -> psc_test o s = Ok false -> partition_scf g w sched d p = Ok s.
Proof. exact @pscf_stops. Qed.
Print Assumptions C58_stops.
Theorem C58_raises :
  forall (g : grid) (w : penv) (sched : Z -> comp -> list (nat * nat)) (d : dict) (p : part) (o : psopt) 
    (n : nat) (l : list num) (s : pst) (e : exn),
  passes g w sched d p o n l s ->
  psc_test o s = Ok true -> psc_body g w o (sched (q_iter s)) s = Err e -> partition_scf g w sched d p = Err e.
Proof. exact @pscf_raises. Qed.
Print Assumptions C58_raises.
Theorem C58_auto_tol :
  forall (g : grid) (w : penv) (sched : Z -> comp -> list (nat * nat)) (d : dict) (p : part) (o : psopt) 
    (n : nat) (l : list num) (s : pst),
  passes g w sched d p o n l s ->
  ps_auto o = true ->
  q_dif s = NaN \/ q_dif s = NInf \/ (exists r : R, q_dif s = Fin r /\ r <= ps_tol o) ->
  partition_scf g w sched d p = Err TypeError.
Proof. exact @pscf_auto. Qed.
Print Assumptions C58_auto_tol.
Theorem C58_residual :
  forall (g : grid) (w : penv) (o : psopt) (sched : comp -> list (nat * nat)) (s s' : pst),
  psc_body g w o sched s = Ok s' ->
  exists (E : R) (nf : mat) (dn : num),
    p_T (q_p s') "E" = Some (SC E) /\
    p_nf (q_p s') = Some nf /\
    q_oldE s' = E /\
    q_oldn s' = nf /\
    dens_residual g (p_pol (q_p s')) nf (q_oldn s) = Ok dn /\ q_dif s' = pymax (nabs (ndiv (E - q_oldE s) E)) dn.
Proof. exact @body_residual. Qed.
Print Assumptions C58_residual.
Theorem C58_count :
  forall (g : grid) (w : penv) (sched : Z -> comp -> list (nat * nat)) (d : dict) (p : part) (o : psopt) 
    (n : nat) (l : list num) (s : pst),
  passes g w sched d p o n l s ->
  q_iter s = (Z.of_nat n + 1)%Z /\
  ((0 < n)%nat -> (Z.of_nat n <= ps_maxit o)%Z) /\
  q_warn s = (if (2 <=? ps_maxit o)%Z && (ps_maxit o <=? q_iter s)%Z then [ps_maxit o] else []).
Proof. exact @passes_count. Qed.
Print Assumptions C58_count.
Lemma C58_witness : (exists p s, partition_scf g22 w_env w_sched [] p = Ok s) /\ (exists p o n l s, passes g22 w_env w_sched [] p o (S n) l s /\ psc_test o s = Ok false).
Proof.
  destruct (w_runs "libxcke" true false 1 1 (1/2) (1/2)) as (p & o & n & l & s & _ & _ & _ & _ & _ & _ & _ & _ & _ & _ & E & P & T & _); auto; [tauto|]. split; [exists p, s; exact E|exists p, o, n, l, s; auto].
Qed.

(** * C59: isolated fragments *)
Theorem C59_independent :
  forall (g : grid) (w : penv) (sched1 sched2 : Z -> comp -> list (nat * nat)) (d : dict) (p1 p2 : part) 
    (o : psopt) (n : nat) (l1 l2 : list num) (s1 s2 : pst) (c : comp) (f1 f2 : frag),
  passes g w sched1 d p1 o n l1 s1 ->
  passes g w sched2 d p2 o n l2 s2 ->
  po_iso (p_opt p1) = true ->
  po_iso (p_opt p2) = true ->
  ps_iter o = false ->
  (forall z : Z, sched1 z c = sched2 z c) ->
  computed p1 c ->
  computed p2 c ->
  p_f p1 c = Some f1 ->
  p_f p2 c = Some f2 ->
  f_ks f1 = f_ks f2 -> exists f1' f2' : frag, p_f (q_p s1) c = Some f1' /\ p_f (q_p s2) c = Some f2' /\ f_ks f1' = f_ks f2'.
Proof. exact @isolated_run. Qed.
Print Assumptions C59_independent.
Theorem C59_no_potential :
  forall (g : grid) (w : penv) (sched : Z -> comp -> list (nat * nat)) (d : dict) (p : part) (o : psopt) 
    (n : nat) (l : list num) (s : pst) (c : comp) (f' : frag),
  passes g w sched d p o (S n) l s ->
  po_iso (p_opt p) = true ->
  computed p c ->
  p_f (q_p s) c = Some f' ->
  f_frozen f' <> Some true -> exists v : mat, k_vext (f_ks f') = Some v /\ (forall x j : nat, v x j = 0).
Proof. exact @isolated_vext. Qed.
Print Assumptions C59_no_potential.
Lemma C59_witness : exists p1 p2 o l1 l2 s1 s2 f1 f2, p_Zb p1 = 1 /\ p_Zb p2 = 5 /\ passes g22 w_env w_sched w_plain p1 o 1 l1 s1 /\ passes g22 w_env w_sched w_plain p2 o 1 l2 s2 /\
  po_iso (p_opt p1) = true /\ po_iso (p_opt p2) = true /\ ps_iter o = false /\ computed p1 Ca /\ computed p2 Ca /\ p_f p1 Ca = Some f1 /\ p_f p2 Ca = Some f2 /\ f_ks f1 = f_ks f2.
Proof. destruct (w_iso_pair 1 1 5) as (p1 & p2 & o & l1 & l2 & s1 & s2 & f1 & f2 & _ & _ & X). exists p1, p2, o, l1, l2, s1, s2, f1, f2. exact X. Qed.

(** * C60: the external potential of the components *)
Theorem C60_pass :
  forall (g : grid) (w : penv) (o : psopt) (sched : comp -> list (nat * nat)) (s s' : pst),
  psc_body g w o sched s = Ok s' ->
  exists vp : mat,
    (po_iso (p_opt (q_p s)) = false -> p_V (q_p s') "vp" = Some vp) /\
    (po_iso (p_opt (q_p s)) = true -> vp = (fun _ _ : nat => 0)) /\
    (forall c : comp,
     computed (q_p s) c ->
     exists (f f' : frag) (n nout : mat) (k1 k2 : ks) (vext vhxc : mat),
       p_f (q_p s) c = Some f /\
       p_f (q_p s') c = Some f' /\
       k_n (f_ks f) = Some n /\
       ks_density g (pe_env w) (ps_iter o) (q_dif s) (sched c) k1 = Ok (k2, nout) /\
       KSThms.frame (f_ks f) k1 /\
       k_veff k1 = Some (add3 (k_vnuc (f_ks f)) vext vhxc) /\
       k_vhxc (f_ks f') = Some vhxc /\
       (exists k : ks,
          calc_hxc_potential g (pe_env w) (f_ks f) = Ok k /\
          (exists v : mat, k_vhxc k = Some v /\ (forall x j : nat, vhxc x j = v x j))) /\
       k_n (f_ks f') = Some (fun x j : nat => (1 - f_alpha f) * n x j + f_alpha f * nout x j) /\
       k_vext (f_ks f') = Some vext /\
       (f_frozen f = Some true -> k_vext (f_ks f) = Some vext) /\
       (f_frozen f <> Some true -> (ps_sdft o = false -> vext = vp) /\ (ps_sdft o = true -> f_V f' "vp" = Some vext))).
Proof. exact @pass_vext. Qed.
Print Assumptions C60_pass.
Lemma C60_witness : exists o s0 s, psc_body g22 w_env o (w_sched (q_iter s0)) s0 = Ok s /\ po_iso (p_opt (q_p s0)) = false /\ ps_sdft o = false /\ p_ens (q_p s0) = true /\ computed (q_p s0) CB.
Proof.
  destruct (w_runs "libxcke" false false 2 1 (1/2) (1/4)) as (p & o & n & l & s & _ & _ & AB & _ & IS & IN & _ & _ & _ & EN & _ & P & _); [auto|discriminate|lra|].
  pose proof (passes_start _ _ _ _ _ _ _ _ _ P) as (O & _). destruct (defaults _ _ O) as (_ & _ & _ & _ & _ & _ & SD & _). inversion P; subst. rename H0 into P0. pose proof (run_static _ _ _ _ _ _ _ _ _ P0) as (R1 & _ & _ & _ & _ & _ & R7 & _).
  assert (E : p_ens p = true) by (destruct (p_ens p); auto; exfalso; assert (1 / 2 = 1) by (apply EN; reflexivity); lra).
  eexists o, _, s. split; [eassumption|]. rewrite R1, R7. repeat (split; [assumption|]). unfold computed. rewrite R1, R7, E, AB. split; [reflexivity|discriminate].
Qed.

(** * C61: the failure counter *)
Theorem C61_history :
  forall (g : grid) (w : penv) (sched : Z -> comp -> list (nat * nat)) (d : dict) (p : part) (o : psopt) 
    (n : nat) (l : list num) (s : pst),
  passes g w sched d p o n l s ->
  (forall (n' : nat) (l' : list num) (s' : pst), passes g w sched d p o n' l' s' -> (0 < n')%nat -> watching (q_p s') = true) ->
  ~ two_failures l /\ q_fail s = last_bad l.
Proof. exact @counter_history. Qed.
Print Assumptions C61_history.
Theorem C61_run :
  forall (g : grid) (w : penv) (sched : Z -> comp -> list (nat * nat)) (d : dict) (p : part) (o : psopt) 
    (n : nat) (l : list num) (s : pst), passes g w sched d p o n l s -> watched p -> ~ two_failures l.
Proof. exact @counter_run. Qed.
Print Assumptions C61_run.
Theorem C61_exit :
  forall (g : grid) (w : penv) (sched : Z -> comp -> list (nat * nat)) (d : dict) (p : part) (o : psopt) 
    (n : nat) (l : list num) (s : pst) (p' : part) (r : R * mat * num),
  passes g w sched d p o n l s ->
  watched p ->
  psc_test o s = Ok true ->
  psc_work g w o (sched (q_iter s)) s = Ok (p', r) ->
  filled p' ->
  (two_failures (l ++ reports p') -> partition_scf g w sched d p = Err SystemExit) /\
  (~ two_failures (l ++ reports p') -> exists s' : pst, passes g w sched d p o (S n) (l ++ reports p') s' /\ q_p s' = p').
Proof. exact @counter_exit. Qed.
Print Assumptions C61_exit.
(** An inversion run that completes, and one whose two solvers report the optimality 2 in the first pass. *)
Lemma C61_witness : (exists p o n l s, passes g22 w_env w_sched [] p o (S n) l s /\ watched p /\ partition_scf g22 w_env w_sched [] p = Ok s) /\
  exists p o s p' r, passes g22 (x_env 2) w_sched [] p o 0 [] s /\ watched p /\ psc_test o s = Ok true /\ psc_work g22 (x_env 2) o (w_sched (q_iter s)) s = Ok (p', r) /\ filled p' /\ reports p' = [Fin 2; Fin 2] /\ two_failures ([] ++ reports p')%list.
Proof.
  split.
  - destruct (w_inversion_runs 2 1 1 1) as (p & o & n & l & s & _ & K & _ & _ & IS & _ & _ & _ & _ & _ & R & P & _); [tauto|]. exists p, o, n, l, s. split; [exact P|]. split; [split; auto|exact R].
  - destruct (w_inversion_pass 2 2 2 1 1 1) as (p & o & s & p' & r & _ & K & IS & P & T & W & F & R); [lia|tauto|]. exists p, o, s, p', r. split; [exact P|]. split; [split; auto|]. repeat (split; [assumption|]). rewrite R.
    exists [], (Fin 2), (Fin 2), []. split; [reflexivity|]. cbn [gtb]. destruct (Rlt_dec 1 2); [auto|lra].
Qed.
