(** Partition: objects as they come from the constructor. *)
From Coq Require Import Reals List Arith Lia Lra ZArith Bool String.
From Verif Require Import Base BaseLemmas GridModel GridSpec GridProofs HartreeModel SolverModel SolverSpec LibxcModel OptionsModel KSModel KSSpec KSProofs KSThms KSLoop KSEnergy KSTotal
  InverterModel PartitionModel PartitionSpec PartitionBase PartitionConstr PartitionDens PartitionFrame PartitionEnergy PartitionTotal PartitionLoop PartitionPass PartitionScf PartitionRun PartitionFinal PartitionModes.
Import ListNotations.
Local Open Scope R_scope.

Lemma frag_vnuc : forall g o Za Zb pol s f, frag_init g o Za Zb pol s = Ok f -> k_vnuc (f_ks f) = ks_vnuc g Za Zb pol (po_sym o).
Proof.
  intros g o Za Zb pol s f H. pose proof (frag_init_inv _ _ _ _ _ _ _ H) as (k & -> & _ & _ & _ & _ & _ & _ & _ & _ & _ & _ & _ & _ & S & _). unfold frag_init in H.
  destruct (ks_init _ _ _ _ _ _ _ _ _ _ _) as [k'|] eqn:E; [|discriminate]. cbn [bind] in H. injection H as H. subst k'. cbn [new_frag f_ks].
  unfold ks_init in E. destruct (configure KohnShamOptions _) as [d|]; [|discriminate]. cbn [bind] in E. destruct (negb _); [discriminate|]. cbv zeta in E. destruct (Pssolver _ _ _ _ _); [|discriminate]. cbn [bind] in E. injection E as <-.
  cbn [k_vnuc k_opt o_sym] in *. rewrite S. reflexivity.
Qed.
Theorem init_new : forall g Za Zb pol spec nua nub opt p, partition_init g Za Zb pol spec nua nub opt = Ok p -> exists F, frags p F /\ belongs p F /\
  (forall c, member (p_ens p) c -> k_E (f_ks (F c)) = None /\ k_n (f_ks (F c)) = None /\ f_Q (F c) = None /\ (forall nm, f_V (F c) nm = None) /\ f_scale (F c) = weight (p_ens p) (po_ess (p_opt p)) nua nub c) /\
  (po_sym (p_opt p) = false -> (pol <= 2)%nat -> at_nuclei p F) /\
  (po_ab (p_opt p) = true -> forall k, (k < Nelem g)%nat -> p_vb p k = mirror1 g (p_va p) k) /\
  (nua = nub -> forall c, member (p_ens p) c -> of_a c -> f_scale (F (twin c)) = f_scale (F c)).
Proof.
  intros g Za Zb pol spec nua nub opt p H. pose proof (init_inv _ _ _ _ _ _ _ _ _ H) as (d & _ & O & AB & P & _ & _ & _ & _ & P0 & VA & VB & _ & _ & C).
  destruct (C Ca Logic.I) as (fd & _ & _). exists (fun c => match p_f p c with Some f => f | None => fd end).
  assert (X : forall c, member (p_ens p) c -> exists k, p_f p c = Some (fscale (new_frag k) (weight (p_ens p) (po_ess (p_opt p)) nua nub c)) /\ k_E k = None /\ k_n k = None /\ k_pol k = pol /\ o_int (k_opt k) = po_int (p_opt p) /\ k_Za k * k_Zb k = 0 /\
    k_vnuc k = ks_vnuc g (match c with Ca | CA => Za | _ => 0 end) (match c with Ca | CA => 0 | _ => Zb end) pol (po_sym (p_opt p))).
  { intros c M. destruct (C c M) as (f & F1 & F2). pose proof (frag_vnuc _ _ _ _ _ _ _ F1) as V. destruct (frag_init_inv _ _ _ _ _ _ _ F1) as (k & -> & A1 & A2 & A3 & A4 & A5 & A6 & A7 & A8 & A9 & A10 & A11 & A12 & _). exists k. cbn [new_frag f_ks] in V.
    repeat (split; [solve [auto]|]). split; auto. rewrite A1, A2. destruct c; ring. }
  assert (W : forall c, member (p_ens p) c -> of_a c -> member (p_ens p) (twin c)) by (intros c M [-> | ->]; exact M).
  split; [|split; [|split; [|split; [|split]]]].
  - intros c M. destruct (X c M) as (k & -> & _). reflexivity.
  - intros c M. destruct (X c M) as (k & -> & K1 & K2 & K3 & K4 & K5 & _). cbn [fscale new_frag f_ks]. rewrite K3, P. auto.
  - intros c M. destruct (X c M) as (k & -> & K1 & K2 & _). cbn [fscale new_frag f_ks f_Q f_V f_scale]. auto.
  - intros S HP c M k s Hs. destruct (X c M) as (kk & -> & _ & _ & _ & _ & _ & K). cbn [fscale new_frag f_ks]. rewrite K, S, VA, VB. rewrite P in Hs. unfold ks_vnuc. cbv zeta.
    assert (Q : pol = 1%nat \/ pol = 2%nat) by lia. destruct Q as [Q|Q]; rewrite Q in *.
    + replace s with 0%nat by lia. destruct c; reflexivity.
    + assert (Q2 : s = 0%nat \/ s = 1%nat) by lia. destruct Q2 as [-> | ->]; destruct c; reflexivity.
  - intros A k Hk. rewrite VA, VB. rewrite coulomb_mirror by auto. rewrite O in A. cbn in A. rewrite (AB A). reflexivity.
  - intros E c M HA. destruct (X c M) as (k & -> & _). destruct (X _ (W c M HA)) as (k' & -> & _). cbn [fscale f_scale]. subst nub. unfold weight. destruct HA as [-> | ->]; reflexivity.
Qed.

Lemma constructed_inv : forall g Za Zb pol spec nua nub opt p, constructed g Za Zb pol spec nua nub opt p -> exists p0 i, partition_init g Za Zb pol spec nua nub opt = Ok p0 /\ p = set_inv p0 i.
Proof. intros g Za Zb pol spec nua nub opt p (p0 & H & [-> | (iv & ->)]); [exists p0, (p_inv p0); split; auto; destruct p0; reflexivity|eauto]. Qed.
Lemma init_constructed : forall g Za Zb pol spec nua nub opt p, partition_init g Za Zb pol spec nua nub opt = Ok p -> constructed g Za Zb pol spec nua nub opt p.
Proof. intros. exists p. auto. Qed.
Lemma constructed_new : forall g Za Zb pol spec nua nub opt p, constructed g Za Zb pol spec nua nub opt p -> exists F, frags p F /\ belongs p F /\
  (forall c, member (p_ens p) c -> k_E (f_ks (F c)) = None /\ k_n (f_ks (F c)) = None /\ f_Q (F c) = None /\ (forall nm, f_V (F c) nm = None) /\ f_scale (F c) = weight (p_ens p) (po_ess (p_opt p)) nua nub c) /\
  (po_sym (p_opt p) = false -> (pol <= 2)%nat -> at_nuclei p F) /\
  (po_ab (p_opt p) = true -> forall k, (k < Nelem g)%nat -> p_vb p k = mirror1 g (p_va p) k) /\
  (nua = nub -> forall c, member (p_ens p) c -> of_a c -> f_scale (F (twin c)) = f_scale (F c)).
Proof. intros g Za Zb pol spec nua nub opt p H. destruct (constructed_inv _ _ _ _ _ _ _ _ _ H) as (p0 & i & H0 & ->). exact (init_new _ _ _ _ _ _ _ _ _ H0). Qed.
Lemma constructed_static : forall g Za Zb pol spec nua nub opt p, constructed g Za Zb pol spec nua nub opt p -> p_pol p = pol /\ p_Za p = Za /\ p_Zb p = Zb /\ p_va p = coulomb g Za 0 /\ p_vb p = coulomb g 0 Zb /\ (p_ens p = false <-> nua = 1) /\ (p_ens p = false <-> nub = 1).
Proof.
  intros g Za Zb pol spec nua nub opt p H. destruct (constructed_inv _ _ _ _ _ _ _ _ _ H) as (p0 & i & H0 & ->). destruct (init_inv _ _ _ _ _ _ _ _ _ H0) as (dd & _ & _ & _ & PP & PA & PB & _ & _ & _ & VA & VB & _ & EN & _).
  cbn [set_inv p_pol p_Za p_Zb p_va p_vb p_ens]. repeat (split; [assumption|]). destruct EN as [(A & B & -> & _)|(A & B & ->)]; split; split; intros; auto; try discriminate; contradiction.
Qed.

(** * Runs of new objects *)
Lemma scf_one_pass : forall g w sched d p s, partition_scf g w sched d p = Ok s -> exists o n l, psc_options p d = Ok o /\ passes g w sched d p o n l s /\ ((1 <= ps_maxit o)%Z -> ps_tol o < 10 -> exists m, n = S m).
Proof.
  intros g w sched d p s H. destruct (pscf_trace _ _ _ _ _ _ H) as (o & n & l & P & T). exists o, n, l. split; [apply (passes_start _ _ _ _ _ _ _ _ _ P)|]. split; auto. intros M E. destruct n as [|m]; [|eauto]. exfalso.
  apply passes_0 in P. destruct P as (p0 & nf & _ & _ & _ & _ & ->). unfold psc_test in T. cbn [q_dif q_iter gtb] in T. destruct (Rlt_dec (ps_tol o) 10); [|lra]. injection T as T. apply Z.leb_gt in T. lia.
Qed.
(** an overlap functional never gets through the first pass *)
Theorem new_overlap_never : forall g Za Zb pol spec nua nub opt p w sched d o n l s, constructed g Za Zb pol spec nua nub opt p -> po_iso (p_opt p) = false ->
  po_hxc (p_opt p) = "overlap_xc"%string \/ po_hxc (p_opt p) = "overlap_hxc"%string -> ~ passes g w sched d p o (S n) l s.
Proof.
  intros g Za Zb pol spec nua nub opt p w sched d o n l s H I Q P. destruct (constructed_new _ _ _ _ _ _ _ _ _ H) as (F & F1 & _ & F3 & _). eapply overlap_first_pass; [exact P|auto|auto|apply (F1 Ca Logic.I)|]. apply (F3 Ca Logic.I).
Qed.
Theorem new_two_never : forall g Za Zb pol spec nua nub opt p w sched d o n l s, constructed g Za Zb pol spec nua nub opt p -> po_iso (p_opt p) = false ->
  po_kin (p_opt p) = "twoorbital"%string -> p_ens p = true -> ~ passes g w sched d p o (S n) l s.
Proof.
  intros g Za Zb pol spec nua nub opt p w sched d o n l s H I Q E P. destruct (constructed_new _ _ _ _ _ _ _ _ _ H) as (F & F1 & _ & F3 & _).
  destruct (two_first_pass _ _ _ _ _ _ _ _ _ (F Ca) (F CA) P I Q E (F1 Ca Logic.I) (F1 CA E)) as [X|X]; apply X; [apply (F3 Ca Logic.I)|apply (F3 CA E)].
Qed.
(** with the default kinetic_part_type (and the other settings of [dead]) scf raises, unless no pass is made at all *)
Theorem dead_scf : forall g w sched d p s, dead p -> partition_scf g w sched d p = Ok s -> exists o, psc_options p d = Ok o /\ ((ps_maxit o < 1)%Z \/ 10 <= ps_tol o).
Proof.
  intros g w sched d p s D H. destruct (scf_one_pass _ _ _ _ _ _ H) as (o & n & l & O & P & X). exists o. split; auto. destruct (Z_lt_dec (ps_maxit o) 1) as [|M]; [auto|]. destruct (Rle_dec 10 (ps_tol o)) as [|E]; [auto|].
  destruct X as (m & ->); [lia|lra|]. exfalso. eapply run_not_dead; eauto.
Qed.
Theorem new_scf : forall g Za Zb pol spec nua nub opt p w sched d s, constructed g Za Zb pol spec nua nub opt p -> po_iso (p_opt p) = false ->
  (po_hxc (p_opt p) = "overlap_xc"%string \/ po_hxc (p_opt p) = "overlap_hxc"%string) \/ (po_kin (p_opt p) = "twoorbital"%string /\ p_ens p = true) ->
  partition_scf g w sched d p = Ok s -> exists o, psc_options p d = Ok o /\ ((ps_maxit o < 1)%Z \/ 10 <= ps_tol o).
Proof.
  intros g Za Zb pol spec nua nub opt p w sched d s HI I Q H. destruct (scf_one_pass _ _ _ _ _ _ H) as (o & n & l & O & P & X). exists o. split; auto. destruct (Z_lt_dec (ps_maxit o) 1) as [|M]; [auto|]. destruct (Rle_dec 10 (ps_tol o)) as [|E]; [auto|].
  destruct X as (m & ->); [lia|lra|]. exfalso. destruct Q as [Q|[Q1 Q2]]; [eapply new_overlap_never; eauto|eapply new_two_never; eauto].
Qed.
(** the default settings *)
Lemma default_dead : forall g Za Zb pol spec nua nub p, constructed g Za Zb pol spec nua nub [] p -> dead p.
Proof.
  intros g Za Zb pol spec nua nub p H. destruct (constructed_inv _ _ _ _ _ _ _ _ _ H) as (p0 & i & H0 & ->). destruct (init_inv _ _ _ _ _ _ _ _ _ H0) as (d & C & O & _). vm_compute in C. injection C as <-. unfold dead. cbn [set_inv p_opt p_ens p_pol]. rewrite O. split; [reflexivity|]. do 4 right. left. simpl. auto.
Qed.

Lemma run_Et : forall g w sched d p o n l s, passes g w sched d p o (S n) l s -> exists Et, p_T (q_p s) "Et"%string = Some (SC Et) /\ p_T (q_p s) "E"%string = Some (SC (Et + p_Za p * p_Zb p / (2 * ga g))).
Proof.
  intros g w sched d p o n l s H. destruct (pass_ready _ _ _ _ _ _ _ _ _ H) as (p5 & F & e & E1 & E2 & E3 & _). destruct (run_static _ _ _ _ _ _ _ _ _ H) as (R1 & R2 & R3 & R4 & _).
  pose proof (energy_parts _ _ _ _ _ _ E3 E1) as EP. cbv zeta in EP. destruct EP as (_ & _ & _ & _ & _ & _ & _ & _ & _ & _ & _ & _ & Ep & _ & P14 & P15).
  apply passes_S in H. destruct H as (l0 & s0 & _ & _ & B & _). destruct (body_residual _ _ _ _ _ _ B) as (E & nf & dn & B1 & _).
  rewrite B1 in P15. injection P15 as P15. destruct Ep as [Ep|v]; [|discriminate P15]. cbn [sv_op] in P15, P14. injection P15 as P15. eexists. split; [exact P14|]. rewrite B1. do 2 f_equal.
  assert (ZA : p_Za p5 = p_Za p) by (destruct E2 as (_ & _ & <- & _); auto). assert (ZB : p_Zb p5 = p_Zb p) by (destruct E2 as (_ & _ & _ & <- & _); auto). rewrite ZA, ZB in P15. exact P15.
Qed.
(** the molecular functional for constructed objects *)
Theorem new_reassembles : forall g Za Zb pol spec nua nub opt p w sched d o n l s0 s, constructed g Za Zb pol spec nua nub opt p ->
  passes g w sched d p o n l s0 -> psc_test o s0 = Ok true -> psc_body g w o (sched (q_iter s0)) s0 = Ok s -> ps_target o = false ->
  po_int (p_opt p) = "dft"%string -> po_hxc (p_opt p) = "exact"%string -> po_kin (p_opt p) = "inversion"%string -> po_iso (p_opt p) = false -> po_sym (p_opt p) = false -> (pol <= 2)%nat ->
  (po_ab (p_opt p) = false /\ nua = 1) \/ (po_ab (p_opt p) = true /\ nua = nub /\ mirror_invariant g) ->
  exists iv T vh nf nf0 x c, p_inv (q_p s) = Some iv /\ get_Ts g iv = Ok (Fin T) /\ p_nf (q_p s) = Some nf /\ p_nf (q_p s0) = Some nf0 /\
    v_hartree g (e_spL (pe_env w)) (e_spU (pe_env w)) (A1 (fun k => sumR pol (fun s => nf k s))) = Ok vh /\
    get_xc g (e_lib (pe_env w)) (po_fam (p_opt p)) (po_xid (p_opt p)) pol nf0 = Ok x /\ get_xc g (e_lib (pe_env w)) (po_fam (p_opt p)) (po_cid (p_opt p)) pol nf0 = Ok c /\
    p_T (q_p s) "E"%string = Some (SC (T + integrate1 g (fun k => sumR pol (fun s => nf k s) * coulomb g Za Zb k) + 1 / 2 * integrate1 g (fun k => sumR pol (fun s => nf k s) * entry vh k 0) + fst (fst x) + fst (fst c) + Za * Zb / (2 * ga g))).
Proof.
  intros g Za Zb pol spec nua nub opt p w sched d o n l s0 s H P T B HT Hi Hh Hk Hs Sy HP D. destruct (constructed_new _ _ _ _ _ _ _ _ _ H) as (F & F1 & F2 & _ & F4 & F5 & F6).
  destruct (constructed_static _ _ _ _ _ _ _ _ _ H) as (PP & PA & PB & VA & VB & EN & _).
  destruct (run_reassembles _ _ _ _ _ _ _ _ _ _ F P T B HT F1 (F4 Sy HP) F2 Hi Hh Hk Hs) as (iv & T0 & vh & nf & nf0 & x & c & R1 & R2 & R3 & R4 & R5 & R6 & R7 & R8).
  { destruct D as [[D1 D2]|[D1 [D2 D3]]]; [left; split; auto; apply EN; auto|right; auto 10]. }
  exists iv, T0, vh, nf, nf0, x, c. rewrite PP in *. repeat (split; [solve [auto]|]).
  pose proof (pass_step _ _ _ _ _ _ _ _ _ _ P T B) as P1. destruct (run_Et _ _ _ _ _ _ _ _ _ P1) as (Et & E1 & E2).
  rewrite R8 in E1. injection E1 as <-. rewrite E2, PA, PB.
  assert (X : nuclear_total g p nf = integrate1 g (fun k => sumR pol (fun s => nf k s) * coulomb g Za Zb k)). { unfold nuclear_total. rewrite PP, VA, VB. apply integrate1_ext. intros k _. f_equal. unfold coulomb. unfold Rdiv. ring. }
  rewrite X. reflexivity.
Qed.
