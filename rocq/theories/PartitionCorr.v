(** Partition: the correlated Hartree energy of ensembles and the energies and potentials that interpolate with the overlap. *)
From Coq Require Import Reals List Arith Lia Lra ZArith Bool String.
From Coquelicot Require Import Coquelicot.
From Verif Require Import Base BaseLemmas GridModel GridSpec GridProofs HartreeModel SolverModel SolverSpec LibxcModel OptionsModel KSModel KSSpec KSProofs KSLoop
  InverterModel PartitionModel PartitionSpec PartitionBase PartitionFrame PartitionEnergy PartitionEp PartitionKin PartitionTotal PartitionOverlap PartitionModes.
Import ListNotations.
Local Open Scope R_scope.

(** Half the repulsion of the density n in the potential v. *)
Definition half_repulsion (g : grid) (pol : nat) (n v : mat) : R := integrate1 g (fun k => sumR pol (fun s => n k s * v k s)) / 2.

(** The ensemble of the two pairs with complementary numbers of electrons. *)
Definition corr_energy (g : grid) (pol : nat) (scale : comp -> R) (N V : comp -> mat) : R :=
  scale Ca * half_repulsion g pol (N Ca) (V CB) + scale CA * half_repulsion g pol (N CA) (V Cb) + scale Cb * half_repulsion g pol (N Cb) (V CA) + scale CB * half_repulsion g pol (N CB) (V Ca).

(** * EnsCorHar *)
Lemma four_frags : forall (h : comp -> part -> frag -> res frag) p p', (forall c q f f', h c q f = Ok f' -> f_ks f' = f_ks f) ->
  forL [Ca; CA; Cb; CB] (fun c p => do f <- get_f p c; do f' <- h c p f; Ok (set_frag p c f')) p = Ok p' ->
  exists F F', (forall c, p_f p c = Some (F c) /\ p_f p' c = Some (F' c)) /\ p_pol p' = p_pol p /\ p_E p' = p_E p /\
    forall c, exists q, h c q (F c) = Ok (F' c) /\ p_pol q = p_pol p /\ forall d, exists e, p_f q d = Some e /\ f_ks e = f_ks (F d).
Proof.
  intros h p p' K H. cbn [forL] in H.
  destruct (get_f p Ca) as [fa|] eqn:A1; [|discriminate]. cbn [bind] in H. destruct (h Ca p fa) as [fa'|] eqn:A2; [|discriminate]. cbn [bind] in H.
  set (pa := set_frag p Ca fa') in *. destruct (get_f pa CA) as [fA|] eqn:B1; [|discriminate]. cbn [bind] in H. destruct (h CA pa fA) as [fA'|] eqn:B2; [|discriminate]. cbn [bind] in H.
  set (pA := set_frag pa CA fA') in *. destruct (get_f pA Cb) as [fb|] eqn:C1; [|discriminate]. cbn [bind] in H. destruct (h Cb pA fb) as [fb'|] eqn:C2; [|discriminate]. cbn [bind] in H.
  set (pb := set_frag pA Cb fb') in *. destruct (get_f pb CB) as [fB|] eqn:D1; [|discriminate]. cbn [bind] in H. destruct (h CB pb fB) as [fB'|] eqn:D2; [|discriminate]. cbn [bind] in H.
  injection H as <-. apply get_f_some in A1. apply get_f_some in B1. apply get_f_some in C1. apply get_f_some in D1.
  assert (B1' : p_f p CA = Some fA) by exact B1. assert (C1' : p_f p Cb = Some fb) by exact C1. assert (D1' : p_f p CB = Some fB) by exact D1.
  pose proof (K _ _ _ _ A2) as KA. pose proof (K _ _ _ _ B2) as KB. pose proof (K _ _ _ _ C2) as KC.
  exists (fun c => match c with Ca => fa | CA => fA | Cb => fb | CB => fB end), (fun c => match c with Ca => fa' | CA => fA' | Cb => fb' | CB => fB' end).
  split; [intros []; split; auto|]. split; [reflexivity|]. split; [reflexivity|].
  intros []; [exists p|exists pa|exists pA|exists pb]; (split; [assumption|]); (split; [reflexivity|]); intros []; eexists; (split; [first [exact A1|exact B1'|exact C1'|exact D1'|reflexivity]|]); auto.
Qed.

(** The four energies, the four potentials and the total: every component is paired with the component of the other fragment
    with the complementary number of electrons. *)
Theorem enscorhar_spec : forall g p p', EnsCorHar g p = Ok p' -> p_ens p = true /\
  exists (F F' : comp -> frag) (N V : comp -> mat), frags p F /\ frags p' F' /\
    (forall c, k_n (f_ks (F c)) = Some (N c) /\ V_vh (k_V (f_ks (F c))) = Some (V c) /\ fsame (F c) (F' c) /\ forall nm, nm <> "vhcor"%string -> f_V (F' c) nm = f_V (F c) nm) /\
    f_E (F' Ca) "Ehcor"%string = Some (half_repulsion g (p_pol p) (N Ca) (V CB)) /\ f_E (F' CA) "Ehcor"%string = Some (half_repulsion g (p_pol p) (N CA) (V Cb)) /\
    f_E (F' Cb) "Ehcor"%string = Some (half_repulsion g (p_pol p) (N Cb) (V CA)) /\ f_E (F' CB) "Ehcor"%string = Some (half_repulsion g (p_pol p) (N CB) (V Ca)) /\
    f_V (F' Ca) "vhcor"%string = Some (V CB) /\ f_V (F' CA) "vhcor"%string = Some (V Cb) /\ f_V (F' Cb) "vhcor"%string = Some (V CA) /\ f_V (F' CB) "vhcor"%string = Some (V Ca) /\
    p_E p' "Ehcor"%string = Some (corr_energy g (p_pol p) (fun c => f_scale (F c)) N V).
Proof.
  intros g p p' H. pose proof (EnsCorHar_same _ _ _ H) as PS. unfold EnsCorHar in H. destruct (p_ens p) eqn:EN; [|discriminate]. cbn [negb] in H. split; [reflexivity|].
  match type of H with bind ?m _ = _ => destruct m as [p1|] eqn:E1; [|discriminate] end. cbn [bind] in H.
  match type of H with bind ?m _ = _ => destruct m as [p2|] eqn:E2; [|discriminate] end. cbn [bind] in H.
  match type of H with bind ?m _ = _ => destruct m as [e|] eqn:E3; [|discriminate] end. cbn [bind] in H. injection H as <-.
  set (h1 := fun c p f => do h <- get_f p (cross c); do v <- have (V_vh (k_V (f_ks h))); do n <- need (k_n (f_ks f)); Ok (fE f (aset (f_E f) "Ehcor" (pair_integral g (p_pol p) n v / 2)))).
  set (h2 := fun c p f => do h <- get_f p (cross c); do v <- have (V_vh (k_V (f_ks h))); Ok (fV f "vhcor" v)).
  assert (E1' : forL [Ca; CA; Cb; CB] (fun c p => do f <- get_f p c; do f' <- h1 c p f; Ok (set_frag p c f')) p = Ok p1).
  { rewrite <- E1. apply forL_ext. intros c q _. destruct (get_f q c); [|reflexivity]. cbn [bind]. unfold h1. destruct (get_f q (cross c)); [|reflexivity]. cbn [bind]. destruct (have _); [|reflexivity]. cbn [bind]. destruct (need _); reflexivity. }
  assert (E2' : forL [Ca; CA; Cb; CB] (fun c p => do f <- get_f p c; do f' <- h2 c p f; Ok (set_frag p c f')) p1 = Ok p2).
  { rewrite <- E2. apply forL_ext. intros c q _. destruct (get_f q c); [|reflexivity]. cbn [bind]. unfold h2. destruct (get_f q (cross c)); [|reflexivity]. cbn [bind]. destruct (have _); reflexivity. }
  clear E1 E2. rename E1' into E1. rename E2' into E2.
  destruct (four_frags h1 _ _ ltac:(intros c q f f' E; unfold h1 in E; dm E; injection E as <-; reflexivity) E1) as (F & F1 & L1 & P1 & X1 & H1).
  destruct (four_frags h2 _ _ ltac:(intros c q f f' E; unfold h2 in E; dm E; injection E as <-; reflexivity) E2) as (G & F2 & L2 & P2 & X2 & H2).
  assert (GF : forall c, G c = F1 c) by (intros c; destruct (L1 c) as (_ & Y); destruct (L2 c) as (Z & _); congruence).
  assert (VN : forall c, exists n v, k_n (f_ks (F c)) = Some n /\ V_vh (k_V (f_ks (F (cross c)))) = Some v /\ F1 c = fE (F c) (aset (f_E (F c)) "Ehcor" (half_repulsion g (p_pol p) n v))).
  { intros c. destruct (H1 c) as (q & E & Q & D). unfold h1 in E. destruct (D (cross c)) as (e1 & D1 & D2). unfold get_f in E. rewrite D1 in E. cbn [have bind] in E. rewrite D2 in E.
    destruct (V_vh (k_V (f_ks (F (cross c))))) as [v|]; [|discriminate]. cbn [have bind] in E. destruct (k_n (f_ks (F c))) as [n|]; [|discriminate]. cbn [need bind] in E. injection E as E. exists n, v. split; auto. split; auto. rewrite <- E, Q. reflexivity. }
  assert (V2 : forall c, exists v, V_vh (k_V (f_ks (F (cross c)))) = Some v /\ F2 c = fV (F1 c) "vhcor" v).
  { intros c. destruct (H2 c) as (q & E & Q & D). unfold h2 in E. destruct (D (cross c)) as (e1 & D1 & D2). unfold get_f in E. rewrite D1 in E. cbn [have bind] in E. rewrite D2, !GF in E.
    destruct (VN (cross c)) as (n' & v' & _ & _ & Y). rewrite Y in E at 1. cbn [fE f_ks] in E. destruct (V_vh (k_V (f_ks (F (cross c))))) as [v|]; [|discriminate]. cbn [have bind] in E. injection E as E. exists v. split; auto. }
  destruct (VN Ca) as (na & vB & A1 & A2 & A3). destruct (VN CA) as (nA & vb & B1 & B2 & B3). destruct (VN Cb) as (nb & vA & C1 & C2 & C3). destruct (VN CB) as (nB & va & D1 & D2 & D3). cbn [cross] in A2, B2, C2, D2.
  exists F, F2, (fun c => match c with Ca => na | CA => nA | Cb => nb | CB => nB end), (fun c => match c with Ca => va | CA => vA | Cb => vb | CB => vB end).
  split; [intros c _; apply L1|]. split; [intros c _; cbn [set_E p_f]; apply L2|].
  assert (S2 : forall c, fsame (F c) (F2 c)). { intros c. destruct (VN c) as (n & v & _ & _ & Y). destruct (V2 c) as (v2 & _ & ->). rewrite Y. repeat split. }
  assert (S3 : forall c nm, nm <> "vhcor"%string -> f_V (F2 c) nm = f_V (F c) nm). { intros c nm Hn. destruct (VN c) as (n & v & _ & _ & Y). destruct (V2 c) as (v2 & _ & ->). rewrite Y. cbn [fV fE f_V]. apply aset_other. exact Hn. }
  split; [intros []; (split; [assumption|]); (split; [assumption|]); (split; [apply S2|apply S3])|].
  destruct (V2 Ca) as (wa & Wa & Ya). destruct (V2 CA) as (wA & WA & YA). destruct (V2 Cb) as (wb & Wb & Yb). destruct (V2 CB) as (wB & WB & YB). cbn [cross] in Wa, WA, Wb, WB.
  rewrite D2 in WB. rewrite C2 in Wb. rewrite B2 in WA. rewrite A2 in Wa. injection Wa as <-. injection WA as <-. injection Wb as <-. injection WB as <-.
  assert (EE : forall c n v, F1 c = fE (F c) (aset (f_E (F c)) "Ehcor" (half_repulsion g (p_pol p) n v)) -> forall w, f_E (fV (F1 c) "vhcor" w) "Ehcor"%string = Some (half_repulsion g (p_pol p) n v) /\ f_V (fV (F1 c) "vhcor" w) "vhcor"%string = Some w).
  { intros c n v Y w. rewrite Y. cbn [fV fE f_E f_V]. rewrite !aset_same. auto. }
  rewrite Ya, YA, Yb, YB. destruct (EE _ _ _ A3 vB) as (a1 & a2). destruct (EE _ _ _ B3 vb) as (b1 & b2). destruct (EE _ _ _ C3 vA) as (c1 & c2). destruct (EE _ _ _ D3 va) as (d1 & d2).
  repeat (split; [assumption|]). cbn [set_E p_E]. rewrite aset_same. f_equal.
  cbn [forL] in E3. unfold get_f in E3. rewrite (proj2 (L2 Ca)), (proj2 (L2 CA)), (proj2 (L2 Cb)), (proj2 (L2 CB)) in E3. cbn [have bind] in E3. unfold attr in E3. rewrite Ya, YA, Yb, YB, a1, b1, c1, d1 in E3. cbn [have bind] in E3. injection E3 as <-.
  rewrite A3, B3, C3, D3. unfold corr_energy. cbn [fV fE f_scale]. ring.
Qed.
Theorem enscorhar_needs_ensemble : forall g p, p_ens p = false -> EnsCorHar g p = Err AttributeError.
Proof. intros g p H. unfold EnsCorHar. rewrite H. reflexivity. Qed.

(** * The energies *)
Definition E_is (p : part) (nm : string) (x : R) : Prop := p_E p nm = Some x.
(** x is the correlated Hartree energy of the densities and potentials that the components of p hold; y is the F of its densities
    and the dFdn of the components belong to it. *)
Definition corr_state (g : grid) (p : part) (x : R) : Prop := exists (F : comp -> frag) (N V : comp -> mat), frags p F /\ (forall c, k_n (f_ks (F c)) = Some (N c) /\ V_vh (k_V (f_ks (F c))) = Some (V c)) /\
  f_V (F Ca) "vhcor"%string = Some (V CB) /\ f_V (F CA) "vhcor"%string = Some (V Cb) /\ f_V (F Cb) "vhcor"%string = Some (V CA) /\ f_V (F CB) "vhcor"%string = Some (V Ca) /\ x = corr_energy g (p_pol p) (fun c => f_scale (F c)) N V.
Definition overlap_state (g : grid) (p : part) (y : R) : Prop := exists na nb, p_na p = Some na /\ p_nb p = Some nb /\ y = erf (2 * overlap g (p_pol p) na nb) /\
  forall c, member (p_ens p) c -> exists f, p_f p c = Some f /\ f_V f "dFdn"%string = Some (fun k s => 4 / sqrt PI * exp (- 4 * overlap g (p_pol p) na nb ^ 2) * dSdn (f_scale f) (own_dens c na nb) (other_dens c na nb) k s).
(** Both are kept by steps that add attributes other than dFdn and vhcor. *)
Definition kept (p p' : part) : Prop := psame p p' /\ forall c f, p_f p c = Some f -> exists f', p_f p' c = Some f' /\ forall nm, nm = "dFdn"%string \/ nm = "vhcor"%string -> f_V f' nm = f_V f nm.
Lemma overlap_kept : forall g p p' y, psame p p' -> (forall c f, member (p_ens p) c -> p_f p c = Some f -> exists f', p_f p' c = Some f' /\ f_V f' "dFdn"%string = f_V f "dFdn"%string) -> overlap_state g p y -> overlap_state g p' y.
Proof.
  intros g p p' y S K (na & nb & A & B & C & D). pose proof S as (_ & P & _ & _ & _ & _ & E & _ & _ & NA & NB & _ & _ & SS). exists na, nb. rewrite NA, NB, P. do 3 (split; [assumption|]). intros c Hc. rewrite E in Hc. destruct (D c Hc) as (f & F & V). destruct (K c f Hc F) as (f' & F' & V'). exists f'. split; auto. rewrite V', V.
  pose proof (SS c) as X. rewrite F, F' in X. destruct X as (_ & -> & _). reflexivity.
Qed.
Lemma corr_kept : forall g p p' y, p_ens p = true -> kept p p' -> corr_state g p y -> corr_state g p' y.
Proof.
  intros g p p' y EN (S & K) (F & N & V & A & B & V1 & V2 & V3 & V4 & C). pose proof S as (_ & P & _ & _ & _ & _ & E & _ & _ & _ & _ & _ & _ & SS).
  assert (M : forall c, member (p_ens p) c) by (intros c; rewrite EN; destruct c; cbn; auto).
  assert (X : exists F', forall c, p_f p' c = Some (F' c)). { exists (fun c => match p_f p' c with Some f => f | None => F c end). intros c. destruct (K c (F c) (A c (M c))) as (f' & F' & _). rewrite F'. reflexivity. }
  destruct X as (F' & X). exists F', N, V.
  assert (Y : forall c, fsame (F c) (F' c) /\ f_V (F' c) "vhcor"%string = f_V (F c) "vhcor"%string). { intros c. split; [pose proof (SS c) as Y; rewrite (A c (M c)), X in Y; exact Y|]. destruct (K c (F c) (A c (M c))) as (f' & Q & V'). rewrite X in Q. injection Q as <-. apply V'. auto. }
  split; [intros c _; apply X|]. split; [intros c; destruct (Y c) as ((-> & _) & _); apply B|]. rewrite !(fun c => proj2 (Y c)). do 4 (split; [assumption|]). rewrite C, P. unfold corr_energy. rewrite !(fun c => proj1 (proj2 (proj1 (Y c)))). reflexivity.
Qed.
Lemma overlap_after : forall g p p', vp_overlap g p = Ok p' -> exists F, E_is p' "F" F /\ overlap_state g p' F.
Proof.
  intros g p p' H. pose proof (vp_overlap_same _ _ _ H) as (_ & P & _ & _ & _ & _ & E & _ & _ & NA & NB & _ & _ & SS). destruct (overlap_spec _ _ _ H) as (na & nb & A & B & _ & _ & C & D). eexists. split; [exact C|]. exists na, nb. rewrite NA, NB, P. do 2 (split; [assumption|]). split; [reflexivity|].
  intros c Hc. rewrite E in Hc. destruct (D c Hc) as (f & f' & F1 & F2 & _ & V). exists f'. split; auto. cbv zeta in V. rewrite V. pose proof (SS c) as X. rewrite F1, F2 in X. destruct X as (_ & -> & _). reflexivity.
Qed.
Lemma corr_after : forall g p p', EnsCorHar g p = Ok p' -> exists Eh, E_is p' "Ehcor" Eh /\ corr_state g p' Eh.
Proof.
  intros g p p' H. pose proof (EnsCorHar_same _ _ _ H) as (_ & P & _). destruct (enscorhar_spec _ _ _ H) as (_ & F & F' & N & V & A & B & C & _ & _ & _ & _ & V1 & V2 & V3 & V4 & D). eexists. split; [exact D|]. exists F', N, V. split; [exact B|].
  split; [intros c; destruct (C c) as (C1 & C2 & (C3 & _) & _); rewrite C3; auto|]. do 4 (split; [assumption|]). rewrite P. unfold corr_energy. rewrite !(fun c => proj1 (proj2 (proj1 (proj2 (proj2 (C c)))))). reflexivity.
Qed.
Lemma corr_overlap : forall g p p' y, EnsCorHar g p = Ok p' -> overlap_state g p y -> overlap_state g p' y.
Proof.
  intros g p p' y H O. eapply overlap_kept; [eapply EnsCorHar_same; eauto| |exact O]. destruct (enscorhar_spec _ _ _ H) as (EN & F & F' & N & V & A & B & C & _). intros c f Hc Hf. rewrite (A c Hc) in Hf. injection Hf as <-. exists (F' c). split.
  - apply B. pose proof (EnsCorHar_same _ _ _ H) as (_ & _ & _ & _ & _ & _ & E & _). rewrite E. exact Hc.
  - apply C. discriminate.
Qed.
Lemma set_E_kept : forall p k x, kept p (set_E p k x). Proof. intros. split; [apply psame_E|]. intros c f F. exists f. auto. Qed.
(** Interpolation between Hartree and the full energy (overlap_xc), between the correlated Hartree energy and the full energy
    (overlap_hxc, overlap_hxc_2); no interpolation otherwise. *)
Theorem ep_hxc_modes : forall g w p p', ep_hxc g w p = Ok p' -> exists h x c, E_is p' "Ep_h" h /\ E_is p' "Ep_x" x /\ E_is p' "Ep_c" c /\
  (po_hxc (p_opt p) = "exact"%string -> E_is p' "Ep_hxc" (h + x + c)) /\
  (po_hxc (p_opt p) = "hartree"%string -> E_is p' "Ep_hxc" h) /\
  (po_hxc (p_opt p) = "overlap_xc"%string -> exists F, E_is p' "F" F /\ overlap_state g p' F /\ E_is p' "Ep_hxc" ((1 - F) * h + F * (h + x + c))) /\
  (po_hxc (p_opt p) = "overlap_hxc"%string \/ po_hxc (p_opt p) = "overlap_hxc_2"%string ->
     p_ens p = true /\ exists F Eh, E_is p' "F" F /\ E_is p' "Ehcor" Eh /\ overlap_state g p' F /\ corr_state g p' Eh /\ E_is p' "Ep_hxc" ((1 - F) * Eh + F * (h + x + c))).
Proof.
  intros g w p p' H. unfold ep_hxc in H. destruct (ep_dft g w p) as [p1|] eqn:E1; [|discriminate]. cbn [bind] in H. cbv zeta in H. pose proof (ep_dft_same _ _ _ _ E1) as S1.
  unfold E_is. destruct (String.eqb_spec (po_hxc (p_opt p)) "exact") as [M|M].
  { destruct (attr (p_E p1) "Ep_h") as [h|] eqn:A; [|discriminate]. cbn [bind] in H. destruct (attr (p_E p1) "Ep_x") as [x|] eqn:B; [|discriminate]. cbn [bind] in H. destruct (attr (p_E p1) "Ep_c") as [c|] eqn:C; [|discriminate]. cbn [bind] in H. injection H as <-.
    apply have_some in A. apply have_some in B. apply have_some in C. exists h, x, c. cbn [set_E p_E]. rewrite !aset_other by discriminate. rewrite M. repeat (split; [assumption|]). split; [intros _; apply aset_same|]. repeat split; intros; try discriminate. all: destruct H; discriminate. }
  destruct (String.eqb_spec (po_hxc (p_opt p)) "hartree") as [M1|M1].
  { destruct (attr (p_E p1) "Ep_h") as [h|] eqn:A; [|discriminate]. cbn [bind] in H. destruct (attr (p_E p1) "Ep_x") as [x|] eqn:B; [|discriminate]. cbn [bind] in H. destruct (attr (p_E p1) "Ep_c") as [c|] eqn:C; [|discriminate]. cbn [bind] in H. injection H as <-.
    apply have_some in A. apply have_some in B. apply have_some in C. exists h, x, c. cbn [set_E p_E]. rewrite !aset_other by discriminate. rewrite M1. repeat (split; [assumption|]). split; [discriminate|]. split; [intros _; apply aset_same|]. repeat split; intros; try discriminate. all: destruct H; discriminate. }
  destruct (String.eqb_spec (po_hxc (p_opt p)) "overlap_xc") as [M2|M2].
  { destruct (vp_overlap g p1) as [p2|] eqn:E2; [|discriminate]. cbn [bind] in H.
    destruct (attr (p_E p2) "Ep_h") as [h|] eqn:A; [|discriminate]. cbn [bind] in H. destruct (attr (p_E p2) "Ep_x") as [x|] eqn:B; [|discriminate]. cbn [bind] in H. destruct (attr (p_E p2) "Ep_c") as [c|] eqn:C; [|discriminate]. cbn [bind] in H.
    destruct (attr (p_E p2) "F") as [F|] eqn:D; [|discriminate]. cbn [bind] in H. injection H as <-.
    apply have_some in A. apply have_some in B. apply have_some in C. apply have_some in D. exists h, x, c. cbn [set_E p_E]. rewrite !aset_other by discriminate. rewrite M2. repeat (split; [assumption|]). split; [discriminate|]. split; [discriminate|]. split.
    - intros _. exists F. rewrite aset_other by discriminate. split; [exact D|]. split; [|rewrite aset_same; f_equal; ring]. destruct (overlap_after _ _ _ E2) as (F0 & D0 & O0). unfold E_is in D0. rewrite D in D0. injection D0 as <-. eapply overlap_kept; [apply psame_E| |exact O0]. intros c0 f0 _ Hf. exists f0. auto.
    - intros [X|X]; discriminate. }
  destruct (String.eqb (po_hxc (p_opt p)) "overlap_hxc" || _)%bool eqn:M3; [|discriminate].
  destruct (vp_overlap g p1) as [p2|] eqn:E2; [|discriminate]. cbn [bind] in H. destruct (EnsCorHar g p2) as [p3|] eqn:E3; [|discriminate]. cbn [bind] in H.
  destruct (attr (p_E p3) "Ep_h") as [h|] eqn:A; [|discriminate]. cbn [bind] in H. destruct (attr (p_E p3) "Ep_x") as [x|] eqn:B; [|discriminate]. cbn [bind] in H. destruct (attr (p_E p3) "Ep_c") as [c|] eqn:C; [|discriminate]. cbn [bind] in H.
  destruct (attr (p_E p3) "F") as [F|] eqn:D; [|discriminate]. cbn [bind] in H. destruct (attr (p_E p3) "Ehcor") as [Eh|] eqn:D'; [|discriminate]. cbn [bind] in H. injection H as <-.
  apply have_some in A. apply have_some in B. apply have_some in C. apply have_some in D. apply have_some in D'. exists h, x, c. cbn [set_E p_E]. rewrite !aset_other by discriminate. repeat (split; [assumption|]). split; [intros; contradiction|]. split; [intros; contradiction|]. split; [intros; contradiction|].
  intros _. split.
  - destruct (enscorhar_spec _ _ _ E3) as (Y & _). pose proof (vp_overlap_same _ _ _ E2) as (_ & _ & _ & _ & _ & _ & Z & _). destruct S1 as (_ & _ & _ & _ & _ & _ & W & _). congruence.
  - exists F, Eh. rewrite !aset_other by discriminate. split; [exact D|]. split; [exact D'|]. split; [|split; [|rewrite aset_same; f_equal; ring]].
    + destruct (overlap_after _ _ _ E2) as (F0 & D0 & O0). unfold E_is in D0. pose proof (corr_overlap _ _ _ _ E3 O0) as O1. destruct (EnsCorHar_E _ _ _ E3) as (y & P3). rewrite P3, aset_other in D by discriminate. rewrite D in D0. injection D0 as <-. eapply overlap_kept; [apply psame_E| |exact O1]. intros c0 f0 _ Hf. exists f0. auto.
    + destruct (corr_after _ _ _ E3) as (y & D0 & O0). unfold E_is in D0. rewrite D' in D0. injection D0 as <-. eapply corr_kept; [|apply set_E_kept|exact O0]. pose proof (EnsCorHar_same _ _ _ E3) as (_ & _ & _ & _ & _ & _ & Z & _). destruct (enscorhar_spec _ _ _ E3) as (Y & _). congruence.
Qed.

(** * The potentials *)
Lemma put_hxc_inv : forall h p p', put_hxc h p = Ok p' -> p_E p' = p_E p /\ p_ens p' = p_ens p /\ forall c, member (p_ens p) c -> exists f a b d v, p_f p c = Some f /\
  f_V f "vp_h"%string = Some a /\ f_V f "vp_x"%string = Some b /\ f_V f "vp_c"%string = Some d /\ h f a b d = Ok v /\ p_f p' c = Some (fV f "vp_hxc" v).
Proof.
  intros h p p' H. unfold put_hxc in H.
  pose proof (forL_frags (fun c p f => do a <- attr (f_V f) "vp_h"; do b <- attr (f_V f) "vp_x"; do d <- attr (f_V f) "vp_c"; do v <- h f a b d; Ok (fV f "vp_hxc" v)) (comps (p_ens p)) p p' ltac:(intros ? ? ? ?; reflexivity) (comps_nodup _)) as L.
  destruct L as (W & L & _).
  { rewrite <- H. apply forL_ext. intros c q _. destruct (get_f q c) as [f|]; [|reflexivity]. cbn [bind]. destruct (attr (f_V f) "vp_h"); [|reflexivity]. cbn [bind]. destruct (attr (f_V f) "vp_x"); [|reflexivity]. cbn [bind]. destruct (attr (f_V f) "vp_c"); [|reflexivity]. cbn [bind]. destruct (h _ _ _ _); reflexivity. }
  split; [rewrite W; reflexivity|]. split; [rewrite W; reflexivity|]. intros c Hc. apply in_comps in Hc. destruct (L c Hc) as (f & f' & A & B & C). cbv beta in B.
  destruct (attr (f_V f) "vp_h") as [a|] eqn:Q1; [|discriminate]. cbn [bind] in B. destruct (attr (f_V f) "vp_x") as [b|] eqn:Q2; [|discriminate]. cbn [bind] in B. destruct (attr (f_V f) "vp_c") as [d|] eqn:Q3; [|discriminate]. cbn [bind] in B. destruct (h f a b d) as [v|] eqn:Q4; [|discriminate]. injection B as <-.
  apply have_some in Q1. apply have_some in Q2. apply have_some in Q3. exists f, a, b, d, v. auto 10.
Qed.
(** On the object that vp_hxc leaves behind, with overlap_xc. *)
Theorem vp_overlap_xc : forall g w p p', vp_hxc g w p = Ok p' -> po_hxc (p_opt p) = "overlap_xc"%string -> exists F x c, E_is p' "F" F /\ E_is p' "Ep_x" x /\ E_is p' "Ep_c" c /\
  forall cc, member (p_ens p') cc -> exists f a b d dF, p_f p' cc = Some f /\ f_V f "vp_h"%string = Some a /\ f_V f "vp_x"%string = Some b /\ f_V f "vp_c"%string = Some d /\ f_V f "dFdn"%string = Some dF /\
    f_V f "vp_hxc"%string = Some (fun k s => a k s + F * (b k s + d k s) + (x + c) * dF k s).
Proof.
  intros g w p p' H M. unfold vp_hxc in H. destruct (vp_hxc_parts g w p) as [p1|] eqn:E1; [|discriminate]. cbn [bind] in H. cbv zeta in H. rewrite M in H. cbn [String.eqb Ascii.eqb Bool.eqb orb] in H.
  destruct (vp_overlap g p1) as [p2|] eqn:E2; [|discriminate]. cbn [bind] in H. destruct (energy g w p2) as [p3|] eqn:E3; [|discriminate]. cbn [bind] in H.
  destruct (attr (p_E p3) "F") as [F|] eqn:A1; [|discriminate]. cbn [bind] in H. destruct (attr (p_E p3) "Ep_x") as [x|] eqn:A2; [|discriminate]. cbn [bind] in H. destruct (attr (p_E p3) "Ep_c") as [c|] eqn:A3; [|discriminate]. cbn [bind] in H.
  apply have_some in A1. apply have_some in A2. apply have_some in A3. destruct (put_hxc_inv _ _ _ H) as (PE & EN & L). exists F, x, c. unfold E_is. rewrite PE. repeat (split; [assumption|]).
  intros cc Hc. rewrite EN in Hc. destruct (L cc Hc) as (f & a & b & d & v & Q1 & Q2 & Q3 & Q4 & Q5 & Q6). cbv beta in Q5. destruct (attr (f_V f) "dFdn") as [dF|] eqn:D; [|discriminate]. cbn [bind] in Q5. injection Q5 as <-. apply have_some in D.
  eexists _, a, b, d, dF. split; [exact Q6|]. cbn [fV f_V]. rewrite !aset_other by discriminate. repeat (split; [assumption|]). apply aset_same.
Qed.
(** ... and with overlap_hxc. *)
Theorem vp_overlap_hxc : forall g w p p', vp_hxc g w p = Ok p' -> po_hxc (p_opt p) = "overlap_hxc"%string -> exists F h x c Eh, E_is p' "F" F /\ E_is p' "Ep_h" h /\ E_is p' "Ep_x" x /\ E_is p' "Ep_c" c /\ E_is p' "Ehcor" Eh /\
  forall cc, member (p_ens p') cc -> exists f a b d dF v, p_f p' cc = Some f /\ f_V f "vp_h"%string = Some a /\ f_V f "vp_x"%string = Some b /\ f_V f "vp_c"%string = Some d /\ f_V f "dFdn"%string = Some dF /\ f_V f "vhcor"%string = Some v /\
    f_V f "vp_hxc"%string = Some (fun k s => F * (a k s + b k s + d k s) + (h + x + c) * dF k s + (1 - F) * v k s + Eh * dF k s).
Proof.
  intros g w p p' H M. unfold vp_hxc in H. destruct (vp_hxc_parts g w p) as [p1|] eqn:E1; [|discriminate]. cbn [bind] in H. cbv zeta in H. rewrite M in H. cbn [String.eqb Ascii.eqb Bool.eqb orb] in H.
  destruct (vp_overlap g p1) as [p2|] eqn:E2; [|discriminate]. cbn [bind] in H. destruct (EnsCorHar g p2) as [p3|] eqn:E3; [|discriminate]. cbn [bind] in H. destruct (energy g w p3) as [p4|] eqn:E4; [|discriminate]. cbn [bind] in H.
  destruct (attr (p_E p4) "F") as [F|] eqn:A1; [|discriminate]. cbn [bind] in H. destruct (attr (p_E p4) "Ep_h") as [h|] eqn:A0; [|discriminate]. cbn [bind] in H. destruct (attr (p_E p4) "Ep_x") as [x|] eqn:A2; [|discriminate]. cbn [bind] in H. destruct (attr (p_E p4) "Ep_c") as [c|] eqn:A3; [|discriminate]. cbn [bind] in H.
  destruct (attr (p_E p4) "Ehcor") as [Eh|] eqn:A4; [|discriminate]. cbn [bind] in H.
  apply have_some in A0. apply have_some in A1. apply have_some in A2. apply have_some in A3. apply have_some in A4. destruct (put_hxc_inv _ _ _ H) as (PE & EN & L). exists F, h, x, c, Eh. unfold E_is. rewrite PE. repeat (split; [assumption|]).
  intros cc Hc. rewrite EN in Hc. destruct (L cc Hc) as (f & a & b & d & v & Q1 & Q2 & Q3 & Q4 & Q5 & Q6). cbv beta in Q5. destruct (attr (f_V f) "dFdn") as [dF|] eqn:D; [|discriminate]. cbn [bind] in Q5. destruct (attr (f_V f) "vhcor") as [vc|] eqn:D2; [|discriminate]. cbn [bind] in Q5. injection Q5 as <-. apply have_some in D. apply have_some in D2.
  eexists _, a, b, d, dF, vc. split; [exact Q6|]. cbn [fV f_V]. rewrite !aset_other by discriminate. repeat (split; [assumption|]). apply aset_same.
Qed.

(** * Energy and potential *)
(** Along a path in the density of a component with the derivatives that the potentials stand for (q is the weight of the point times
    the weight of the component). *)
Definition path (q : R) (f : R -> R) (t value slope : R) : Prop := f t = value /\ is_derive f t (q * slope).
Theorem overlap_xc_consistent : forall g w p p' cc f k s q (Ff Hf Xf Cf : R -> R) t a b d dF F h x c v,
  vp_hxc g w p = Ok p' -> po_hxc (p_opt p) = "overlap_xc"%string -> member (p_ens p') cc -> p_f p' cc = Some f ->
  E_is p' "F" F -> E_is p' "Ep_x" x -> E_is p' "Ep_c" c ->
  f_V f "vp_h"%string = Some a -> f_V f "vp_x"%string = Some b -> f_V f "vp_c"%string = Some d -> f_V f "dFdn"%string = Some dF -> f_V f "vp_hxc"%string = Some v ->
  path q Ff t F (dF k s) -> path q Hf t h (a k s) -> path q Xf t x (b k s) -> path q Cf t c (d k s) ->
  is_derive (fun r => (1 - Ff r) * Hf r + Ff r * (Hf r + Xf r + Cf r)) t (q * v k s).
Proof.
  intros g w p p' cc f k s q Ff Hf Xf Cf t a b d dF F h x c v H M Hc Hf' EF Ex Ec Va Vb Vd VF Vv (F0 & F1) (H0 & H1) (X0 & X1) (C0 & C1).
  destruct (vp_overlap_xc _ _ _ _ H M) as (F' & x' & c' & Y1 & Y2 & Y3 & L). unfold E_is in *. rewrite EF in Y1. rewrite Ex in Y2. rewrite Ec in Y3. injection Y1 as <-. injection Y2 as <-. injection Y3 as <-.
  destruct (L cc Hc) as (f1 & a1 & b1 & d1 & dF1 & Z0 & Z1 & Z2 & Z3 & Z4 & Z5). rewrite Hf' in Z0. injection Z0 as <-. rewrite Va in Z1. rewrite Vb in Z2. rewrite Vd in Z3. rewrite VF in Z4. rewrite Vv in Z5. injection Z1 as <-. injection Z2 as <-. injection Z3 as <-. injection Z4 as <-. injection Z5 as ->.
  apply is_derive_Reals in F1. apply is_derive_Reals in H1. apply is_derive_Reals in X1. apply is_derive_Reals in C1. apply is_derive_Reals.
  assert (D1 : derivable_pt_lim (fun r => (1 - Ff r) * Hf r) t ((0 - q * dF k s) * Hf t + (1 - Ff t) * (q * a k s))) by (apply (derivable_pt_lim_mult (fun r => 1 - Ff r) Hf); [apply (derivable_pt_lim_minus (fun _ => 1) Ff); [apply derivable_pt_lim_const|exact F1]|exact H1]).
  assert (D2 : derivable_pt_lim (fun r => Ff r * (Hf r + Xf r + Cf r)) t (q * dF k s * (Hf t + Xf t + Cf t) + Ff t * (q * a k s + q * b k s + q * d k s))).
  { apply (derivable_pt_lim_mult Ff (fun r => Hf r + Xf r + Cf r)); [exact F1|]. apply (derivable_pt_lim_plus (fun r => Hf r + Xf r) Cf); [|exact C1]. apply (derivable_pt_lim_plus Hf Xf); assumption. }
  pose proof (derivable_pt_lim_plus _ _ _ _ _ D1 D2) as D. unfold plus_fct in D. replace (q * _) with ((0 - q * dF k s) * Hf t + (1 - Ff t) * (q * a k s) + (q * dF k s * (Hf t + Xf t + Cf t) + Ff t * (q * a k s + q * b k s + q * d k s))); [exact D|].
  rewrite F0, H0, X0, C0. ring.
Qed.
Theorem overlap_hxc_sign : forall g w p p' cc f k s q (Ff Hf Xf Cf Ef : R -> R) t a b d dF vc F h x c Eh v,
  vp_hxc g w p = Ok p' -> po_hxc (p_opt p) = "overlap_hxc"%string -> member (p_ens p') cc -> p_f p' cc = Some f ->
  E_is p' "F" F -> E_is p' "Ep_h" h -> E_is p' "Ep_x" x -> E_is p' "Ep_c" c -> E_is p' "Ehcor" Eh ->
  f_V f "vp_h"%string = Some a -> f_V f "vp_x"%string = Some b -> f_V f "vp_c"%string = Some d -> f_V f "dFdn"%string = Some dF -> f_V f "vhcor"%string = Some vc -> f_V f "vp_hxc"%string = Some v ->
  path q Ff t F (dF k s) -> path q Hf t h (a k s) -> path q Xf t x (b k s) -> path q Cf t c (d k s) -> path q Ef t Eh (vc k s) ->
  is_derive (fun r => (1 - Ff r) * Ef r + Ff r * (Hf r + Xf r + Cf r)) t (q * (v k s - 2 * Eh * dF k s)) /\
  (q <> 0 -> (is_derive (fun r => (1 - Ff r) * Ef r + Ff r * (Hf r + Xf r + Cf r)) t (q * v k s) <-> Eh * dF k s = 0)).
Proof.
  intros g w p p' cc f k s q Ff Hf Xf Cf Ef t a b d dF vc F h x c Eh v H M Hc Hf' EF Eh0 Ex Ec EE Va Vb Vd VF Vc Vv (F0 & F1) (H0 & H1) (X0 & X1) (C0 & C1) (P0 & P1).
  destruct (vp_overlap_hxc _ _ _ _ H M) as (F' & h' & x' & c' & Eh' & Y1 & Y2 & Y3 & Y4 & Y5 & L). unfold E_is in *. rewrite EF in Y1. rewrite Eh0 in Y2. rewrite Ex in Y3. rewrite Ec in Y4. rewrite EE in Y5. injection Y1 as <-. injection Y2 as <-. injection Y3 as <-. injection Y4 as <-. injection Y5 as <-.
  destruct (L cc Hc) as (f1 & a1 & b1 & d1 & dF1 & v1 & Z0 & Z1 & Z2 & Z3 & Z4 & Z5 & Z6). rewrite Hf' in Z0. injection Z0 as <-. rewrite Va in Z1. rewrite Vb in Z2. rewrite Vd in Z3. rewrite VF in Z4. rewrite Vc in Z5. rewrite Vv in Z6. injection Z1 as <-. injection Z2 as <-. injection Z3 as <-. injection Z4 as <-. injection Z5 as <-. injection Z6 as ->.
  apply is_derive_Reals in F1. apply is_derive_Reals in H1. apply is_derive_Reals in X1. apply is_derive_Reals in C1. apply is_derive_Reals in P1.
  assert (D1 : derivable_pt_lim (fun r => (1 - Ff r) * Ef r) t ((0 - q * dF k s) * Ef t + (1 - Ff t) * (q * vc k s))) by (apply (derivable_pt_lim_mult (fun r => 1 - Ff r) Ef); [apply (derivable_pt_lim_minus (fun _ => 1) Ff); [apply derivable_pt_lim_const|exact F1]|exact P1]).
  assert (D2 : derivable_pt_lim (fun r => Ff r * (Hf r + Xf r + Cf r)) t (q * dF k s * (Hf t + Xf t + Cf t) + Ff t * (q * a k s + q * b k s + q * d k s))).
  { apply (derivable_pt_lim_mult Ff (fun r => Hf r + Xf r + Cf r)); [exact F1|]. apply (derivable_pt_lim_plus (fun r => Hf r + Xf r) Cf); [|exact C1]. apply (derivable_pt_lim_plus Hf Xf); assumption. }
  pose proof (derivable_pt_lim_plus _ _ _ _ _ D1 D2) as D. unfold plus_fct in D.
  set (E0 := fun r => (1 - Ff r) * Ef r + Ff r * (Hf r + Xf r + Cf r)) in *.
  assert (D3 : is_derive E0 t (q * (F * (a k s + b k s + d k s) + (h + x + c) * dF k s + (1 - F) * vc k s + Eh * dF k s - 2 * Eh * dF k s))).
  { apply is_derive_Reals. replace (q * _) with ((0 - q * dF k s) * Ef t + (1 - Ff t) * (q * vc k s) + (q * dF k s * (Hf t + Xf t + Cf t) + Ff t * (q * a k s + q * b k s + q * d k s))); [exact D|]. rewrite F0, H0, X0, C0, P0. ring. }
  split; [exact D3|]. intros Hq. split.
  - intros D4. pose proof (eq_trans (eq_sym (is_derive_unique _ _ _ D4)) (is_derive_unique _ _ _ D3)) as U. apply (Rmult_eq_reg_l q) in U; [lra|exact Hq].
  - intros Z. replace (q * _) with (q * (F * (a k s + b k s + d k s) + (h + x + c) * dF k s + (1 - F) * vc k s + Eh * dF k s - 2 * Eh * dF k s)); [exact D3|]. f_equal. lra.
Qed.
