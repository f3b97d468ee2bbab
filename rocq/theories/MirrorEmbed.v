(** Interacting fragments of two partitions that differ by the exchange of the two nuclei. *)
From Coq Require Import Reals List Arith Lia Lra ZArith Bool String FunctionalExtensionality.
From Verif Require Import Base BaseLemmas GridModel GridSpec GridProofs GridMore HartreeModel HartreeSpec HartreeProofs LinAlg HartreeThms SolverModel SolverSpec SolverProofs SolverResp FDProofs LibxcModel LibxcSpec OptionsModel KSModel KSSpec KSProofs KSThms KSLoop KSEnergy KSTotal
  InverterModel PartitionModel PartitionSpec PartitionBase PartitionConstr PartitionDens PartitionFrame PartitionEnergy PartitionEp PartitionPot PartitionLoop PartitionStep PartitionKeep PartitionPass PartitionScf PartitionRun PartitionFinal PartitionModes PartitionMain PartitionCount
  SelfConsistent NonInteracting Isolated Transport MirrorRun MirrorPart EmbedPot.
Import ListNotations.
Local Open Scope R_scope.

(** * Specification *)
(** Every functional of p, also the kinetic one, works point by point. *)
Definition local_embedding (w : env) (p : part) : Prop := local_partition w p /\ (po_kin (p_opt p) = "libxcke"%string -> exists F, e_lib w (po_kid (p_opt p)) (p_pol p) = Ok F /\ pointwise (p_pol p) (2 * p_pol p - 1) F).

(** * Functionals *)
Definition probe (pol : nat) (fam : string) (x c : nat) : ks := mkKS (mkKSopt "" false false x c fam) 0 0 pol 0 0 (fun _ _ => dummy_solver) (fun _ _ => 0) None None None None None None (mkV None None None None None None).
Notation refl_image g pol := (image g (across g) (fun j : nat => j) pol).

Section Functionals.
  Variables (g : grid) (w : penv) (p p' : part).
  Hypotheses (MS : mirror_setting g (pe_env w)) (HP : (p_pol p = 1 \/ p_pol p = 2)%nat) (LE : local_embedding (pe_env w) p) (OO : p_opt p' = p_opt p) (PP : p_pol p' = p_pol p).
  Notation img := (refl_image g (p_pol p)).

  Lemma kinetic_image : forall n n' v v', img n n' -> kinetic_pot g (pe_env w) p n v -> kinetic_pot g (pe_env w) p' n' v' -> img v v'.
  Proof.
    intros n n' v v' I K K'. unfold kinetic_pot in K'. rewrite OO, PP in K'. destruct K as [(A & B)|(A & T & t & B)]; destruct K' as [(A' & B')|(A' & T' & t' & B')]; try (exfalso; congruence).
    - intros x j Hx Hj. rewrite B, B'. reflexivity.
    - destruct (proj2 LE A) as (F & L1 & L2). set (k := probe (p_pol p) (po_kfam (p_opt p)) (po_kid (p_opt p)) (po_kid (p_opt p))).
      assert (LK : local_functionals (pe_env w) k) by (intros id [-> | ->]; exists F; auto). destruct (hxc_across g (pe_env w) k MS LK HP) as (HX & _).
      destruct (HX (po_kid (p_opt p)) n n' T t v T' t' v' (or_introl eq_refl) I B B') as (_ & R). exact R.
  Qed.
  Lemma repulsion_pot_image : forall n n' v v', img n n' -> repulsion_pot g (pe_env w) p n v -> repulsion_pot g (pe_env w) p' n' v' -> img v v'.
  Proof.
    intros n n' v v' I K K'. unfold repulsion_pot in K'. rewrite OO, PP in K'. destruct K as [(A & A2 & B)|(A & x & c & vh & B1 & B2 & B3 & B4)]; destruct K' as [(A' & A2' & B')|(A' & x' & c' & vh' & B1' & B2' & B3' & B4')]; try (exfalso; congruence).
    - intros y j Hx Hj. rewrite B, B'. reflexivity.
    - set (k := probe (p_pol p) (po_fam (p_opt p)) (po_xid (p_opt p)) (po_cid (p_opt p))).
      assert (LK : local_functionals (pe_env w) k) by (intros id Hid; exact (proj1 LE id Hid)). destruct (hxc_across g (pe_env w) k MS LK HP) as (HX & HH).
      destruct x as [[x1 x2] x3], c as [[c1 c2] c3], x' as [[x1' x2'] x3'], c' as [[c1' c2'] c3']. cbn [snd] in *.
      destruct (HX (po_xid (p_opt p)) n n' _ _ _ _ _ _ (or_introl eq_refl) I B1 B1') as (_ & RX). destruct (HX (po_cid (p_opt p)) n n' _ _ _ _ _ _ (or_intror eq_refl) I B2 B2') as (_ & RC). destruct (HH n n' _ _ I B3 B3') as (RH & _).
      intros y j Hy Hj. pose proof (across_lt g y Hy) as Hy'. specialize (RX y j Hy Hj). specialize (RC y j Hy Hj). specialize (RH y j Hy Hj). cbv beta in RX, RC, RH.
      destruct B4 as [(Q & B4)|(Q & B4)]; destruct B4' as [(Q' & B4')|(Q' & B4')]; try congruence; rewrite B4, B4'; lra.
  Qed.
End Functionals.

(** The energies of an object like k with density m and the orbitals of k2. *)
Definition energies_of (g : grid) (w : env) (k k2 : ks) (m : mat) (E : kse) : Prop := exists k3 k4, frame k k3 /\ (forall i j, k_sol k3 i j = k_sol k2 i j) /\ k_n k3 = Some m /\
  ks_energy g w k3 = Ok k4 /\ k_E k4 = Some E.
Lemma energies_energy : forall g w k k2 m E, energies_of g w k k2 m E -> energy_of g w k k2 m (E_E E).
Proof. intros g w k k2 m E (k3 & k4 & A1 & A2 & A3 & A4 & A5). exists k3, k4, E. auto 10. Qed.
Lemma energies_kinetic : forall g w tau sigma k k' k2 k2' m m' E E', point_map g tau -> spin_map (k_pol k) (k_cols k) sigma -> image_object g tau sigma k k' -> twin_orbitals g tau sigma k k2 k2' ->
  energies_of g w k k2 m E -> energies_of g w k' k2' m' E' -> E_Ts E' = E_Ts E.
Proof.
  intros g w tau sigma k k' k2 k2' m m' E E' PM SM OB Q (k3 & k4 & A1 & A2 & A3 & A4 & A5) (k3' & k4' & B1 & B2 & B3 & B4 & B5). destruct OB as (O1 & O2 & O3 & O4 & O5 & O6 & O7).
  pose proof A1 as (F1 & F2 & F3 & F4 & F5 & F6 & F7 & _). pose proof B1 as (G1 & G2 & G3 & G4 & G5 & G6 & G7 & _).
  apply energy_inv in A4. destruct A4 as (E1 & n1 & v1 & C1 & _ & _ & _ & C2 & _). apply energy_inv in B4. destruct B4 as (E2 & n2 & v2 & D1 & _ & _ & _ & D2 & _). rewrite A5 in C1. injection C1 as <-. rewrite B5 in D1. injection D1 as <-. rewrite C2, D2. f_equal.
  unfold kinetic. rewrite F5, F6, G5, G6, O4, O5. apply sumR_ext. intros i Hi. rewrite <- (sumR_permute _ sigma (fun j => eks_of (k_sol k3 i j) - pot_of g (k_sol k3 i j)) (proj1 (proj2 SM))). apply sumR_ext. intros j Hj.
  destruct (Q i j ltac:(split; auto)) as (s & s' & r & r' & Q1 & Q2 & Q3 & Q4 & Q5). rewrite A2, B2, Q1, Q2, (eks_image g tau s s' r r' Q3 Q5), (pot_image g tau PM s s' r r' Q3 Q4 Q5). reflexivity.
Qed.

(** * One pass of one component *)
Lemma pass_shot : forall g w o sched s s' c f k, psc_body g w o sched s = Ok s' -> computed (q_p s) c -> p_f (q_p s) c = Some f -> frame k (f_ks f) -> exists f' m nout k2 vh vx E, p_f (q_p s') c = Some f' /\ k_n (f_ks f) = Some m /\
  k_n (f_ks f') = Some (fun x j => (1 - f_alpha f) * m x j + f_alpha f * nout x j) /\ k_vext (f_ks f') = Some vx /\ repulsion g (pe_env w) k m vh /\ shot g (pe_env w) k (fun x j => k_vnuc k x j + vx x j + vh x j) k2 nout /\
  energies_of g (pe_env w) k k2 (fun x j => (1 - f_alpha f) * m x j + f_alpha f * nout x j) E /\ k_E (f_ks f') = Some E /\
  (f_frozen f = Some true -> k_vext (f_ks f) = Some vx) /\ (f_frozen f <> Some true -> if ps_sdft o then f_V f' "vp"%string = Some vx else po_iso (p_opt (q_p s)) = false -> p_V (q_p s') "vp"%string = Some vx).
Proof.
  intros g w o sched s s' c f k B Hc I1 Y3. apply PartitionLoop.body_inv in B. destruct B as (pa & ra & fla & WA & _ & ->). assert (Qa : q_p (psc_next o s pa ra fla) = pa) by (destruct ra as [[? ?] ?]; reflexivity). rewrite Qa. clear Qa.
  assert (C' : In c (comps_ab (q_p s))) by (apply computed_in; exact Hc).
  destruct (work_frag _ _ _ _ _ _ _ WA) as (pa3 & pav & va & U1 & U2 & _ & U4 & _ & _ & U5). destruct (U5 c C') as (g1 & g2 & g3 & g4 & g5 & V1 & V2 & V3 & V4 & V5 & V6 & V7 & V8 & _ & _ & _ & _ & V13). rewrite I1 in V1. injection V1 as <-.
  apply hxc_frag_inv in V2. destruct V2 as ((L1 & _ & L3 & L4 & _ & _) & _ & L8 & L9 & _ & _ & k5 & vv & L12 & L13 & L14 & L15 & _). destruct V5 as (M1 & _ & _ & M4 & M5 & _).
  assert (VX : exists vx, k_vext (f_ks g4) = Some vx /\ (f_frozen f = Some true -> k_vext (f_ks f) = Some vx) /\ (f_frozen f <> Some true -> if ps_sdft o then f_V g5 "vp"%string = Some vx else po_iso (p_opt (q_p s)) = false -> p_V pa "vp"%string = Some vx)).
  { pose proof V6 as V9. apply step_inv in V6. destruct V6 as (_ & x & k1 & _ & _ & _ & G1 & G2 & _ & _ & G5 & _). apply eff_pot in G2. destruct G2 as (ve & vh & P1 & _). cbn [set_vext k_vext] in P1. subst x. exists ve. split; [exact G5|].
    unfold new_vext in G1. rewrite M5, L4 in G1. rewrite V13. split.
    - intros FZ. rewrite FZ in G1. injection G1 as G1. rewrite M1, L9 in G1. exact G1.
    - intros FZ. destruct (f_frozen f) as [[|]|]; [destruct (FZ eq_refl)| |]; (destruct (ps_sdft o); [destruct (attr (f_V g3) "vp") as [v9|] eqn:A; [|discriminate]; cbn [bind] in G1; injection G1 as <-; apply have_some in A; exact A|injection G1 as <-; exact U4]). }
  destruct VX as (vx & VX1 & VX2 & VX3).
  apply step_energy in V6. destruct V6 as (k0 & k1 & k2 & n1 & nout & k3 & k4 & E & S1 & S2 & S3 & S4 & S5 & S6 & S7 & S8 & S9 & S10 & S11 & S12). rewrite M4, L3 in S7. rewrite M1 in *.
  exists g5, n1, nout, k2, vv, vx, E. split; [exact V7|]. split; [congruence|]. split; [pose proof (energy_keep _ _ _ _ S10) as (EE & VV & K4); rewrite V8, S11, K4; cbn [set_EV k_n]; exact S7|]. split; [rewrite V8; exact VX1|].
  assert (F1 : frame (f_ks f) k1) by (eapply frame_trans; [exact L1|]; eapply frame_trans; [exact S2|]; apply eff_frame, S1).
  split; [exists (f_ks f), k5; split; [exact Y3|split; [congruence|auto]]|].
  split.
  { exists (ps_iter o), (q_dif s), (sched c), k1. split; [eapply frame_trans; eauto|]. split; [|exact S5]. intros i j Hp x. apply eff_pot in S1. destruct S1 as (ve & vh & A1 & A2 & A3 & A4 & _).
    assert (F0k : frame k k0) by (eapply frame_trans; [exact Y3|]; eapply frame_trans; [exact L1|exact S2]).
    assert (Hp' : place k0 i j) by (destruct F0k as (_ & _ & _ & _ & J5 & J6 & _); unfold place in *; rewrite J5, J6; exact Hp). destruct (A4 i j Hp') as (_ & ->). cbn [set_veff s_veff]. unfold add3.
    destruct F0k as (_ & _ & _ & _ & _ & _ & -> & _). assert (ve = vx) as -> by congruence. assert (VH : vh x j = vv x j). { apply L15. rewrite <- S3. exact A2. } rewrite VH. ring. }
  split; [exists k3, k4; split; [eapply frame_trans; [exact Y3|]; eapply frame_trans; [exact F1|]; eapply frame_trans; [eapply density_frame; exact S5|exact S8]|]; split; [intros; rewrite S9; reflexivity|]; split; [exact S7|]; auto|].
  split; [rewrite V8, S11; exact S12|]. split; [exact VX2|exact VX3].
Qed.
Lemma start_shot : forall g w o sched p p', psc_start g w o sched p = Ok p' -> ps_cont o = false -> forall c f0, computed p c -> p_f p c = Some f0 -> exists f m k2, p_f p' c = Some f /\ k_n (f_ks f) = Some m /\ k_vext (f_ks f) = Some (fun _ _ => 0) /\ shot g w (f_ks f0) (fun x j => k_vnuc (f_ks f0) x j + 0) k2 m.
Proof.
  intros g w o sched p p' S HC c f0 Hc F0. destruct (start_frag _ _ _ _ _ _ S c Hc) as (f & fi & f1 & f' & X1 & X2 & X3 & X4 & X5). rewrite F0 in X1. injection X1 as <-.
  pose proof (guess_frag_inv _ _ _ _ _ _ X3) as (_ & m & N1 & Y). rewrite HC in Y. destruct Y as (_ & _ & _ & _ & VX & _).
  unfold guess_frag in X3. rewrite HC in X3. destruct (set_effective_potential _) as [k1|] eqn:E1; [|discriminate]. cbn [bind] in X3. destruct (ks_density _ _ _ _ _ _) as [[k2 n2]|] eqn:D; [|discriminate]. cbn [bind fst snd] in X3.
  unfold frag_chempot in X3. cbn [fk f_ks] in X3. destruct (calc_chempot _) as [k2'|] eqn:C'; [|discriminate]. cbn [bind] in X3. injection X3 as <-. apply chempot_keep in C'. destruct C' as (u & ->). cbn [fhomo fk f_ks set_u set_n k_n] in N1. injection N1 as <-.
  exists f', n2, k2. split; auto. rewrite X5. split; [reflexivity|]. split; [exact VX|].
  pose proof (eff_frame _ _ E1) as F1. apply eff_pot in E1. destruct E1 as (ve & vh & A1 & A2 & A3 & A4 & _). cbn [set_vhxc set_vext k_vext k_vhxc k_vnuc] in A1, A2, A3, A4. injection A1 as <-. injection A2 as <-. rewrite X2 in *.
  exists (ps_iter o), (Fin 0), (sched c), k1. split; [exact F1|]. split; [|exact D]. intros i j Hp x. destruct (A4 i j Hp) as (_ & ->). cbn [set_veff s_veff]. unfold add3. ring.
Qed.

(** * Densities of the whole *)
Lemma settled_exchanged : forall g P P' F m na nb nf q F' m' na' nb' nf' q', settled g P F m na nb nf q -> settled g P' F' m' na' nb' nf' q' -> p_opt P' = p_opt P -> p_pol P' = p_pol P -> p_ens P' = p_ens P ->
  (forall c, member (p_ens P) c -> f_scale (F' (partner c)) = f_scale (F c) /\ refl_image g (p_pol P) (m c) (m' (partner c))) ->
  refl_image g (p_pol P) nf nf' /\ forall c, member (p_ens P) c -> refl_image g (p_pol P) (q c) (q' (partner c)).
Proof.
  intros g P P' F m na nb nf q F' m' na' nb' nf' q' (_ & PM & QF & _) (_ & PM' & QF' & _) OO PP EE H.
  assert (I : refl_image g (p_pol P) nf nf').
  { intros x j Hx Hj. rewrite (whole_group _ _ _ _ _ _ PM' x j), (whole_group _ _ _ _ _ _ PM (across g x) j), OO, EE, PP.
    assert (G2 : forall c, member (p_ens P) c -> f_scale (F' (partner c)) * (m' (partner c) x j + (if po_ess (p_opt P) then m' (partner c) x (p_pol P - 1 - j)%nat else 0)) = f_scale (F c) * (m c (across g x) j + (if po_ess (p_opt P) then m c (across g x) (p_pol P - 1 - j)%nat else 0))).
    { intros c Hc. destruct (H c Hc) as (-> & R). rewrite (R x j Hx Hj). destruct (po_ess (p_opt P)); [|reflexivity]. rewrite (R x (p_pol P - 1 - j)%nat Hx) by lia. reflexivity. }
    unfold group. destruct (p_ens P) eqn:EN; cbn [lsum].
    - pose proof (G2 Ca Logic.I) as Q1. pose proof (G2 CA eq_refl) as Q2. pose proof (G2 Cb Logic.I) as Q3. pose proof (G2 CB eq_refl) as Q4. cbn [partner] in *. lra.
    - pose proof (G2 Ca Logic.I) as Q1. pose proof (G2 Cb Logic.I) as Q3. cbn [partner] in *. lra. }
  split; [exact I|]. intros c Hc x j Hx Hj. destruct (QF c Hc) as (_ & Q1). destruct (QF' (partner c)) as (_ & Q2); [rewrite EE; apply partner_member, Hc|]. destruct (H c Hc) as (SC & R). specialize (I x j Hx Hj). specialize (R x j Hx Hj). cbv beta in I, R.
  destruct (Req_dec (nf (across g x) j) 0) as [Z|Z].
  - destruct (Q1 (across g x) j) as (_ & ->); [|exact Z]. destruct (Q2 x j) as (_ & ->); congruence.
  - destruct (Q1 (across g x) j) as (-> & _); [|exact Z]. destruct (Q2 x j) as (-> & _); [|congruence]. rewrite SC, R, I. reflexivity.
Qed.
Lemma vext_image : forall g pol Za Zb, refl_image g pol (p_vext g pol Za Zb) (p_vext g pol Zb Za).
Proof.
  intros g pol Za Zb x j Hx Hj. unfold p_vext. destruct (_ || _); [|reflexivity]. assert (C : forall Z1 Z2, coulomb g Z2 Z1 x = coulomb g Z1 Z2 (across g x)) by (intros; rewrite across_at by exact Hx; symmetry; apply coulomb_mirror, Hx). rewrite (C 0 Zb), (C Za 0). ring.
Qed.

(** * Runs *)
Lemma reflect_of : forall g pol n n', refl_image g pol n n' -> reflected g pol n n'.
Proof. intros g pol n n' H x s Hx Hs. rewrite (H x s Hx Hs). apply (across_at g (fun y => n y s) x Hx). Qed.

Section Exchange.
  Variables (g : grid) (w : penv) (Za Zb : R) (pol : nat) (spec : comp -> fspec) (nua nub : R) (opt : dict) (p p' : part).
  Variables (sched sched' : Z -> comp -> list (nat * nat)) (d d' : dict) (o o' : psopt).
  Hypotheses (MS : mirror_setting g (pe_env w)) (EQ : equivariant g (pe_env w) (across g)) (HP : (pol = 1 \/ pol = 2)%nat).
  Hypotheses (H : partition_init g Za Zb pol spec nua nub opt = Ok p) (H' : partition_init g Zb Za pol (fun c => spec (partner c)) nub nua opt = Ok p').
  Hypotheses (LF : local_embedding (pe_env w) p) (EX : explicit p) (IS : po_iso (p_opt p) = false) (AB : po_ab (p_opt p) = false).
  Hypotheses (HC : ps_cont o = false) (HC' : ps_cont o' = false) (HT : ps_target o = false) (HT' : ps_target o' = false) (SD : ps_sdft o' = ps_sdft o) (FA : ps_fa o' = ps_fb o) (FB : ps_fb o' = ps_fa o).
  Hypothesis HA : forall c, member (p_ens p) c -> step_size (ps_alpha o') (partner c) = step_size (ps_alpha o) c.
  Notation img := (refl_image g pol).

  Definition twins (n : nat) (s s' : pst) (c : comp) : Prop := exists f f' m m' ve ve', p_f (q_p s) c = Some f /\ p_f (q_p s') (partner c) = Some f' /\ k_n (f_ks f) = Some m /\ k_n (f_ks f') = Some m' /\ img m m' /\
    k_vext (f_ks f) = Some ve /\ k_vext (f_ks f') = Some ve' /\ img ve ve' /\
    ((0 < n)%nat -> (exists E E', k_E (f_ks f) = Some E /\ k_E (f_ks f') = Some E' /\ E_E E' = E_E E /\ E_Ts E' = E_Ts E) /\ exists v v', f_V f "vp"%string = Some v /\ f_V f' "vp"%string = Some v' /\ img v v').

  Lemma embed_twins : forall n l l' s s', passes g w sched d p o n l s -> passes g w sched' d' p' o' n l' s' ->
    (forall c, member (p_ens p) c -> twins n s s' c) /\ ((0 < n)%nat -> exists vp vp', p_V (q_p s) "vp"%string = Some vp /\ p_V (q_p s') "vp"%string = Some vp' /\ img vp vp').
  Proof.
    destruct (exchanged _ _ _ _ _ _ _ _ _ _ H H') as (OO & PP' & PP & EE & X).
    assert (VE : p_V p "vext"%string = Some (p_vext g pol Za Zb)) by (pose proof (init_inv _ _ _ _ _ _ _ _ _ H) as (dd & Z); apply Z). assert (VE' : p_V p' "vext"%string = Some (p_vext g pol Zb Za)) by (pose proof (init_inv _ _ _ _ _ _ _ _ _ H') as (dd & Z); apply Z).
    pose proof (init_uniform _ _ _ _ _ _ _ _ _ H) as U. pose proof (init_uniform _ _ _ _ _ _ _ _ _ H') as U'.
    assert (CM : forall c, member (p_ens p) c -> computed p c /\ computed p' (partner c)). { intros c Hc. split; (split; [|try rewrite OO; rewrite AB; discriminate]); [exact Hc|rewrite EE; apply partner_member, Hc]. }
    assert (EV : forall c f0 f0', member (p_ens p) c -> p_f p c = Some f0 -> p_f p' (partner c) = Some f0' -> k_pol (f_ks f0) = pol /\ image_object g (across g) (fun j => j) (f_ks f0) (f_ks f0') /\ hxc_equivariant g (pe_env w) (k_opt (f_ks f0)) (k_pol (f_ks f0)) (across g) (fun j => j)).
    { intros c f0 f0' Hc F0 F0'. destruct (X c Hc) as (g0 & g0' & G0 & G0' & SC & OB & KP & KX & KC). rewrite F0 in G0. injection G0 as <-. rewrite F0' in G0'. injection G0' as <-. split; [exact KP|]. split; [exact OB|].
      apply hxc_across; [exact MS| |rewrite KP; exact HP]. intros id Hid; rewrite KX, KC in Hid; destruct (proj1 LF id Hid) as (Fx & L1 & L2); rewrite PP in L1, L2; rewrite KP; exists Fx; auto. }
    induction n as [|n IH]; intros l l' s s' P P'.
    - split; [|lia]. intros c Hc. destruct (X c Hc) as (f0 & f0' & F0 & F0' & _). destruct (EV c f0 f0' Hc F0 F0') as (KP & OB & HX). destruct (CM c Hc) as (C1 & C2).
      apply passes_0 in P. destruct P as (p0 & nf & _ & S & _ & _ & ->). apply passes_0 in P'. destruct P' as (p0' & nf' & _ & S' & _ & _ & ->). cbn [q_p].
      destruct (start_shot _ _ _ _ _ _ S HC c f0 C1 F0) as (f & m & k2 & A1 & A2 & A3 & A4). destruct (start_shot _ _ _ _ _ _ S' HC' _ f0' C2 F0') as (f' & m' & k2' & B1 & B2 & B3 & B4).
      exists f, f', m, m', (fun _ _ => 0), (fun _ _ => 0). split; [exact A1|]. split; [exact B1|]. split; [exact A2|]. split; [exact B2|]. split; [|split; [exact A3|split; [exact B3|split; [intros x j _ _; reflexivity|lia]]]].
      rewrite <- KP. refine (proj1 (shot_image g (pe_env w) (across g) (fun j => j) (f_ks f0) (f_ks f0') (across_map g _ MS) (same_map _ _) EQ OB (sym_across g _) _ _ _ _ _ _ _ A4 B4)). intros x j Hx Hj. destruct OB as (_ & _ & _ & _ & _ & OV & _). rewrite (OV x j Hx Hj). reflexivity.
    - apply passes_S in P. destruct P as (l0 & s0 & P & _ & B & _). apply passes_S in P'. destruct P' as (l0' & s0' & P' & _ & B' & _). destruct (IH _ _ _ _ P P') as (W & _). clear IH.
      pose proof (run_static _ _ _ _ _ _ _ _ _ P) as (R1 & R2 & _ & _ & _ & _ & R7 & _ & _ & R10 & RF). pose proof (run_static _ _ _ _ _ _ _ _ _ P') as (R1' & R2' & _ & _ & _ & _ & R7' & _ & _ & R10' & RF').
      destruct (run_settled _ _ _ _ _ _ _ _ _ P HT) as (F & mc & na & nb & nf & q & ST & _). destruct (run_settled _ _ _ _ _ _ _ _ _ P' HT') as (F' & mc' & na' & nb' & nf' & q' & ST' & _).
      assert (FM : forall c, member (p_ens p) c -> f_scale (F' (partner c)) = f_scale (F c) /\ img (mc c) (mc' (partner c))).
      { intros c Hc. assert (Hc1 : member (p_ens (q_p s0)) c) by (rewrite R7; exact Hc). assert (Hc2 : member (p_ens (q_p s0')) (partner c)) by (rewrite R7', EE; apply partner_member, Hc).
        destruct (W c Hc) as (f & f' & m & m' & _ & _ & W1 & W2 & W3 & W4 & W5 & _). destruct ST as ((D1 & D2) & _). destruct ST' as ((D1' & D2') & _). rewrite (D1 c Hc1) in W1. injection W1 as <-. rewrite (D1' _ Hc2) in W2. injection W2 as <-.
        rewrite (D2 c Hc1) in W3. injection W3 as <-. rewrite (D2' _ Hc2) in W4. injection W4 as <-. split; [|exact W5].
        destruct (X c Hc) as (f0 & f0' & F0 & F0' & SC & _). destruct (RF c Hc) as (g0 & f & G0 & G1 & _ & S1 & _). destruct (RF' (partner c)) as (g0' & f' & G0' & G1' & _ & S1' & _); [rewrite EE; apply partner_member, Hc|]. rewrite (D1 c Hc1) in G1. injection G1 as <-. rewrite (D1' _ Hc2) in G1'. injection G1' as <-. congruence. }
      destruct (settled_exchanged _ _ _ _ _ _ _ _ _ _ _ _ _ _ _ ST ST') as (NI & QI); [congruence|congruence|congruence|rewrite R7, R2, PP; exact FM|]. rewrite R2, PP in NI, QI. rewrite R7 in QI.
      assert (XE : explicit (q_p s0)) by (eapply explicit_eq; [|exact EX]; congruence). assert (XE' : explicit (q_p s0')) by (eapply explicit_eq; [|exact EX]; congruence).
      destruct (pass_explicit _ _ _ _ _ _ B (run_uniform _ _ _ _ _ _ _ _ _ P U) XE) as (vext & nf1 & t & h & Y1 & Y2 & Y3 & Y4 & Y5); [rewrite R1; exact IS|]. destruct (pass_explicit _ _ _ _ _ _ B' (run_uniform _ _ _ _ _ _ _ _ _ P' U') XE') as (vext' & nf1' & t' & h' & Y1' & Y2' & Y3' & Y4' & Y5'); [rewrite R1', OO; exact IS|].
      rewrite R10, VE in Y1. injection Y1 as <-. rewrite R10', VE' in Y1'. injection Y1' as <-.
      assert (N1 : nf1 = nf) by (destruct ST as (_ & (_ & _ & Z & _) & _); congruence). subst nf1. assert (N1' : nf1' = nf') by (destruct ST' as (_ & (_ & _ & Z & _) & _); congruence). subst nf1'.
      assert (LF0 : local_embedding (pe_env w) (q_p s0)) by (unfold local_embedding, local_partition; rewrite R1, R2; exact LF). assert (HP0 : (p_pol (q_p s0) = 1 \/ p_pol (q_p s0) = 2)%nat) by (rewrite R2, PP; exact HP).
      assert (OO0 : p_opt (q_p s0') = p_opt (q_p s0)) by congruence. assert (PP0 : p_pol (q_p s0') = p_pol (q_p s0)) by congruence. assert (P0 : p_pol (q_p s0) = pol) by congruence.
      pose proof (kinetic_image g w _ _ MS HP0 LF0 OO0 PP0) as KI. pose proof (repulsion_pot_image g w _ _ MS HP0 LF0 OO0 PP0) as RI. rewrite P0 in KI, RI. pose proof (KI _ _ _ _ NI Y3 Y3') as TI. pose proof (RI _ _ _ _ NI Y4 Y4') as HI.
      assert (UV : forall c, member (p_ens p) c -> exists f1 f1' v v', p_f (q_p s) c = Some f1 /\ p_f (q_p s') (partner c) = Some f1' /\ f_V f1 "vp"%string = Some v /\ f_V f1' "vp"%string = Some v' /\ img v v').
      { intros c Hc. destruct (CM c Hc) as (C1 & C2). destruct (Y5 c) as (f & n0 & tc & hc & f1 & v & A1 & A2 & A3 & A4 & A5 & A6 & A7); [unfold computed; rewrite R1, R7; exact C1|]. destruct (Y5' (partner c)) as (f' & n0' & tc' & hc' & f1' & v' & A1' & A2' & A3' & A4' & A5' & A6' & A7'); [unfold computed; rewrite R1', R7'; exact C2|].
        exists f1, f1', v, v'. do 4 (split; [assumption|]). destruct (W c Hc) as (fw & fw' & m & m' & _ & _ & W1 & W2 & W3 & W4 & W5 & _). rewrite A1 in W1. injection W1 as <-. rewrite A1' in W2. injection W2 as <-. rewrite A2 in W3. injection W3 as <-. rewrite A2' in W4. injection W4 as <-.
        pose proof (KI _ _ _ _ W5 A3 A3') as I1. pose proof (RI _ _ _ _ W5 A4 A4') as I2.
        assert (VN : img (k_vnuc (f_ks f)) (k_vnuc (f_ks f'))).
        { destruct (X c Hc) as (f0 & f0' & F0 & F0' & _). destruct (EV c f0 f0' Hc F0 F0') as (KP & (_ & _ & _ & _ & _ & OV & _) & _). rewrite KP in OV. destruct (RF c Hc) as (g0 & g1 & G0 & G1 & (_ & _ & _ & _ & _ & _ & V1 & _) & _). destruct (RF' (partner c)) as (g0' & g1' & G0' & G1' & (_ & _ & _ & _ & _ & _ & V1' & _) & _); [apply C2|].
          rewrite A1 in G1. injection G1 as <-. rewrite A1' in G1'. injection G1' as <-. rewrite F0 in G0. injection G0 as <-. rewrite F0' in G0'. injection G0' as <-. rewrite V1, V1'. exact OV. }
        intros x j Hx Hj. pose proof (across_lt g x Hx) as Hx'. rewrite A7 by (auto; rewrite P0; exact Hj). rewrite A7' by (auto; rewrite PP0, P0; exact Hj). rewrite (vext_image g pol Za Zb x j Hx Hj), (TI x j Hx Hj), (HI x j Hx Hj), (I1 x j Hx Hj), (I2 x j Hx Hj), (VN x j Hx Hj). reflexivity. }
      assert (IS0 : po_iso (p_opt (q_p s0)) = false) by congruence. assert (IS0' : po_iso (p_opt (q_p s0')) = false) by congruence.
      assert (VP : exists vp vp', p_V (q_p s) "vp"%string = Some vp /\ p_V (q_p s') "vp"%string = Some vp' /\ img vp vp').
      { assert (AB0 : po_ab (p_opt (q_p s0)) = false) by congruence. assert (AB0' : po_ab (p_opt (q_p s0')) = false) by congruence. destruct (pass_common _ _ _ _ _ _ _ _ _ _ _ _ B IS0 AB0 ST) as (vp & u & V1 & V2 & V3). destruct (pass_common _ _ _ _ _ _ _ _ _ _ _ _ B' IS0' AB0' ST') as (vp' & u' & V1' & V2' & V3').
        exists vp, vp'. split; [exact V1|]. split; [exact V1'|].
        assert (UI : forall c, member (p_ens p) c -> img (u c) (u' (partner c))).
        { intros c Hc. destruct (UV c Hc) as (f1 & f1' & v & v' & Z1 & Z2 & Z3 & Z4 & Z5). destruct (V2 c) as (f2 & Z6 & Z7); [rewrite R7; exact Hc|]. destruct (V2' (partner c)) as (f2' & Z6' & Z7'); [rewrite R7', EE; apply partner_member, Hc|]. rewrite Z1 in Z6. injection Z6 as <-. rewrite Z2 in Z6'. injection Z6' as <-. rewrite Z3 in Z7. injection Z7 as <-. rewrite Z4 in Z7'. injection Z7' as <-. exact Z5. }
        assert (LS : forall x j, (x < Nelem g)%nat -> (j < pol)%nat -> lsum (if p_ens p then [Ca; CA; Cb; CB] else [Ca; Cb]) (fun c => u' c x j * q' c x j) = lsum (if p_ens p then [Ca; CA; Cb; CB] else [Ca; Cb]) (fun c => u c (across g x) j * q c (across g x) j)).
        { intros x j Hx Hj. assert (G2 : forall c, member (p_ens p) c -> u' (partner c) x j * q' (partner c) x j = u c (across g x) j * q c (across g x) j) by (intros c Hc; rewrite (UI c Hc x j Hx Hj), (QI c Hc x j Hx Hj); reflexivity).
          destruct (p_ens p) eqn:EN; cbn [lsum].
          - pose proof (G2 Ca Logic.I) as Q1. pose proof (G2 CA eq_refl) as Q2. pose proof (G2 Cb Logic.I) as Q3. pose proof (G2 CB eq_refl) as Q4. cbn [partner] in *. lra.
          - pose proof (G2 Ca Logic.I) as Q1. pose proof (G2 Cb Logic.I) as Q3. cbn [partner] in *. lra. }
        intros x j Hx Hj. rewrite V3' by (auto; rewrite PP0, P0; exact Hj). rewrite V3 by (auto using across_lt; rewrite P0; exact Hj). rewrite OO0, PP0, P0, R7', EE, R7. rewrite (LS x j Hx Hj). destruct (po_ess (p_opt (q_p s0))); [|reflexivity]. rewrite (LS x (pol - 1 - j)%nat Hx) by lia. reflexivity. }
      split; [|intros _; exact VP]. intros c Hc. destruct (CM c Hc) as (C1 & C2). destruct (X c Hc) as (f0 & f0' & F0 & F0' & _). destruct (EV c f0 f0' Hc F0 F0') as (KP & OB & HX).
      destruct (W c Hc) as (f & f' & m & m' & ve & ve' & W1 & W2 & W3 & W4 & W5 & W6 & W7 & W8 & _).
      destruct (RF c Hc) as (g0 & g1 & G0 & G1 & FR & _ & AL & FZ). destruct (RF' (partner c)) as (g0' & g1' & G0' & G1' & FR' & _ & AL' & FZ'); [apply C2|]. rewrite W1 in G1. injection G1 as <-. rewrite W2 in G1'. injection G1' as <-. rewrite F0 in G0. injection G0 as <-. rewrite F0' in G0'. injection G0' as <-.
      assert (C1' : computed (q_p s0) c) by (unfold computed; rewrite R1, R7; exact C1). assert (C2' : computed (q_p s0') (partner c)) by (unfold computed; rewrite R1', R7'; exact C2).
      destruct (pass_shot _ _ _ _ _ _ _ _ _ B C1' W1 FR) as (f1 & m1 & nout & k2 & vh & vx & E & A1 & A2 & A3 & A4 & A5 & A6 & A7 & A8 & A9 & A10). destruct (pass_shot _ _ _ _ _ _ _ _ _ B' C2' W2 FR') as (f1' & m1' & nout' & k2' & vh' & vx' & E' & A1' & A2' & A3' & A4' & A5' & A6' & A7' & A8' & A9' & A10').
      rewrite W3 in A2. injection A2 as <-. rewrite W4 in A2'. injection A2' as <-.
      destruct (UV c Hc) as (f2 & f2' & v & v' & Z1 & Z2 & Z3 & Z4 & Z5). rewrite A1 in Z1. injection Z1 as <-. rewrite A1' in Z2. injection Z2 as <-.
      assert (FZE : f_frozen f' = f_frozen f) by (rewrite FZ, FZ'; destruct c; cbn [partner]; congruence).
      assert (VX : img vx vx').
      { assert (FD : f_frozen f = Some true \/ f_frozen f <> Some true) by (destruct (f_frozen f) as [[|]|]; [left; reflexivity|right; discriminate|right; discriminate]). destruct FD as [FD|FD].
        - specialize (A9 FD). rewrite FZE in A9'. specialize (A9' FD). rewrite W6 in A9. injection A9 as <-. rewrite W7 in A9'. injection A9' as <-. exact W8.
        - specialize (A10 FD). rewrite FZE in A10'. specialize (A10' FD). rewrite SD in A10'. destruct (ps_sdft o).
          + rewrite Z3 in A10. injection A10 as <-. rewrite Z4 in A10'. injection A10' as <-. exact Z5.
          + specialize (A10 IS0). specialize (A10' IS0'). destruct VP as (vp & vp' & V1 & V2 & V3). rewrite V1 in A10. injection A10 as <-. rewrite V2 in A10'. injection A10' as <-. exact V3. }
      assert (AE : f_alpha f' = f_alpha f) by (specialize (HA c Hc); congruence).
      assert (W5k : refl_image g (k_pol (f_ks f0)) m m') by (rewrite KP; exact W5).
      pose proof (repulsion_image g (pe_env w) (across g) (fun j => j) (f_ks f0) (f_ks f0') OB HX (sym_across g _) _ _ _ _ W5k A5 A5') as VH.
      assert (PI : refl_image g (k_pol (f_ks f0)) (fun x j => k_vnuc (f_ks f0) x j + vx x j + vh x j) (fun x j => k_vnuc (f_ks f0') x j + vx' x j + vh' x j)).
      { intros x j Hx Hj. destruct OB as (_ & _ & _ & _ & _ & OV & _). rewrite (OV x j Hx Hj), (VH x j Hx Hj), (VX x j Hx) by (rewrite <- KP; exact Hj). reflexivity. }
      destruct (shot_image g (pe_env w) (across g) (fun j => j) (f_ks f0) (f_ks f0') (across_map g _ MS) (same_map _ _) EQ OB (sym_across g _) _ _ _ _ _ _ PI A6 A6') as (NO & TW).
      assert (MX : refl_image g (k_pol (f_ks f0)) (fun x j => (1 - f_alpha f) * m x j + f_alpha f * nout x j) (fun x j => (1 - f_alpha f') * m' x j + f_alpha f' * nout' x j)).
      { intros x j Hx Hj. rewrite AE, (W5k x j Hx Hj), (NO x j Hx Hj). reflexivity. }
      pose proof (energy_image g (pe_env w) (across g) (fun j => j) (f_ks f0) (f_ks f0') (across_map g _ MS) (same_map _ _) OB HX _ _ _ _ _ _ TW MX (energies_energy _ _ _ _ _ _ A7) (energies_energy _ _ _ _ _ _ A7')) as EI.
      pose proof (energies_kinetic g (pe_env w) (across g) (fun j => j) (f_ks f0) (f_ks f0') _ _ _ _ _ _ (across_map g _ MS) (same_map _ _) OB TW A7 A7') as TI0.
      eexists f1, f1', _, _, vx, vx'. split; [exact A1|]. split; [exact A1'|]. split; [exact A3|]. split; [exact A3'|]. split; [rewrite <- KP; exact MX|]. split; [exact A4|]. split; [exact A4'|]. split; [exact VX|]. intros _. split; [exists E, E'; auto 10|exists v, v'; auto].
  Qed.
End Exchange.

(** Exchanging the two nuclei of interacting fragments. *)
Theorem exchanged_embedding : forall g w Za Zb pol spec nua nub opt p p' sched sched' d d' o o' n l l' s s', mirror_setting g (pe_env w) -> equivariant g (pe_env w) (across g) -> (pol = 1 \/ pol = 2)%nat ->
  partition_init g Za Zb pol spec nua nub opt = Ok p -> partition_init g Zb Za pol (fun c => spec (partner c)) nub nua opt = Ok p' -> local_embedding (pe_env w) p -> explicit p ->
  po_iso (p_opt p) = false -> po_ab (p_opt p) = false -> passes g w sched d p o n l s -> passes g w sched' d' p' o' n l' s' ->
  ps_cont o = false -> ps_cont o' = false -> ps_target o = false -> ps_target o' = false -> ps_sdft o' = ps_sdft o -> ps_fa o' = ps_fb o -> ps_fb o' = ps_fa o -> (forall c, member (p_ens p) c -> step_size (ps_alpha o') (partner c) = step_size (ps_alpha o) c) ->
  (forall c, member (p_ens p) c -> exists f f' m m', p_f (q_p s) c = Some f /\ p_f (q_p s') (partner c) = Some f' /\ k_n (f_ks f) = Some m /\ k_n (f_ks f') = Some m' /\ reflected g pol m m' /\
     ((0 < n)%nat -> exists E E' v v', k_E (f_ks f) = Some E /\ k_E (f_ks f') = Some E' /\ E_E E' = E_E E /\ f_V f "vp"%string = Some v /\ f_V f' "vp"%string = Some v' /\ reflected g pol v v')) /\
  (exists nf nf', p_nf (q_p s) = Some nf /\ p_nf (q_p s') = Some nf' /\ reflected g pol nf nf') /\
  ((0 < n)%nat -> exists vp vp', p_V (q_p s) "vp"%string = Some vp /\ p_V (q_p s') "vp"%string = Some vp' /\ reflected g pol vp vp').
Proof.
  intros g w Za Zb pol spec nua nub opt p p' sched sched' d d' o o' n l l' s s' MS EQ HP H H' LF EX IS AB P P' HC HC' HT HT' SD FA FB HA.
  destruct (embed_twins _ _ _ _ _ _ _ _ _ _ _ _ _ _ _ _ _ MS EQ HP H H' LF EX IS AB HC HC' HT HT' SD FA FB HA _ _ _ _ _ P P') as (W & VP).
  split; [|split].
  - intros c Hc. destruct (W c Hc) as (f & f' & m & m' & ve & ve' & W1 & W2 & W3 & W4 & W5 & _ & _ & _ & W9). exists f, f', m, m'. do 4 (split; [assumption|]). split; [apply reflect_of, W5|]. intros Hn. destruct (W9 Hn) as ((E & E' & E1 & E2 & E3 & _) & v & v' & V1 & V2 & V3). exists E, E', v, v'. do 5 (split; [assumption|]). apply reflect_of, V3.
  - destruct (exchanged _ _ _ _ _ _ _ _ _ _ H H') as (OO & PP' & PP & EE & X).
    pose proof (run_static _ _ _ _ _ _ _ _ _ P) as (R1 & R2 & _ & _ & _ & _ & R7 & _ & _ & R10 & RF). pose proof (run_static _ _ _ _ _ _ _ _ _ P') as (R1' & R2' & _ & _ & _ & _ & R7' & _ & _ & R10' & RF').
    destruct (run_settled _ _ _ _ _ _ _ _ _ P HT) as (F & mc & na & nb & nf & q & ST & _). destruct (run_settled _ _ _ _ _ _ _ _ _ P' HT') as (F' & mc' & na' & nb' & nf' & q' & ST' & _).
    assert (FM : forall c, member (p_ens p) c -> f_scale (F' (partner c)) = f_scale (F c) /\ refl_image g pol (mc c) (mc' (partner c))).
    { intros c Hc. assert (Hc1 : member (p_ens (q_p s)) c) by (rewrite R7; exact Hc). assert (Hc2 : member (p_ens (q_p s')) (partner c)) by (rewrite R7', EE; apply partner_member, Hc).
      destruct (W c Hc) as (f & f' & m & m' & _ & _ & W1 & W2 & W3 & W4 & W5 & _). destruct ST as ((D1 & D2) & _). destruct ST' as ((D1' & D2') & _). rewrite (D1 c Hc1) in W1. injection W1 as <-. rewrite (D1' _ Hc2) in W2. injection W2 as <-.
      rewrite (D2 c Hc1) in W3. injection W3 as <-. rewrite (D2' _ Hc2) in W4. injection W4 as <-. split; [|exact W5].
      destruct (X c Hc) as (f0 & f0' & F0 & F0' & SC & _). destruct (RF c Hc) as (g0 & f & G0 & G1 & _ & S1 & _). destruct (RF' (partner c)) as (g0' & f' & G0' & G1' & _ & S1' & _); [rewrite EE; apply partner_member, Hc|]. rewrite (D1 c Hc1) in G1. injection G1 as <-. rewrite (D1' _ Hc2) in G1'. injection G1' as <-. congruence. }
    destruct (settled_exchanged _ _ _ _ _ _ _ _ _ _ _ _ _ _ _ ST ST') as (NI & _); [congruence|congruence|congruence|rewrite R7, R2, PP; exact FM|]. rewrite R2, PP in NI.
    exists nf, nf'. split; [apply ST|]. split; [apply ST'|]. apply reflect_of, NI.
  - intros Hn. destruct (VP Hn) as (vp & vp' & V1 & V2 & V3). exists vp, vp'. split; [exact V1|]. split; [exact V2|]. apply reflect_of, V3.
Qed.

(** Two identical interacting fragments. *)
Theorem identical_embedding : forall g w Z pol spec nu opt p sched d o n l s, mirror_setting g (pe_env w) -> equivariant g (pe_env w) (across g) -> (pol = 1 \/ pol = 2)%nat ->
  partition_init g Z Z pol spec nu nu opt = Ok p -> spec Cb = spec Ca -> spec CB = spec CA -> local_embedding (pe_env w) p -> explicit p -> po_iso (p_opt p) = false -> po_ab (p_opt p) = false ->
  passes g w sched d p o n l s -> ps_cont o = false -> ps_target o = false -> ps_fb o = ps_fa o -> step_size (ps_alpha o) Cb = step_size (ps_alpha o) Ca -> (p_ens p = true -> step_size (ps_alpha o) CB = step_size (ps_alpha o) CA) ->
  (forall c, member (p_ens p) c -> exists f f' m m', p_f (q_p s) c = Some f /\ p_f (q_p s) (partner c) = Some f' /\ k_n (f_ks f) = Some m /\ k_n (f_ks f') = Some m' /\ reflected g pol m m' /\
     ((0 < n)%nat -> exists E E' v v', k_E (f_ks f) = Some E /\ k_E (f_ks f') = Some E' /\ E_E E' = E_E E /\ f_V f "vp"%string = Some v /\ f_V f' "vp"%string = Some v' /\ reflected g pol v v')) /\
  (exists nf, p_nf (q_p s) = Some nf /\ reflected g pol nf nf) /\ ((0 < n)%nat -> exists vp, p_V (q_p s) "vp"%string = Some vp /\ reflected g pol vp vp).
Proof.
  intros g w Z pol spec nu opt p sched d o n l s MS EQ HP H S1 S2 LF EX IS AB P HC HT FF A1 A2.
  assert (SP : (fun c => spec (partner c)) = spec) by (apply functional_extensionality; intros []; cbn [partner]; congruence). pose proof H as H'. rewrite <- SP in H'.
  assert (HA : forall c, member (p_ens p) c -> step_size (ps_alpha o) (partner c) = step_size (ps_alpha o) c) by (intros [] Hc; cbn [partner]; simpl in Hc; auto; symmetry; auto).
  destruct (exchanged_embedding _ _ _ _ _ _ _ _ _ _ _ _ _ _ _ _ _ _ _ _ _ _ MS EQ HP H H' LF EX IS AB P P HC HC HT HT eq_refl (eq_sym FF) FF HA) as (R1 & (nf & nf' & N1 & N2 & R2) & R3). split; auto.
  split. { exists nf. split; auto. assert (nf' = nf) by congruence. subst nf'. exact R2. }
  intros Hn. destruct (R3 Hn) as (vp & vp' & V1 & V2 & V3). exists vp. split; auto. assert (vp' = vp) by congruence. subst vp'. exact V3.
Qed.

(** The sum of the fragment energies. In ensembles [energy] counts the component CB twice and leaves out Cb, so the
    sum depends on which nucleus comes first. *)
Theorem exchanged_energy_sum : forall g w Za Zb pol spec nua nub opt p p' sched sched' d d' o o' n l l' s s', mirror_setting g (pe_env w) -> equivariant g (pe_env w) (across g) -> (pol = 1 \/ pol = 2)%nat ->
  partition_init g Za Zb pol spec nua nub opt = Ok p -> partition_init g Zb Za pol (fun c => spec (partner c)) nub nua opt = Ok p' -> local_embedding (pe_env w) p -> explicit p ->
  po_iso (p_opt p) = false -> po_ab (p_opt p) = false -> passes g w sched d p o (S n) l s -> passes g w sched' d' p' o' (S n) l' s' ->
  ps_cont o = false -> ps_cont o' = false -> ps_target o = false -> ps_target o' = false -> ps_sdft o' = ps_sdft o -> ps_fa o' = ps_fb o -> ps_fb o' = ps_fa o -> (forall c, member (p_ens p) c -> step_size (ps_alpha o') (partner c) = step_size (ps_alpha o) c) ->
  exists F e Ef Ef', energies (q_p s) F e /\ p_E (q_p s) "Ef"%string = Some Ef /\ p_E (q_p s') "Ef"%string = Some Ef' /\
    let x := fun c => f_scale (F c) * to_R (E_E (e c)) in
    (p_ens p = false -> Ef' = Ef) /\ (p_ens p = true -> Ef' = Ef + (if po_ess (p_opt p) then 2 else 1) * ((x CA - x Ca) - (x CB - x Cb))).
Proof.
  intros g w Za Zb pol spec nua nub opt p p' sched sched' d d' o o' n l l' s s' MS EQ HP H H' LF EX IS AB P P' HC HC' HT HT' SD FA FB HA.
  destruct (exchanged_embedding _ _ _ _ _ _ _ _ _ _ _ _ _ _ _ _ _ _ _ _ _ _ MS EQ HP H H' LF EX IS AB P P' HC HC' HT HT' SD FA FB HA) as (W & _ & _).
  destruct (exchanged _ _ _ _ _ _ _ _ _ _ H H') as (OO & PP' & PP & EE & X). pose proof (run_static _ _ _ _ _ _ _ _ _ P) as (_ & _ & _ & _ & _ & _ & R7 & _ & _ & _ & RF). pose proof (run_static _ _ _ _ _ _ _ _ _ P') as (_ & _ & _ & _ & _ & _ & R7' & _ & _ & _ & RF').
  destruct (run_sums _ _ _ _ _ _ _ _ _ P) as (F & e & EN & _ & _ & S & _). destruct (run_sums _ _ _ _ _ _ _ _ _ P') as (F' & e' & EN' & _ & _ & S' & _).
  exists F, e. eexists _, _. split; [exact EN|]. split; [exact S|]. split; [exact S'|]. rewrite OO, EE, AB. cbv zeta.
  assert (G : forall c, member (p_ens p) c -> f_scale (F' (partner c)) * to_R (E_E (e' (partner c))) = f_scale (F c) * to_R (E_E (e c))).
  { intros c Hc. pose proof (partner_member _ _ Hc) as Hc'. destruct (W c Hc) as (f & f' & _ & _ & W1 & W2 & _ & _ & _ & W6). destruct (W6 ltac:(lia)) as (E & E' & _ & _ & E1 & E2 & E3 & _). destruct EN as (FR & EF). destruct EN' as (FR' & EF').
    assert (Hc1 : member (p_ens (q_p s)) c) by (rewrite R7; exact Hc). assert (Hc2 : member (p_ens (q_p s')) (partner c)) by (rewrite R7', EE; exact Hc').
    pose proof (EF _ Hc1) as E4. pose proof (EF' _ Hc2) as E5. rewrite (FR _ Hc1) in W1. injection W1 as <-. rewrite (FR' _ Hc2) in W2. injection W2 as <-. rewrite E4 in E1. injection E1 as <-. rewrite E5 in E2. injection E2 as <-. rewrite E3. f_equal.
    destruct (X c Hc) as (f0 & f0' & F0 & F0' & SC & _). destruct (RF c Hc) as (g0 & f & G0 & G1 & _ & S1 & _). destruct (RF' (partner c)) as (g0' & f' & G0' & G1' & _ & S1' & _); [rewrite EE; exact Hc'|]. rewrite (FR c Hc1) in G1. injection G1 as <-. rewrite (FR' _ Hc2) in G1'. injection G1' as <-. congruence. }
  split; intros EQN; rewrite EQN in *; unfold share; cbn [lsum].
  - pose proof (G Ca Logic.I) as Q1. pose proof (G Cb Logic.I) as Q2. cbn [partner] in *. destruct (po_ess (p_opt p)); lra.
  - pose proof (G Ca Logic.I) as Q1. pose proof (G CA eq_refl) as Q2. pose proof (G Cb Logic.I) as Q3. pose proof (G CB eq_refl) as Q4. cbn [partner] in *. destruct (po_ess (p_opt p)); lra.
Qed.
