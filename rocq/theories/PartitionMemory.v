(** Partition.scf with explicit functionals: a pass depends on the densities of the fragments only, so that a call can be continued. *)
From Coq Require Import Reals List Arith Lia Lra ZArith Bool String FunctionalExtensionality.
From Verif Require Import Base BaseLemmas GridModel GridSpec GridProofs HartreeModel SolverModel SolverSpec SolverProofs LibxcModel OptionsModel KSModel KSSpec KSProofs KSThms KSLoop KSEnergy KSTotal
  InverterModel InverterThms PartitionModel PartitionSpec PartitionBase PartitionConstr PartitionDens PartitionFrame PartitionEnergy PartitionLoop PartitionStep PartitionKeep PartitionPass PartitionScf PartitionRun PartitionFinal PartitionCount PartitionNew SelfConsistent NonInteracting Isolated EmbedPot EmbedEnergy MirrorEmbed EmptyFrag.
Import ListNotations.
Local Open Scope R_scope.

(** The same potential on the grid, or none. *)
Definition same_potential (g : grid) (pol : nat) (a b : option mat) : Prop :=
  match a, b with Some v, Some v' => forall x j, (x < Nelem g)%nat -> (j < pol)%nat -> v' x j = v x j | None, None => True | _, _ => False end.
(** The same settings, densities and external potentials of the components. *)
Definition alike (g : grid) (P P' : part) : Prop := p_opt P' = p_opt P /\ p_pol P' = p_pol P /\ p_ens P' = p_ens P /\ p_V P' "vext"%string = p_V P "vext"%string /\
  forall c, member (p_ens P) c -> exists f f' m, p_f P c = Some f /\ p_f P' c = Some f' /\ frame (f_ks f) (f_ks f') /\ f_scale f' = f_scale f /\ f_alpha f' = f_alpha f /\ f_frozen f' = f_frozen f /\
    k_n (f_ks f) = Some m /\ k_n (f_ks f') = Some m /\ same_potential g (p_pol P) (k_vext (f_ks f)) (k_vext (f_ks f')).
(** The results of a pass that belong to component c: energies. *)
Definition same_energy (P P' : part) (c : comp) : Prop := exists f f' E E', p_f P c = Some f /\ p_f P' c = Some f' /\ k_E (f_ks f) = Some E /\ k_E (f_ks f') = Some E' /\ E_E E' = E_E E /\ E_Ts E' = E_Ts E.

Lemma settled_alike : forall g P P' F m na nb nf q F' m' na' nb' nf' q', settled g P F m na nb nf q -> settled g P' F' m' na' nb' nf' q' -> alike g P P' -> nf' = nf /\ forall c, member (p_ens P) c -> m' c = m c /\ q' c = q c.
Proof.
  intros g P P' F m na nb nf q F' m' na' nb' nf' q' (SD & PM & QF & _) (SD' & PM' & QF' & _) (OO & PP & EE & _ & H).
  assert (FM : forall c, member (p_ens P) c -> f_scale (F' c) = f_scale (F c) /\ m' c = m c).
  { intros c Hc. destruct (H c Hc) as (f & f' & m0 & A1 & A2 & _ & A4 & _ & _ & A7 & A8 & _). destruct SD as (D1 & D2), SD' as (D1' & D2'). assert (Hc' : member (p_ens P') c) by (rewrite EE; exact Hc). rewrite (D1 c Hc) in A1. injection A1 as <-. rewrite (D1' c Hc') in A2. injection A2 as <-.
    rewrite (D2 c Hc) in A7. injection A7 as <-. rewrite (D2' c Hc') in A8. injection A8 as A8. auto. }
  assert (N : nf' = nf).
  { apply functional_extensionality. intros x. apply functional_extensionality. intros j. rewrite (whole_group _ _ _ _ _ _ PM' x j), (whole_group _ _ _ _ _ _ PM x j), OO, EE, PP. unfold group. apply lsum_ext. intros c Hc.
    destruct (FM c) as (-> & ->); [destruct (p_ens P); simpl in Hc; intuition (subst; simpl; auto)|reflexivity]. }
  split; [exact N|]. intros c Hc. destruct (FM c Hc) as (SC & M). split; [exact M|]. destruct (QF c Hc) as (_ & Q1). destruct (QF' c) as (_ & Q2); [rewrite EE; exact Hc|].
  apply functional_extensionality. intros x. apply functional_extensionality. intros j. destruct (Q1 x j) as (Q3 & Q4). destruct (Q2 x j) as (Q5 & Q6). rewrite N in Q5, Q6. destruct (Req_dec (nf x j) 0) as [Z|Z]; [rewrite Q4, Q6 by exact Z; reflexivity|rewrite Q3, Q5 by exact Z; rewrite SC, M; reflexivity].
Qed.

Lemma energies_det : forall g w k k2 k2' m E E', (forall i j, place k i j -> exists s s' r, k_sol k2 i j = set_result s r /\ k_sol k2' i j = set_result s' r /\ same_static s s' /\ forall x, (x < Nelem g)%nat -> s_veff s' x = s_veff s x) ->
  energies_of g w k k2 m E -> energies_of g w k k2' m E' -> E_E E' = E_E E /\ E_Ts E' = E_Ts E.
Proof.
  intros g w k k2 k2' m E E' Q HE HE'. split; [symmetry; eapply energy_of_det; eauto using energies_energy|].
  destruct HE as (k3 & k4 & A1 & A2 & A3 & A4 & A5). destruct HE' as (k3' & k4' & B1 & B2 & B3 & B4 & B5). pose proof A1 as (_ & _ & _ & _ & F5 & F6 & _). pose proof B1 as (_ & _ & _ & _ & G5 & G6 & _).
  apply energy_inv in A4. destruct A4 as (E1 & n1 & v1 & C1 & _ & _ & _ & C2 & _). apply energy_inv in B4. destruct B4 as (E2 & n2 & v2 & D1 & _ & _ & _ & D2 & _). rewrite A5 in C1. injection C1 as <-. rewrite B5 in D1. injection D1 as <-. rewrite C2, D2. f_equal.
  unfold kinetic. rewrite F5, F6, G5, G6. apply sumR_ext. intros i Hi. apply sumR_ext. intros j Hj. destruct (Q i j ltac:(split; auto)) as (s & s' & r & Q1 & Q2 & Q3 & Q4). rewrite A2, B2, Q1, Q2, (eks_same s s' r Q3), (pot_same g s s' r Q3 Q4). reflexivity.
Qed.
Lemma energies_frame : forall g w k k' k2 m E, frame k k' -> energies_of g w k' k2 m E -> energies_of g w k k2 m E.
Proof. intros g w k k' k2 m E F (k3 & k4 & A1 & A). exists k3, k4. split; [eapply frame_trans; eauto|exact A]. Qed.
Lemma body_stat : forall g w o sched s s', psc_body g w o sched s = Ok s' -> pstat (q_p s) (q_p s').
Proof. intros g w o sched s s' B. apply PartitionLoop.body_inv in B. destruct B as (pa & ra & fla & WA & _ & ->). assert (Qa : q_p (psc_next o s pa ra fla) = pa) by (destruct ra as [[? ?] ?]; reflexivity). rewrite Qa. eapply pass_static; eauto. Qed.

(** * One pass *)
Theorem pass_alike : forall g w o o' sched sched' s s' t t' F m na nb nf q F' m' na' nb' nf' q', steady g (pe_env w) -> ps_sdft o' = ps_sdft o -> psc_body g w o sched s = Ok s' -> psc_body g w o' sched' t = Ok t' ->
  alike g (q_p s) (q_p t) -> uniform (q_p s) -> explicit (q_p s) -> po_iso (p_opt (q_p s)) = false -> po_ab (p_opt (q_p s)) = false ->
  settled g (q_p s) F m na nb nf q -> settled g (q_p t) F' m' na' nb' nf' q' ->
  alike g (q_p s') (q_p t') /\ same_potential g (p_pol (q_p s)) (p_V (q_p s') "vp"%string) (p_V (q_p t') "vp"%string) /\ forall c, member (p_ens (q_p s)) c -> same_energy (q_p s') (q_p t') c.
Proof.
  intros g w o o' sched sched' s s' t t' F m na nb nf q F' m' na' nb' nf' q' ST SD B B' AL U EX IS AB SE SE'.
  destruct (settled_alike _ _ _ _ _ _ _ _ _ _ _ _ _ _ _ SE SE' AL) as (NN & MQ). pose proof AL as (OO & PP & EE & VE & H).
  assert (U' : uniform (q_p t)).
  { intros c f' Hc Ff'. rewrite EE in Hc. destruct (H c Hc) as (f & f0 & m0 & A1 & A2 & (A3 & _ & _ & A4 & _) & _). rewrite Ff' in A2. injection A2 as <-. destruct (U c f Hc A1) as (B1 & B2 & B3 & B4 & B5 & B6). rewrite OO, PP. repeat split; congruence. }
  assert (EX' : explicit (q_p t)) by (eapply explicit_eq; [exact OO|exact EX]). assert (IS' : po_iso (p_opt (q_p t)) = false) by congruence. assert (AB' : po_ab (p_opt (q_p t)) = false) by congruence.
  assert (CM : forall c, member (p_ens (q_p s)) c -> computed (q_p s) c /\ computed (q_p t) c) by (intros c Hc; split; (split; [congruence|rewrite ?OO, AB; discriminate])).
  destruct (pass_explicit _ _ _ _ _ _ B U EX IS) as (vext & nf1 & tt & h & Y1 & Y2 & Y3 & Y4 & Y5). destruct (pass_explicit _ _ _ _ _ _ B' U' EX' IS') as (vext' & nf1' & tt' & h' & Y1' & Y2' & Y3' & Y4' & Y5').
  rewrite VE, Y1 in Y1'. injection Y1' as <-.
  assert (N1 : nf1 = nf) by (destruct SE as (_ & (_ & _ & Z & _) & _); congruence). subst nf1. assert (N1' : nf1' = nf) by (destruct SE' as (_ & (_ & _ & Z & _) & _); congruence). subst nf1'.
  assert (KD : forall n v v', kinetic_pot g (pe_env w) (q_p s) n v -> kinetic_pot g (pe_env w) (q_p t) n v' -> forall x j, v' x j = v x j) by (intros n v v' K1 K2; apply (kinetic_eq _ _ _ (q_p s)) in K2; [intros; eapply kinetic_pot_det; eauto|congruence|congruence]).
  assert (RD : forall n v v', repulsion_pot g (pe_env w) (q_p s) n v -> repulsion_pot g (pe_env w) (q_p t) n v' -> forall x j, v' x j = v x j) by (intros n v v' K1 K2; apply (repulsion_eq _ _ _ (q_p s)) in K2; [intros; eapply repulsion_pot_det; eauto|congruence|congruence]).
  assert (UV : forall c, member (p_ens (q_p s)) c -> exists f1 f1' v v', p_f (q_p s') c = Some f1 /\ p_f (q_p t') c = Some f1' /\ f_V f1 "vp"%string = Some v /\ f_V f1' "vp"%string = Some v' /\ forall x j, (x < Nelem g)%nat -> (j < p_pol (q_p s))%nat -> v' x j = v x j).
  { intros c Hc. destruct (CM c Hc) as (C1 & C2). destruct (Y5 c C1) as (f & n0 & tc & hc & f1 & v & A1 & A2 & A3 & A4 & A5 & A6 & A7). destruct (Y5' c C2) as (f' & n0' & tc' & hc' & f1' & v' & A1' & A2' & A3' & A4' & A5' & A6' & A7').
    exists f1, f1', v, v'. do 4 (split; [assumption|]). destruct (H c Hc) as (fx & fx' & m0 & X1 & X2 & (_ & _ & _ & _ & _ & _ & VN & _) & _ & _ & _ & X7 & X8 & _). rewrite A1 in X1. injection X1 as <-. rewrite A1' in X2. injection X2 as <-. rewrite A2 in X7. injection X7 as ->. rewrite A2' in X8. injection X8 as ->.
    intros x j Hx Hj. rewrite A7, A7' by (auto; congruence). rewrite (KD _ _ _ Y3 Y3'), (RD _ _ _ Y4 Y4'), (KD _ _ _ A3 A3'), (RD _ _ _ A4 A4'), VN. reflexivity. }
  destruct (pass_common _ _ _ _ _ _ _ _ _ _ _ _ B IS AB SE) as (vp & u & V1 & V2 & V3). destruct (pass_common _ _ _ _ _ _ _ _ _ _ _ _ B' IS' AB' SE') as (vp' & u' & V1' & V2' & V3').
  assert (UI : forall c, member (p_ens (q_p s)) c -> forall x j, (x < Nelem g)%nat -> (j < p_pol (q_p s))%nat -> u' c x j = u c x j).
  { intros c Hc. destruct (UV c Hc) as (f1 & f1' & v & v' & Z1 & Z2 & Z3 & Z4 & Z5). destruct (V2 c Hc) as (f2 & Z6 & Z7). destruct (V2' c) as (f2' & Z6' & Z7'); [congruence|]. rewrite Z1 in Z6. injection Z6 as <-. rewrite Z2 in Z6'. injection Z6' as <-. rewrite Z3 in Z7. injection Z7 as <-. rewrite Z4 in Z7'. injection Z7' as <-. exact Z5. }
  assert (VP : forall x j, (x < Nelem g)%nat -> (j < p_pol (q_p s))%nat -> vp' x j = vp x j).
  { intros x j Hx Hj. rewrite V3, V3' by (auto; congruence). rewrite OO, EE, PP.
    assert (LS : forall i, (i < p_pol (q_p s))%nat -> lsum (if p_ens (q_p s) then [Ca; CA; Cb; CB] else [Ca; Cb]) (fun c => u' c x i * q' c x i) = lsum (if p_ens (q_p s) then [Ca; CA; Cb; CB] else [Ca; Cb]) (fun c => u c x i * q c x i)).
    { intros i Hi. apply lsum_ext. intros c Hc. assert (Mc : member (p_ens (q_p s)) c) by (destruct (p_ens (q_p s)); simpl in Hc; intuition (subst; simpl; auto)). rewrite (UI c Mc x i Hx Hi). destruct (MQ c Mc) as (_ & ->). reflexivity. }
    rewrite (LS j Hj). destruct (po_ess (p_opt (q_p s))); [|reflexivity]. rewrite (LS (p_pol (q_p s) - 1 - j)%nat) by lia. reflexivity. }
  assert (CC : forall c, member (p_ens (q_p s)) c -> exists f f' n1, p_f (q_p s') c = Some f /\ p_f (q_p t') c = Some f' /\ k_n (f_ks f) = Some n1 /\ k_n (f_ks f') = Some n1 /\ same_potential g (p_pol (q_p s)) (k_vext (f_ks f)) (k_vext (f_ks f')) /\
     exists E E', k_E (f_ks f) = Some E /\ k_E (f_ks f') = Some E' /\ E_E E' = E_E E /\ E_Ts E' = E_Ts E).
  { intros c Hc. destruct (CM c Hc) as (C1 & C2). destruct (H c Hc) as (f & f' & n0 & X1 & X2 & FR & X4 & X5 & X6 & X7 & X8 & X9).
    destruct (pass_shot _ _ _ _ _ _ _ _ _ B C1 X1 (frame_refl _)) as (f1 & m1 & nout & k2 & vh & vx & E & A1 & A2 & A3 & A4 & A5 & A6 & A7 & A8 & A9 & A10). destruct (pass_shot _ _ _ _ _ _ _ _ _ B' C2 X2 FR) as (f1' & m1' & nout' & k2' & vh' & vx' & E' & A1' & A2' & A3' & A4' & A5' & A6' & A7' & A8' & A9' & A10').
    rewrite X7 in A2. injection A2 as <-. rewrite X8 in A2'. injection A2' as <-.
    destruct (UV c Hc) as (f2 & f2' & v & v' & Z1 & Z2 & Z3 & Z4 & Z5). rewrite A1 in Z1. injection Z1 as <-. rewrite A1' in Z2. injection Z2 as <-.
    assert (VX : forall x j, (x < Nelem g)%nat -> (j < p_pol (q_p s))%nat -> vx' x j = vx x j).
    { assert (FD : f_frozen f = Some true \/ f_frozen f <> Some true) by (destruct (f_frozen f) as [[|]|]; [left; reflexivity|right; discriminate|right; discriminate]). destruct FD as [FD|FD].
      - specialize (A9 FD). rewrite X6 in A9'. specialize (A9' FD). rewrite A9, A9' in X9. exact X9.
      - specialize (A10 FD). rewrite X6 in A10'. specialize (A10' FD). rewrite SD in A10'. destruct (ps_sdft o).
        + rewrite Z3 in A10. injection A10 as <-. rewrite Z4 in A10'. injection A10' as <-. exact Z5.
        + specialize (A10 IS). specialize (A10' IS'). rewrite V1 in A10. injection A10 as <-. rewrite V1' in A10'. injection A10' as <-. exact VP. }
    assert (KP : k_pol (f_ks f) = p_pol (q_p s)) by apply (U c f Hc X1). pose proof (repulsion_det _ _ _ _ _ _ A5 A5') as RH.
    assert (VV : forall x j, (x < Nelem g)%nat -> (j < k_pol (f_ks f))%nat -> (fun x j => k_vnuc (f_ks f) x j + vx x j + vh x j) x j = (fun x j => k_vnuc (f_ks f) x j + vx' x j + vh' x j) x j) by (intros x j Hx Hj; cbv beta; rewrite RH, VX by (auto; congruence); reflexivity).
    destruct (shot_det_pol _ _ _ _ _ _ _ _ _ ST VV A6 A6') as (EQ & QQ). subst nout'. rewrite X5 in A3', A7'. destruct (energies_det _ _ _ _ _ _ _ _ QQ A7 A7') as (W1 & W2).
    exists f1, f1', (fun x j => (1 - f_alpha f) * n0 x j + f_alpha f * nout x j). do 4 (split; [assumption|]). split; [rewrite A4, A4'; exact VX|]. exists E, E'. auto. }
  split; [|split].
  - pose proof (body_stat _ _ _ _ _ _ B) as (R1 & R2 & _ & _ & _ & _ & R7 & _ & _ & R10 & RF). pose proof (body_stat _ _ _ _ _ _ B') as (R1' & R2' & _ & _ & _ & _ & R7' & _ & _ & R10' & RF').
    split; [congruence|]. split; [congruence|]. split; [congruence|]. split; [congruence|]. rewrite R7, R2. intros c Hc. destruct (CC c Hc) as (f & f' & n1 & A1 & A2 & A3 & A4 & A5 & _). destruct (H c Hc) as (g0 & g0' & n0 & X1 & X2 & X3 & X4 & X5 & X6 & _).
    exists f, f', n1. split; [exact A1|]. split; [exact A2|]. specialize (RF c). specialize (RF' c). rewrite X1, A1 in RF. rewrite X2, A2 in RF'. destruct RF as (Z1 & Z2 & Z3 & Z4). destruct RF' as (Z1' & Z2' & Z3' & Z4').
    split; [eapply frame_trans; [apply frame_sym; exact Z1|]; eapply frame_trans; [exact X3|exact Z1']|]. split; [congruence|]. split; [congruence|]. split; [congruence|]. auto.
  - rewrite V1, V1'. exact VP.
  - intros c Hc. destruct (CC c Hc) as (f & f' & n1 & A1 & A2 & _ & _ & _ & E & E' & A6). exists f, f', E, E'. auto.
Qed.

Lemma same_potential_refl : forall g pol a, same_potential g pol a a. Proof. intros g pol [v|]; simpl; auto. Qed.
Lemma same_potential_trans : forall g pol a b c, same_potential g pol a b -> same_potential g pol b c -> same_potential g pol a c.
Proof. intros g pol [a|] [b|] [c|]; simpl; try tauto. intros H H' x j Hx Hj. rewrite H', H by assumption. reflexivity. Qed.
Lemma alike_trans : forall g a b c, alike g a b -> alike g b c -> alike g a c.
Proof.
  intros g a b c (A1 & A2 & A3 & A4 & A5) (B1 & B2 & B3 & B4 & B5). do 4 (split; [congruence|]). intros e He. destruct (A5 e He) as (f & f' & m & C1 & C2 & C3 & C4 & C5 & C6 & C7 & C8 & C9). destruct (B5 e) as (f0 & f'' & m' & D1 & D2 & D3 & D4 & D5 & D6 & D7 & D8 & D9); [congruence|].
  rewrite C2 in D1. injection D1 as <-. rewrite C8 in D7. injection D7 as <-. exists f, f'', m. do 2 (split; [assumption|]). split; [eapply frame_trans; eauto|]. do 3 (split; [congruence|]). do 2 (split; [assumption|]). rewrite A2 in D9. eapply same_potential_trans; eauto.
Qed.

(** * Runs *)
(** The options on which the densities depend. *)
Definition same_method (o o' : psopt) : Prop := ps_alpha o' = ps_alpha o /\ ps_sdft o' = ps_sdft o /\ ps_fa o' = ps_fa o /\ ps_fb o' = ps_fb o /\ ps_target o = false /\ ps_target o' = false.

Lemma begin_alike : forall g w sched sched' d d' p o o' l l' s s', steady g (pe_env w) -> same_method o o' -> ps_cont o' = ps_cont o -> po_ab (p_opt p) = false -> passes g w sched d p o 0 l s -> passes g w sched' d' p o' 0 l' s' -> alike g (q_p s) (q_p s').
Proof.
  intros g w sched sched' d d' p o o' l l' s s' ST (MA & _ & FA & FB & _) CO AB P P'. pose proof (run_static _ _ _ _ _ _ _ _ _ P) as (R1 & R2 & _ & _ & _ & _ & R7 & _ & _ & R10 & RF). pose proof (run_static _ _ _ _ _ _ _ _ _ P') as (R1' & R2' & _ & _ & _ & _ & R7' & _ & _ & R10' & RF').
  do 4 (split; [congruence|]). rewrite R7. intros c Hc. destruct (RF c Hc) as (f0 & f & F0 & F1 & FR & SC & AL & FZ). destruct (RF' c Hc) as (f0' & f' & F0' & F1' & FR' & SC' & AL' & FZ'). rewrite F0 in F0'. injection F0' as <-.
  assert (CP : computed p c) by (split; [exact Hc|congruence]).
  apply passes_0 in P. destruct P as (p0 & nf & _ & S & _ & _ & ->). apply passes_0 in P'. destruct P' as (p0' & nf' & _ & S' & _ & _ & ->). cbn [q_p] in *.
  assert (X : exists m, k_n (f_ks f) = Some m /\ k_n (f_ks f') = Some m /\ same_potential g (p_pol p0) (k_vext (f_ks f)) (k_vext (f_ks f'))).
  { destruct (ps_cont o) eqn:HC.
    - destruct (start_frag _ _ _ _ _ _ S c CP) as (h & hi & h1 & h' & X1 & X2 & X3 & X4 & X5). destruct (start_frag _ _ _ _ _ _ S' c CP) as (j & ji & j1 & j' & Y1 & Y2 & Y3 & Y4 & Y5). rewrite F0 in X1, Y1. injection X1 as <-. injection Y1 as <-. rewrite F1 in X4. injection X4 as <-. rewrite F1' in Y4. injection Y4 as <-.
      apply guess_frag_inv in X3. destruct X3 as (_ & m & N1 & Z). rewrite HC in Z. subst h1. apply guess_frag_inv in Y3. destruct Y3 as (_ & m' & N1' & Z). rewrite CO in Z. subst j1. exists m. rewrite X2 in N1. rewrite X5, Y5, X2, Y2. split; [exact N1|]. split; [exact N1|apply same_potential_refl].
    - destruct (start_shot _ _ _ _ _ _ S HC c f0 CP F0) as (h & m & k2 & A1 & A2 & A3 & A4). destruct (start_shot _ _ _ _ _ _ S' CO c f0 CP F0) as (h' & m' & k2' & B1 & B2 & B3 & B4). rewrite F1 in A1. injection A1 as <-. rewrite F1' in B1. injection B1 as <-.
      destruct (shot_det _ _ _ _ _ _ _ _ _ ST (fun x j _ => eq_refl) A4 B4) as (-> & _). exists m. rewrite A3, B3. split; [exact A2|]. split; [exact B2|]. simpl. auto. }
  destruct X as (m & N1 & N2 & V). exists f, f', m. do 2 (split; [assumption|]). split; [eapply frame_trans; [apply frame_sym; exact FR|exact FR']|]. split; [congruence|]. rewrite MA in AL'. split; [congruence|]. split; [rewrite FZ, FZ', FA, FB; reflexivity|]. auto.
Qed.
(** A call with continuing=True starts from what the call before it left. *)
Lemma resume_alike : forall g w sched sched' d d' p o o' n l l' s t, same_method o o' -> ps_cont o' = true -> po_ab (p_opt p) = false -> passes g w sched d p o n l s -> passes g w sched' d' (q_p s) o' 0 l' t -> alike g (q_p s) (q_p t).
Proof.
  intros g w sched sched' d d' p o o' n l l' s t (MA & _ & FA & FB & _) CO AB P P'. pose proof (run_static _ _ _ _ _ _ _ _ _ P) as (R1 & R2 & _ & _ & _ & _ & R7 & _ & _ & R10 & RF). pose proof (run_static _ _ _ _ _ _ _ _ _ P') as (R1' & R2' & _ & _ & _ & _ & R7' & _ & _ & R10' & RF').
  do 4 (split; [congruence|]). intros c Hc. destruct (RF c) as (f0 & f & F0 & F1 & FR & SC & AL & FZ); [congruence|]. destruct (RF' c Hc) as (f0' & f' & F0' & F1' & FR' & SC' & AL' & FZ'). rewrite F1 in F0'. injection F0' as <-.
  assert (CP : computed (q_p s) c) by (split; [exact Hc|congruence]).
  apply passes_0 in P'. destruct P' as (p0 & nf & _ & S & _ & _ & ->). cbn [q_p] in *.
  destruct (start_frag _ _ _ _ _ _ S c CP) as (h & hi & h1 & h' & X1 & X2 & X3 & X4 & X5). rewrite F1 in X1. injection X1 as <-. rewrite F1' in X4. injection X4 as <-. apply guess_frag_inv in X3. destruct X3 as (_ & m & N1 & Z). rewrite CO in Z. subst h1. rewrite X2 in *.
  exists f, f', m. do 2 (split; [assumption|]). split; [exact FR'|]. split; [congruence|]. rewrite MA in AL'. split; [congruence|]. split; [rewrite FZ, FZ', FA, FB; reflexivity|]. split; [exact N1|]. rewrite X5. split; [exact N1|apply same_potential_refl].
Qed.

Section Runs.
  Variables (g : grid) (w : penv) (sched sched' : Z -> comp -> list (nat * nat)) (d d' : dict) (p p' : part) (o o' : psopt) (k : nat).
  Hypotheses (ST : steady g (pe_env w)) (SM : same_method o o') (U : uniform p) (EX : explicit p) (IS : po_iso (p_opt p) = false) (AB : po_ab (p_opt p) = false).
  Hypothesis H0 : forall l s l' t, passes g w sched d p o k l s -> passes g w sched' d' p' o' 0 l' t -> alike g (q_p s) (q_p t).
  Lemma shifted_runs : forall n l s l' t, passes g w sched d p o (k + n) l s -> passes g w sched' d' p' o' n l' t -> alike g (q_p s) (q_p t) /\
    ((0 < n)%nat -> same_potential g (p_pol p) (p_V (q_p s) "vp"%string) (p_V (q_p t) "vp"%string) /\ forall c, member (p_ens p) c -> same_energy (q_p s) (q_p t) c).
  Proof.
    induction n as [|n IH]; intros l s l' t P P'.
    - rewrite Nat.add_0_r in P. split; [eauto|lia].
    - rewrite Nat.add_succ_r in P. apply passes_S in P. destruct P as (l0 & s0 & P & _ & B & _). apply passes_S in P'. destruct P' as (l0' & t0 & P' & _ & B' & _). destruct (IH _ _ _ _ P P') as (AL & _).
      destruct SM as (_ & SD & _ & _ & T & T'). destruct (run_settled _ _ _ _ _ _ _ _ _ P T) as (F & m & na & nb & nf & q & SE & _). destruct (run_settled _ _ _ _ _ _ _ _ _ P' T') as (F' & m' & na' & nb' & nf' & q' & SE' & _).
      pose proof (run_static _ _ _ _ _ _ _ _ _ P) as (R1 & R2 & _ & _ & _ & _ & R7 & _).
      destruct (pass_alike _ _ _ _ _ _ _ _ _ _ _ _ _ _ _ _ _ _ _ _ _ _ ST SD B B' AL (run_uniform _ _ _ _ _ _ _ _ _ P U) ltac:(eapply explicit_eq; [exact R1|exact EX]) ltac:(congruence) ltac:(congruence) SE SE') as (X1 & X2 & X3).
      rewrite R2 in X2. rewrite R7 in X3. auto.
  Qed.
End Runs.

(** The total energy after a pass is determined by the densities before and after it and the kinetic energies. *)
Lemma total_alike : forall g w sched sched' d d' Za Zb pol nua nub p p' F0 F0' o o' n n' l l' s0 s t0 t, made g Za Zb pol nua nub p F0 -> made g Za Zb pol nua nub p' F0' -> p_opt p' = p_opt p -> p_ens p' = p_ens p ->
  explicit p -> po_hxc (p_opt p) = "exact"%string -> po_int (p_opt p) = "dft"%string -> po_iso (p_opt p) = false -> po_ab (p_opt p) = false -> p_ens p = false -> ps_target o = false -> ps_target o' = false ->
  passes g w sched d p o n l s0 -> psc_test o s0 = Ok true -> psc_body g w o (sched (q_iter s0)) s0 = Ok s -> passes g w sched' d' p' o' n' l' t0 -> psc_test o' t0 = Ok true -> psc_body g w o' (sched' (q_iter t0)) t0 = Ok t ->
  alike g (q_p s0) (q_p t0) -> (exists nf, p_nf (q_p s0) = Some nf /\ p_nf (q_p t0) = Some nf) -> (exists nf, p_nf (q_p s) = Some nf /\ p_nf (q_p t) = Some nf) -> (forall c, member (p_ens p) c -> same_energy (q_p s) (q_p t) c) ->
  exists E, p_T (q_p s) "E"%string = Some (SC E) /\ p_T (q_p t) "E"%string = Some (SC E).
Proof.
  intros g w sched sched' d d' Za Zb pol nua nub p p' F0 F0' o o' n n' l l' s0 s t0 t M M' OO EE EX HX HI IS AB EN T T' P TT B P' TT' B' AL (n1 & N1 & N1') (n2 & N2 & N2') SE.
  destruct (run_explicit_from _ _ _ _ _ _ _ _ _ _ _ _ _ _ _ _ M (proj1 EX) HX HI IS AB EN P TT B T) as (a1 & a2 & TF & m & TC & e & vh & x & c & A1 & A2 & A3 & A4 & A5 & A6 & A7 & A8).
  destruct (run_explicit_from _ _ _ _ _ _ _ _ _ _ _ _ _ _ _ _ M' ltac:(rewrite OO; exact (proj1 EX)) ltac:(rewrite OO; exact HX) ltac:(rewrite OO; exact HI) ltac:(rewrite OO; exact IS) ltac:(rewrite OO; exact AB) ltac:(rewrite EE; exact EN) P' TT' B' T') as (b1 & b2 & TF' & m' & TC' & e' & vh' & x' & c' & B1 & B2 & B3 & B4 & B5 & B6 & B7 & B8).
  rewrite A1 in N1. injection N1 as <-. rewrite B1 in N1'. injection N1' as ->. rewrite A2 in N2. injection N2 as <-. rewrite B2 in N2'. injection N2' as ->.
  rewrite A5 in B5. injection B5 as <-. rewrite OO in B6, B7. rewrite A6 in B6. injection B6 as <-. rewrite A7 in B7. injection B7 as <-.
  assert (KD : forall y a b, kinetic_int g (pe_env w) p y a -> kinetic_int g (pe_env w) p' y b -> b = a).
  { destruct M as (_ & _ & _ & _ & PP & _), M' as (_ & _ & _ & _ & PP' & _). intros y a b [(K1 & K2)|(K1 & v1 & v2 & K2)] [(K3 & K4)|(K3 & v3 & v4 & K4)]; rewrite OO in *; congruence. }
  pose proof (KD _ _ _ A3 B3) as ->.
  assert (C : forall c, c = Ca \/ c = Cb -> TC' c = TC c /\ E_Ts (e' c) = E_Ts (e c)).
  { intros c0 Hc. destruct (A4 c0 Hc) as (f & f1 & X1 & X2 & X3 & X4 & X5). destruct (B4 c0 Hc) as (f' & f1' & Y1 & Y2 & Y3 & Y4 & Y5). assert (Mc : member (p_ens p) c0) by (rewrite EN; destruct Hc as [-> | ->]; exact Logic.I).
    destruct (SE c0 Mc) as (h & h' & E & E' & Z1 & Z2 & Z3 & Z4 & _ & Z6). rewrite X4 in Z1. injection Z1 as <-. rewrite Y4 in Z2. injection Z2 as <-. rewrite X5 in Z3. injection Z3 as <-. rewrite Y5 in Z4. injection Z4 as <-. split; [|exact Z6].
    pose proof (run_static _ _ _ _ _ _ _ _ _ P) as (_ & _ & _ & _ & _ & _ & R7 & _). destruct AL as (_ & _ & _ & _ & AF). destruct (AF c0) as (u & u' & mm & U1 & U2 & _ & _ & _ & _ & U7 & U8 & _); [congruence|]. rewrite X1 in U1. injection U1 as <-. rewrite Y1 in U2. injection U2 as <-. rewrite X2 in U7. injection U7 as <-. rewrite Y2 in U8. injection U8 as U8. rewrite U8 in Y3. eapply KD; eauto. }
  destruct (C Ca (or_introl eq_refl)) as (C1 & C2). destruct (C Cb (or_intror eq_refl)) as (C3 & C4). rewrite C1, C2, C3, C4 in B8. eexists. split; [exact A8|exact B8].
Qed.

(** What two runs agree in after the passes. *)
Definition agree (g : grid) (p P P' : part) : Prop := (exists nf, p_nf P = Some nf /\ p_nf P' = Some nf) /\
  forall c, member (p_ens p) c -> exists f f' m, p_f P c = Some f /\ p_f P' c = Some f' /\ k_n (f_ks f) = Some m /\ k_n (f_ks f') = Some m /\ same_potential g (p_pol p) (k_vext (f_ks f)) (k_vext (f_ks f')).
Definition agree_results (g : grid) (p P P' : part) : Prop := same_potential g (p_pol p) (p_V P "vp"%string) (p_V P' "vp"%string) /\ forall c, member (p_ens p) c -> same_energy P P' c.
Lemma alike_agree : forall g w sched sched' d d' p p' o o' n n' l l' s s', same_method o o' -> passes g w sched d p o n l s -> passes g w sched' d' p' o' n' l' s' -> alike g (q_p s) (q_p s') -> agree g p (q_p s) (q_p s').
Proof.
  intros g w sched sched' d d' p p' o o' n n' l l' s s' (_ & _ & _ & _ & T & T') P P' AL. pose proof (run_static _ _ _ _ _ _ _ _ _ P) as (R1 & R2 & _ & _ & _ & _ & R7 & _). destruct (run_settled _ _ _ _ _ _ _ _ _ P T) as (F & m & na & nb & nf & q & SE & _). destruct (run_settled _ _ _ _ _ _ _ _ _ P' T') as (F' & m' & na' & nb' & nf' & q' & SE' & _).
  destruct (settled_alike _ _ _ _ _ _ _ _ _ _ _ _ _ _ _ SE SE' AL) as (NN & _). split.
  - exists nf. destruct SE as (_ & (_ & _ & Z & _) & _). destruct SE' as (_ & (_ & _ & Z' & _) & _). split; congruence.
  - intros c Hc. destruct AL as (_ & _ & _ & _ & H). destruct (H c) as (f & f' & m0 & A1 & A2 & _ & _ & _ & _ & A7 & A8 & A9); [congruence|]. rewrite R2 in A9. exists f, f', m0. auto.
Qed.

Theorem same_passes : forall g w sched sched' d d' p o o' n l l' s s', steady g (pe_env w) -> uniform p -> explicit p -> po_iso (p_opt p) = false -> po_ab (p_opt p) = false -> same_method o o' -> ps_cont o' = ps_cont o ->
  passes g w sched d p o n l s -> passes g w sched' d' p o' n l' s' -> agree g p (q_p s) (q_p s') /\ ((0 < n)%nat -> agree_results g p (q_p s) (q_p s')).
Proof.
  intros g w sched sched' d d' p o o' n l l' s s' ST U EX IS AB SM CO P P'. destruct (shifted_runs g w sched sched' d d' p p o o' 0 ST SM U EX IS AB) with (n := n) (l := l) (s := s) (l' := l') (t := s') as (A & R); auto.
  - intros. eapply begin_alike; eauto.
  - split; [eapply alike_agree; eauto|exact R].
Qed.
Theorem continued_passes : forall g w sched sched1 sched2 d d1 d2 p o o1 o2 n1 n2 l l1 l2 s s1 s2, steady g (pe_env w) -> uniform p -> explicit p -> po_iso (p_opt p) = false -> po_ab (p_opt p) = false ->
  same_method o o1 -> same_method o1 o2 -> ps_cont o1 = ps_cont o -> ps_cont o2 = true ->
  passes g w sched1 d1 p o1 n1 l1 s1 -> passes g w sched2 d2 (q_p s1) o2 n2 l2 s2 -> passes g w sched d p o (n1 + n2) l s -> agree g p (q_p s) (q_p s2) /\ ((0 < n2)%nat -> agree_results g p (q_p s) (q_p s2)).
Proof.
  intros g w sched sched1 sched2 d d1 d2 p o o1 o2 n1 n2 l l1 l2 s s1 s2 ST U EX IS AB SM1 SM2 CO CT P1 P2 P.
  assert (SM : same_method o o2) by (destruct SM1 as (A1 & A2 & A3 & A4 & A5 & A6), SM2 as (B1 & B2 & B3 & B4 & B5 & B6); repeat split; congruence).
  destruct (shifted_runs g w sched sched2 d d2 p (q_p s1) o o2 n1 ST SM U EX IS AB) with (n := n2) (l := l) (s := s) (l' := l2) (t := s2) as (A & R); auto.
  - intros l9 s9 l9' t9 Q Q'. eapply alike_trans; [|eapply resume_alike; [exact SM2|exact CT|exact AB|exact P1|exact Q']].
    apply (shifted_runs g w sched sched1 d d1 p p o o1 0 ST SM1 U EX IS AB) with (n := n1) (l := l9) (l' := l1); auto. intros l0 s0 l0' t0 Q0 Q0'. exact (begin_alike _ _ _ _ _ _ _ _ _ _ _ _ _ ST SM1 CO AB Q0 Q0').
  - split; [eapply alike_agree; eauto|exact R].
Qed.

(** * The total energy *)
Lemma shifted_total : forall g w sched sched' d d' Za Zb pol nua nub p p' F0 F0' o o' k n l s l' t, steady g (pe_env w) -> same_method o o' -> made g Za Zb pol nua nub p F0 -> made g Za Zb pol nua nub p' F0' -> p_opt p' = p_opt p -> p_ens p' = p_ens p ->
  uniform p -> explicit p -> po_hxc (p_opt p) = "exact"%string -> po_int (p_opt p) = "dft"%string -> po_iso (p_opt p) = false -> po_ab (p_opt p) = false -> p_ens p = false ->
  (forall l s l' t, passes g w sched d p o k l s -> passes g w sched' d' p' o' 0 l' t -> alike g (q_p s) (q_p t)) ->
  passes g w sched d p o (k + S n) l s -> passes g w sched' d' p' o' (S n) l' t -> exists E, p_T (q_p s) "E"%string = Some (SC E) /\ p_T (q_p t) "E"%string = Some (SC E).
Proof.
  intros g w sched sched' d d' Za Zb pol nua nub p p' F0 F0' o o' k n l s l' t ST SM M M' OO EE U EX HX HI IS AB EN H0 P P'.
  destruct (shifted_runs g w sched sched' d d' p p' o o' k ST SM U EX IS AB H0 (S n) l s l' t P P') as (AL & R). destruct (R ltac:(lia)) as (_ & SE). clear R. destruct (alike_agree _ _ _ _ _ _ _ _ _ _ _ _ _ _ _ _ SM P P' AL) as (NF & _).
  rewrite Nat.add_succ_r in P. apply passes_S in P. destruct P as (l0 & s0 & P & T & B & _). apply passes_S in P'. destruct P' as (l0' & t0 & P' & T' & B' & _).
  destruct (shifted_runs g w sched sched' d d' p p' o o' k ST SM U EX IS AB H0 n l0 s0 l0' t0 P P') as (AL0 & _). destruct (alike_agree _ _ _ _ _ _ _ _ _ _ _ _ _ _ _ _ SM P P' AL0) as (NF0 & _). destruct SM as (_ & _ & _ & _ & TG & TG').
  exact (total_alike _ _ _ _ _ _ _ _ _ _ _ _ _ _ _ _ _ _ _ _ _ _ _ _ _ M M' OO EE EX HX HI IS AB EN TG TG' P T B P' T' B' AL0 NF0 NF SE).
Qed.
Theorem same_total : forall g w sched sched' d d' Za Zb pol spec nua nub opt p o o' n l l' s s', partition_init g Za Zb pol spec nua nub opt = Ok p -> (pol <= 2)%nat -> po_sym (p_opt p) = false -> steady g (pe_env w) -> explicit p -> po_hxc (p_opt p) = "exact"%string -> po_int (p_opt p) = "dft"%string ->
  po_iso (p_opt p) = false -> po_ab (p_opt p) = false -> p_ens p = false -> same_method o o' -> ps_cont o' = ps_cont o ->
  passes g w sched d p o (S n) l s -> passes g w sched' d' p o' (S n) l' s' -> exists E, p_T (q_p s) "E"%string = Some (SC E) /\ p_T (q_p s') "E"%string = Some (SC E).
Proof.
  intros g w sched sched' d d' Za Zb pol spec nua nub opt p o o' n l l' s s' IN HP SY ST EX HX HI IS AB EN SM CO P P'. destruct (init_made _ _ _ _ _ _ _ _ _ IN HP SY) as (F0 & M). pose proof (init_uniform _ _ _ _ _ _ _ _ _ IN) as U.
  eapply (shifted_total g w sched sched' d d' _ _ _ _ _ p p F0 F0 o o' 0 n); eauto. intros. eapply begin_alike; eauto.
Qed.
Theorem continued_total : forall g w sched sched1 sched2 d d1 d2 Za Zb pol spec nua nub opt p o o1 o2 n1 n2 l l1 l2 s s1 s2, partition_init g Za Zb pol spec nua nub opt = Ok p -> (pol <= 2)%nat -> po_sym (p_opt p) = false -> steady g (pe_env w) -> explicit p -> po_hxc (p_opt p) = "exact"%string ->
  po_int (p_opt p) = "dft"%string -> po_iso (p_opt p) = false -> po_ab (p_opt p) = false -> p_ens p = false ->
  same_method o o1 -> same_method o1 o2 -> ps_cont o1 = ps_cont o -> ps_cont o2 = true ->
  passes g w sched1 d1 p o1 n1 l1 s1 -> passes g w sched2 d2 (q_p s1) o2 (S n2) l2 s2 -> passes g w sched d p o (n1 + S n2) l s -> exists E, p_T (q_p s) "E"%string = Some (SC E) /\ p_T (q_p s2) "E"%string = Some (SC E).
Proof.
  intros g w sched sched1 sched2 d d1 d2 Za Zb pol spec nua nub opt p o o1 o2 n1 n2 l l1 l2 s s1 s2 IN HP SY ST EX HX HI IS AB EN SM1 SM2 CO CT P1 P2 P. destruct (init_made _ _ _ _ _ _ _ _ _ IN HP SY) as (F0 & M). pose proof (init_uniform _ _ _ _ _ _ _ _ _ IN) as U.
  assert (SM : same_method o o2) by (destruct SM1 as (A1 & A2 & A3 & A4 & A5 & A6), SM2 as (B1 & B2 & B3 & B4 & B5 & B6); repeat split; congruence).
  destruct (run_made _ _ _ _ _ _ _ _ _ _ _ _ _ _ _ P1 M) as (F1 & M1). pose proof (run_static _ _ _ _ _ _ _ _ _ P1) as (R1 & R2 & _ & _ & _ & _ & R7 & _).
  eapply (shifted_total g w sched sched2 d d2 _ _ _ _ _ p (q_p s1) F0 F1 o o2 n1 n2); eauto.
  intros l9 s9 l9' t9 Q Q'. eapply alike_trans; [|eapply resume_alike; [exact SM2|exact CT|exact AB|exact P1|exact Q']].
  apply (shifted_runs g w sched sched1 d d1 p p o o1 0 ST SM1 U EX IS AB) with (n := n1) (l := l9) (l' := l1); auto. intros l0 s0 l0' t0 Q0 Q0'. exact (begin_alike _ _ _ _ _ _ _ _ _ _ _ _ _ ST SM1 CO AB Q0 Q0').
Qed.
