(** Isolated fragments of Partition.scf follow Kohnsham.scf: both are the same iteration, stated here once. *)
From Coq Require Import Reals List Arith Lia Lra ZArith Bool String FunctionalExtensionality.
From Verif Require Import Base BaseLemmas GridModel GridSpec GridProofs HartreeModel SolverModel SolverSpec SolverProofs LibxcModel OptionsModel KSModel KSSpec KSProofs KSThms KSLoop KSEnergy KSTotal
  InverterModel PartitionModel PartitionSpec PartitionBase PartitionConstr PartitionDens PartitionFrame PartitionEnergy PartitionLoop PartitionStep PartitionKeep PartitionPass PartitionScf PartitionRun SelfConsistent NonInteracting.
Import ListNotations.
Local Open Scope R_scope.

(** * Specification *)
(** The solvers of an object like k, put into the potential v (a column per spin), deliver the density nout; k2 holds the orbitals. *)
Definition shot (g : grid) (w : env) (k : ks) (v : mat) (k2 : ks) (nout : mat) : Prop := exists it dif l k1, frame k k1 /\
  (forall i j, place k i j -> forall x, s_veff (k_sol k1 i j) x = v x j) /\ ks_density g w it dif l k1 = Ok (k2, nout).
(** The Hartree-exchange-correlation potential of an object like k with density n. *)
Definition repulsion (g : grid) (w : env) (k : ks) (n vh : mat) : Prop := exists k1 k1', frame k k1 /\ k_n k1 = Some n /\ calc_hxc_potential g w k1 = Ok k1' /\ k_vhxc k1' = Some vh.
(** The energy of an object like k with density m and the orbitals of k2. *)
Definition energy_of (g : grid) (w : env) (k k2 : ks) (m : mat) (e : num) : Prop := exists k3 k4 E, frame k k3 /\ (forall i j, k_sol k3 i j = k_sol k2 i j) /\ k_n k3 = Some m /\
  ks_energy g w k3 = Ok k4 /\ k_E k4 = Some E /\ E_E E = e.
(** Density and energy after i passes with mixing factor a in the external potential ve. *)
Inductive iterate (g : grid) (w : env) (k : ks) (ve : mat) (a : R) : nat -> mat -> num -> Prop :=
| iterate_guess : forall k2 n, shot g w k (fun x j => k_vnuc k x j + ve x j) k2 n -> iterate g w k ve a 0 n (Fin 0)
| iterate_pass : forall i n e vh k2 nout e', iterate g w k ve a i n e -> repulsion g w k n vh -> shot g w k (fun x j => k_vnuc k x j + ve x j + vh x j) k2 nout ->
    energy_of g w k k2 (fun x j => (1 - a) * n x j + a * nout x j) e' -> iterate g w k ve a (S i) (fun x j => (1 - a) * n x j + a * nout x j) e'.

(** * Determinism *)
Lemma frame_both : forall k a b, frame k a -> frame k b -> frame a b.
Proof.
  intros k a b (I1 & I2 & I3 & I4 & I5 & I6 & I7 & I8) (J1 & J2 & J3 & J4 & J5 & J6 & J7 & J8). repeat (split; [congruence|]). intros i j. specialize (I8 i j). specialize (J8 i j). unfold same_static in *. intuition congruence.
Qed.
Lemma frame_sym : forall a b, frame a b -> frame b a.
Proof. intros a b H. eapply frame_both; [exact H|apply frame_refl]. Qed.
Lemma shot_frame : forall g w k k' v k2 n, frame k k' -> shot g w k v k2 n -> shot g w k' v k2 n.
Proof.
  intros g w k k' v k2 n F (it & dif & l & k1 & A & B & C). exists it, dif, l, k1. split; [eapply frame_both; eauto|]. split; auto. intros i j Hp. apply B. destruct F as (_ & _ & _ & _ & F5 & F6 & _). unfold place in *. rewrite F5, F6 in Hp. exact Hp.
Qed.
Lemma shot_det : forall g w k v v' k2 k2' n n', steady g w -> (forall x j, (x < Nelem g)%nat -> v x j = v' x j) -> shot g w k v k2 n -> shot g w k v' k2' n' ->
  n' = n /\ forall i j, place k i j -> exists s s' r, k_sol k2 i j = set_result s r /\ k_sol k2' i j = set_result s' r /\ same_static s s' /\ forall x, (x < Nelem g)%nat -> s_veff s' x = s_veff s x.
Proof.
  intros g w k v v' k2 k2' n n' ST HV (it & dif & l & k1 & A1 & A2 & A3) (it' & dif' & l' & k1' & B1 & B2 & B3). pose proof (frame_both _ _ _ A1 B1) as F.
  assert (PL : forall i j, place k1 i j <-> place k i j) by (intros i j; destruct A1 as (_ & _ & _ & _ & I5 & I6 & _); unfold place; rewrite I5, I6; tauto).
  assert (VV : forall i j, place k1 i j -> forall x, (x < Nelem g)%nat -> s_veff (k_sol k1' i j) x = s_veff (k_sol k1 i j) x).
  { intros i j Hp x Hx. apply PL in Hp. rewrite (A2 i j Hp), (B2 i j Hp). symmetry. apply HV, Hx. }
  destruct (density_steady _ _ _ _ _ _ _ _ _ _ _ _ _ _ ST F VV A3 B3) as (E & Q). split; auto. intros i j Hp. destruct (Q i j (proj2 (PL i j) Hp)) as (r & Q1 & Q2).
  exists (k_sol k1 i j), (k_sol k1' i j), r. split; auto. split; auto. split; [apply F|]. apply VV, PL, Hp.
Qed.
Lemma repulsion_det : forall g w k n vh vh', repulsion g w k n vh -> repulsion g w k n vh' -> forall x j, vh x j = vh' x j.
Proof.
  intros g w k n vh vh' (k1 & k1' & A1 & A2 & A3 & A4) (k2 & k2' & B1 & B2 & B3 & B4) x j. pose proof (frame_both _ _ _ A1 B1) as (O & _ & _ & P & _).
  apply hxc_inv in A3. destruct A3 as (V & v & -> & CA). apply hxc_inv in B3. destruct B3 as (V' & v' & -> & CB). cbn [set_vhxc k_vhxc] in A4, B4. injection A4 as <-. injection B4 as <-.
  assert (E : forall x j, v x j = v' x j).
  { clear x j. intros x j. destruct CA as [(N1 & _ & Z1 & _)|(N1 & m & xx & cc & hh & E1 & E2 & E3 & E4 & E5)]; destruct CB as [(N2 & _ & Z2 & _)|(N2 & m' & xx' & cc' & hh' & G1 & G2 & G3 & G4 & G5)]; try (exfalso; rewrite O in N2; congruence).
    - rewrite Z1, Z2. reflexivity.
    - rewrite A2 in E1. injection E1 as <-. rewrite B2 in G1. injection G1 as <-. rewrite O, P in *. rewrite E2 in G2. injection G2 as <-. rewrite E3 in G3. injection G3 as <-. rewrite E4 in G4. injection G4 as <-. rewrite E5, G5. reflexivity. }
  rewrite O. destruct (o_sym (k_opt k1)); [|apply E]. unfold sym_avgR, sym_avg, mirror2, mirror1, mirror_flat, ravel3, square, flattenF. rewrite !E. reflexivity.
Qed.
Lemma dens_same : forall g s s' r, same_static s s' -> dens g (set_result s' r) = dens g (set_result s r).
Proof. intros. unfold dens. rewrite (density_same g s s' r) by assumption. reflexivity. Qed.
Lemma pot_same : forall g s s' r, same_static s s' -> (forall x, (x < Nelem g)%nat -> s_veff s' x = s_veff s x) -> pot_of g (set_result s' r) = pot_of g (set_result s r).
Proof. intros g s s' r S V. unfold pot_of. apply integrate1_ext. intros x Hx. rewrite (dens_same g s s' r S). cbn [set_result s_veff]. rewrite V by exact Hx. reflexivity. Qed.
Lemma energy_of_det : forall g w k k2 k2' m e e', (forall i j, place k i j -> exists s s' r, k_sol k2 i j = set_result s r /\ k_sol k2' i j = set_result s' r /\ same_static s s' /\ forall x, (x < Nelem g)%nat -> s_veff s' x = s_veff s x) ->
  energy_of g w k k2 m e -> energy_of g w k k2' m e' -> e = e'.
Proof.
  intros g w k k2 k2' m e e' Q (k3 & k4 & E & A1 & A2 & A3 & A4 & A5 & A6) (k3' & k4' & E' & B1 & B2 & B3 & B4 & B5 & B6).
  pose proof (frame_both _ _ _ A1 B1) as (O & ZA & ZB & P & L & C & VN & _). pose proof A1 as (_ & _ & _ & _ & AL & AC & _).
  assert (K : kinetic g k3 = kinetic g k3').
  { unfold kinetic. rewrite L, C. apply sumR_ext. intros i Hi. apply sumR_ext. intros j Hj. assert (Hp : place k i j) by (split; congruence). destruct (Q i j Hp) as (s & s' & r & Q1 & Q2 & Q3 & Q4).
    rewrite A2, B2, Q1, Q2, (eks_same s s' r Q3), (pot_same g s s' r Q3 Q4). reflexivity. }
  apply energy_inv in A4. destruct A4 as (E1 & n1 & v1 & C1 & C2 & C3 & _ & _ & _ & _ & _ & C4 & _ & C5 & C6). apply energy_inv in B4. destruct B4 as (E2 & n2 & v2 & D1 & D2 & D3 & _ & _ & _ & _ & _ & D4 & _ & D5 & D6).
  rewrite A5 in C1. injection C1 as <-. rewrite B5 in D1. injection D1 as <-. rewrite A3 in C2. injection C2 as <-. rewrite B3 in D2. injection D2 as <-. rewrite P, VN in D4. rewrite ZA, ZB in D5. rewrite <- A6, <- B6.
  destruct C6 as [(N1 & ->)|(N1 & vh & h & Ex & ex & vx & Ec & ec & vc & Eh & X1 & X2 & X3 & X4 & X5 & X6 & X7 & -> & _)]; destruct D6 as [(N2 & ->)|(N2 & vh' & h' & Ex' & ex' & vx' & Ec' & ec' & vc' & Eh' & Y1 & Y2 & Y3 & Y4 & Y5 & Y6 & Y7 & -> & _)]; try (exfalso; rewrite O in N2; congruence).
  - rewrite K, C4, D4, C5, D5. reflexivity.
  - rewrite O, P in *. rewrite X3 in Y3. injection Y3 as <-. rewrite X4 in Y4. injection Y4 as <- <- <-. rewrite X5 in Y5. injection Y5 as <- <- <-. rewrite K, C4, D4, C5, D5, X7, Y7. reflexivity.
Qed.
Lemma iterate_det : forall g w k ve ve' a i n e n' e', steady g w -> (forall x j, (x < Nelem g)%nat -> ve x j = ve' x j) -> iterate g w k ve a i n e -> iterate g w k ve' a i n' e' -> n' = n /\ e' = e.
Proof.
  intros g w k ve ve' a i n e n' e' ST HV H. revert n' e'. induction H as [k2 n S|i n e vh k2 nout e1 H IH R S E]; intros n' e' H'; inversion H'; subst.
  - edestruct (shot_det g w k) as (-> & _); [exact ST| |exact S|eassumption|auto]. intros x j Hx. cbv beta. rewrite HV by exact Hx. reflexivity.
  - match goal with X : iterate g w k ve' a i ?m ?f |- _ => destruct (IH m f X) as (-> & _) end.
    match goal with X : repulsion g w k n ?v |- _ => lazymatch v with vh => fail | _ => pose proof (repulsion_det _ _ _ _ _ _ R X) as RD end end.
    match goal with X : shot g w k ?v ?q ?m |- _ => lazymatch q with k2 => fail | _ => idtac end;
      assert (VV : forall x j, (x < Nelem g)%nat -> (fun x j => k_vnuc k x j + ve x j + vh x j) x j = v x j) by (intros x j Hx; cbv beta; rewrite HV by exact Hx; rewrite RD; reflexivity);
      destruct (shot_det g w k _ _ _ _ _ _ ST VV S X) as (-> & QQ) end.
    split; [reflexivity|]. symmetry. eapply energy_of_det; eauto.
Qed.
Lemma iterate_frame : forall g w k k' ve a i n e, frame k k' -> iterate g w k ve a i n e -> iterate g w k' ve a i n e.
Proof.
  intros g w k k' ve a i n e F H. assert (V : k_vnuc k' = k_vnuc k) by apply F. induction H as [k2 n S|i n e vh k2 nout e1 H IH R S E].
  - apply iterate_guess with k2. rewrite V. eapply shot_frame; eauto.
  - apply iterate_pass with e vh k2; auto.
    + destruct R as (k1 & k1' & A & B). exists k1, k1'. split; [eapply frame_both; eauto|exact B].
    + rewrite V. eapply shot_frame; eauto.
    + destruct E as (k3 & k4 & E & A & B). exists k3, k4, E. split; [eapply frame_both; eauto|exact B].
Qed.

(** * Kohnsham.scf *)
Theorem ks_iterates : forall g w o sched k st, so_cont o = false -> so_flip o = false -> scf_trace g w o sched k st ->
  exists n, k_n (c_ks st) = Some n /\ k_vext (c_ks st) = Some (outer k) /\ iterate g w k (outer k) (so_alpha o) (Z.to_nat (c_iter st - 1)) n (c_oldE st).
Proof.
  intros g w o sched k st HC HF T. induction T as [k0 S|st st' T IH TE B].
  - destruct (start_guess g w o sched k HC k0 S) as (k1 & k2 & n0 & (G1 & G2 & G3) & F & V & N & SO). exists n0. cbn [c_ks c_iter c_oldE]. split; auto. split; auto.
    apply iterate_guess with k2. exists false, (Fin 0), (sched 0%Z), k1. auto.
  - destruct IH as (n & N & V & IT). pose proof (trace_frame _ _ _ _ _ _ T) as (FT & IB & _). pose proof (body_frame _ _ _ _ _ _ B) as (_ & IS & _).
    pose proof B as B'. apply KSLoop.body_inv in B'. destruct B' as (_ & k1 & ve & vh & sol & k3 & nout & n1 & k4 & k5 & E & r & X & E1 & E2 & D & DD & N1 & EN & C & KE & RR & ->). rewrite HF in *. cbn [c_ks c_oldE c_iter] in *.
    destruct (hxc_frame _ _ _ _ X) as (Fa & Na & Va & Sa). assert (VE : ve = outer k) by congruence. subst ve.
    set (kk := set_sol (set_veffs k1 (Some (add3 (k_vnuc k1) (outer k) vh))) sol) in *.
    assert (Fk : frame k kk). { eapply frame_trans; [exact FT|]. eapply frame_trans; [exact Fa|]. repeat (split; [reflexivity|]). apply (distribute_scf_static _ _ _ D). }
    pose proof DD as DD'. apply density_inv in DD'. destruct DD' as (sol' & n2 & K3 & _).
    assert (N1' : n1 = n) by (rewrite K3 in N1; unfold kk in N1; cbn [set_sol k_n set_veffs] in N1; congruence). subst n1.
    apply energy_keep in EN as EK. destruct EK as (E' & VV & K4). apply chempot_keep in C. destruct C as (u & ->).
    exists (mixed o n nout). split; [rewrite K4; reflexivity|]. split.
    { rewrite K4, K3. unfold kk. cbn [set_u set_EV set_n set_sol set_veffs k_vext]. exact E1. }
    replace (Z.to_nat (c_iter st + 1 - 1)) with (S (Z.to_nat (c_iter st - 1))) by lia. unfold mixed in *. apply iterate_pass with (c_oldE st) vh k3; [exact IT| | |]; [|unfold shot|].
    + exists (c_ks st), k1. repeat (split; [assumption|]). assumption.
    + exists (so_iter o), (if so_iter o && so_cont o then Fin 0 else c_diff st), (sched (c_iter st)), kk. split; [exact Fk|]. split; [|exact DD]. intros i j Hp x. unfold kk. cbn [set_sol k_sol].
      apply distribute_scf_ok in D. destruct D as (D1 & _). assert (Hp' : place k1 i j) by (destruct (frame_trans _ _ _ FT Fa) as (_ & _ & _ & _ & I5 & I6 & _); unfold place; rewrite I5, I6; exact Hp). destruct (D1 i j Hp') as (_ & ->).
      cbn [set_veff s_veff]. unfold add3. destruct (frame_trans _ _ _ FT Fa) as (_ & _ & _ & _ & _ & _ & -> & _). reflexivity.
    + exists (set_n k3 (Some (mixed o n nout))), k4, E. split; [|split; [|split; [|split; [exact EN|split; [exact KE|reflexivity]]]]].
      * eapply frame_trans; [exact Fk|]. pose proof (density_frame _ _ _ _ _ _ _ _ DD) as (J1 & J2 & J3 & J4 & J5 & J6 & J7 & J8). repeat (split; [assumption|]). exact J8.
      * intros. reflexivity.
      * reflexivity.
Qed.

(** * Partition.scf with isolated fragments *)
Lemma step_energy : forall g w o l dif vp f f', step_frag g w o l dif vp f = Ok f' -> exists k0 k1 k2 n nout k3 k4 E, set_effective_potential k0 = Ok k1 /\ frame (f_ks f) k0 /\ k_vhxc k0 = k_vhxc (f_ks f) /\ k_vext k0 = k_vext (f_ks f') /\
  ks_density g w (ps_iter o) dif l k1 = Ok (k2, nout) /\ k_n (f_ks f) = Some n /\ k_n k3 = Some (fun x j => (1 - f_alpha f) * n x j + f_alpha f * nout x j) /\ frame k2 k3 /\ k_sol k3 = k_sol k2 /\ ks_energy g w k3 = Ok k4 /\ f_ks f' = k4 /\ k_E k4 = Some E.
Proof.
  intros g w o l dif vp f f' H. unfold step_frag in H.
  match type of H with bind ?m _ = _ => destruct m as [k0|] eqn:E0; [|discriminate] end. cbn [bind] in H.
  destruct (set_effective_potential k0) as [k1|] eqn:E1; [|discriminate]. cbn [bind] in H. destruct (ks_density g w (ps_iter o) dif l k1) as [[k2 nout]|] eqn:D; [|discriminate]. cbn [bind fst snd] in H.
  destruct (frag_chempot (fk f k2)) as [f1|] eqn:C; [|discriminate]. cbn [bind] in H. destruct (need (k_n (f_ks f1))) as [n|] eqn:N; [|discriminate]. cbn [bind] in H. cbv zeta in H.
  match type of H with bind (ks_energy g w ?k) _ = _ => destruct (ks_energy g w k) as [k4|] eqn:E; [|discriminate] end. cbn [bind] in H. injection H as <-. cbn [fk f_ks].
  assert (F0 : frame (f_ks f) k0 /\ k_vhxc k0 = k_vhxc (f_ks f) /\ k_n k0 = k_n (f_ks f)).
  { destruct (f_frozen f) as [[|]|]; [injection E0 as <-; split; [apply frame_refl|auto]| |]; (destruct (ps_sdft o); [destruct (attr (f_V f) "vp"); [|discriminate E0]; cbn [bind] in E0|]; injection E0 as <-; (split; [repeat split|split; reflexivity])). }
  unfold frag_chempot in C. cbn [fk f_ks] in C. destruct (calc_chempot k2) as [k2'|] eqn:C'; [|discriminate]. cbn [bind] in C. injection C as <-. apply chempot_keep in C'. destruct C' as (u & ->). cbn [fk f_ks set_u k_n] in *.
  pose proof (eff_pot _ _ E1) as (ve & vh & _ & _ & _ & _ & _ & NX & VX & _).
  pose proof (density_inv _ _ _ _ _ _ _ _ D) as (sol & n2 & K2 & _). pose proof (energy_keep _ _ _ _ E) as (EE & V & K4).
  exists k0, k1, k2, n, nout. exists (set_n (set_u k2 (Some u)) (Some (fun x s => (1 - f_alpha f) * n x s + f_alpha f * nout x s))), k4, EE.
  split; [exact E1|]. split; [apply F0|]. split; [apply F0|]. split; [|split; [exact D|split; [|split; [reflexivity|split; [|split; [reflexivity|split; [exact E|split; [reflexivity|]]]]]]]].
  - rewrite K4, K2. cbn [set_EV set_n set_u set_sol k_vext]. symmetry. exact VX.
  - apply need_some in N. rewrite K2 in N. cbn [set_sol k_n fhomo fk f_ks set_u] in N. rewrite <- (proj2 (proj2 F0)). congruence.
  - repeat (split; [reflexivity|]). intros. apply same_static_refl.
  - rewrite K4. reflexivity.
Qed.

Theorem part_iterates : forall g w sched d p o n l s, passes g w sched d p o n l s -> po_iso (p_opt p) = true -> ps_cont o = false -> forall c f0 a, computed p c -> p_f p c = Some f0 -> step_size (ps_alpha o) c = Some a ->
  exists f m e, p_f (q_p s) c = Some f /\ k_n (f_ks f) = Some m /\ (exists v, k_vext (f_ks f) = Some v /\ forall x j, v x j = 0) /\ iterate g (pe_env w) (f_ks f0) (fun _ _ => 0) a n m e /\
    ((0 < n)%nat -> exists E, k_E (f_ks f) = Some E /\ E_E E = e).
Proof.
  intros g w sched d p o n l s H IS HC c f0 a Hc F0 HA. induction H as [p0 nf O S N|n l s s' HP IH T B].
  - cbn [q_p]. destruct (start_frag _ _ _ _ _ _ S c Hc) as (f & fi & f1 & f' & X1 & X2 & X3 & X4 & X5). rewrite F0 in X1. injection X1 as <-.
    pose proof (guess_frag_inv _ _ _ _ _ _ X3) as (_ & m & N1 & Y). rewrite HC in Y. destruct Y as (_ & _ & _ & _ & VX & _).
    unfold guess_frag in X3. rewrite HC in X3. destruct (set_effective_potential _) as [k1|] eqn:E1; [|discriminate]. cbn [bind] in X3. destruct (ks_density _ _ _ _ _ _) as [[k2 n2]|] eqn:D; [|discriminate]. cbn [bind fst snd] in X3.
    unfold frag_chempot in X3. cbn [fk f_ks] in X3. destruct (calc_chempot _) as [k2'|] eqn:C'; [|discriminate]. cbn [bind] in X3. injection X3 as <-. apply chempot_keep in C'. destruct C' as (u & ->). cbn [fhomo fk f_ks set_u set_n k_n] in N1. injection N1 as <-.
    exists f', n2, (Fin 0). split; auto. rewrite X5. split; [reflexivity|]. split; [eexists; split; [exact VX|reflexivity]|]. split; [|lia].
    pose proof (eff_frame _ _ E1) as F1. apply eff_pot in E1. destruct E1 as (ve & vh & A1 & A2 & A3 & A4 & _). cbn [set_vhxc set_vext k_vext k_vhxc k_vnuc] in A1, A2, A3, A4. injection A1 as <-. injection A2 as <-. rewrite X2 in *.
    apply iterate_guess with k2. exists (ps_iter o), (Fin 0), (sched 0%Z c), k1. split; [exact F1|]. split; [|exact D]. intros i j Hp x. destruct (A4 i j Hp) as (_ & ->). cbn [set_veff s_veff]. unfold add3. ring.
  - destruct IH as (f & m & e & I1 & I2 & (v & I3 & I4) & I5 & _). pose proof (run_static _ _ _ _ _ _ _ _ _ HP) as (R1 & _ & _ & _ & _ & _ & R7 & _ & _ & _ & R).
    destruct (R c (proj1 Hc)) as (f0' & ff & Y1 & Y2 & Y3 & _ & Y5 & _). rewrite F0 in Y1. injection Y1 as <-. rewrite I1 in Y2. injection Y2 as <-. rewrite HA in Y5. injection Y5 as ->.
    apply PartitionLoop.body_inv in B. destruct B as (pa & ra & fla & WA & _ & ->). assert (Qa : q_p (psc_next o s pa ra fla) = pa) by (destruct ra as [[? ?] ?]; reflexivity). rewrite Qa. clear Qa.
    assert (C' : In c (comps_ab (q_p s))) by (apply computed_in; unfold computed; rewrite R1, R7; exact Hc).
    destruct (work_frag _ _ _ _ _ _ _ WA) as (pa3 & pav & va & U1 & U2 & _ & _ & _ & _ & U5). destruct (U5 c C') as (g1 & g2 & g3 & g4 & g5 & V1 & V2 & V3 & V4 & V5 & V6 & V7 & V8 & _).
    rewrite I1 in V1. injection V1 as <-. assert (IS' : po_iso (p_opt pa3) = true) by (rewrite (proj1 U2), R1; exact IS). destruct (iso_vp _ _ _ _ U1 IS') as (Ea & Fa & _). cbn [fst snd] in *. subst va.
    destruct (Fa c) as (z1 & Z1 & Z2); [rewrite (comps_ab_stat _ _ U2); exact C'|]. rewrite V3 in Z1. injection Z1 as <-. rewrite V4 in Z2. injection Z2 as ->.
    apply hxc_frag_inv in V2. destruct V2 as ((L1 & L1' & L3 & L4 & L5 & L6) & L7 & L8 & L9 & _ & _ & k & vv & L12 & L13 & L14 & L15 & _).
    assert (VX : exists v', k_vext (f_ks g4) = Some v' /\ forall x j, v' x j = 0).
    { apply step_inv in V6. destruct V6 as (_ & x & _ & _ & _ & _ & G1 & _ & _ & _ & G5 & _). rewrite G5. unfold new_vext in G1. cbn [fV f_frozen f_V f_ks] in G1. unfold attr in G1. rewrite aset_same in G1. cbn [have bind] in G1.
      destruct (f_frozen g2) as [[|]|]; [injection G1 as <-; rewrite L9; eauto| |]; (destruct (ps_sdft o); injection G1 as <-; eexists; (split; [reflexivity|reflexivity])). }
    apply step_energy in V6. destruct V6 as (k0 & k1 & k2 & n1 & nout & k3 & k4 & E & S1 & S2 & S3 & S4 & S5 & S6 & S7 & S8 & S9 & S10 & S11 & S12). cbn [fV f_ks f_alpha] in *.
    destruct VX as (vx & VX1 & VX2). assert (NE : n1 = m) by congruence. subst n1. rewrite L3 in S7.
    exists g5, (fun x j => (1 - f_alpha f) * m x j + f_alpha f * nout x j), (E_E E). split; [exact V7|]. split; [|split; [|split]].
    + pose proof (energy_keep _ _ _ _ S10) as (EE & VV & K4). rewrite V8, S11, K4. cbn [set_EV k_n]. exact S7.
    + exists vx. rewrite V8. auto.
    + assert (F1 : frame (f_ks f) k1) by (eapply frame_trans; [exact L1|]; eapply frame_trans; [exact S2|]; apply eff_frame, S1).
      apply iterate_pass with e vv k2; [exact I5| | |].
      * exists (f_ks f), k. split; [exact Y3|]. auto.
      * exists (ps_iter o), (q_dif s), (sched (q_iter s) c), k1. split; [eapply frame_trans; eauto|]. split; [|exact S5]. intros i j Hp x. apply eff_pot in S1. destruct S1 as (ve & vh & A1 & A2 & A3 & A4 & _).
        assert (F0k : frame (f_ks f0) k0) by (eapply frame_trans; [exact Y3|]; eapply frame_trans; [exact L1|exact S2]).
        assert (Hp' : place k0 i j) by (destruct F0k as (_ & _ & _ & _ & J5 & J6 & _); unfold place in *; rewrite J5, J6; exact Hp). destruct (A4 i j Hp') as (_ & ->). cbn [set_veff s_veff]. unfold add3.
        destruct F0k as (_ & _ & _ & _ & _ & _ & -> & _). assert (ve = vx) as -> by congruence. rewrite VX2. assert (VH : vh x j = vv x j). { apply L15. rewrite <- S3. exact A2. } rewrite VH. ring.
      * exists k3, k4, E. split; [eapply frame_trans; [exact Y3|]; eapply frame_trans; [exact F1|]; eapply frame_trans; [eapply density_frame; exact S5|exact S8]|]. split; [intros; rewrite S9; reflexivity|]. split; [exact S7|]. auto.
    + intros _. exists E. split; [rewrite V8, S11; exact S12|reflexivity].
Qed.

(** * The two programs agree *)
Theorem isolated_as_kohnsham : forall g w sched d p o n l s c f0 a ko ksched k st, steady g (pe_env w) -> passes g w sched d p o n l s -> po_iso (p_opt p) = true -> ps_cont o = false ->
  computed p c -> p_f p c = Some f0 -> step_size (ps_alpha o) c = Some a ->
  scf_trace g (pe_env w) ko ksched k st -> frame (f_ks f0) k -> k_vext k = None -> so_cont ko = false -> so_flip ko = false -> so_alpha ko = a -> c_iter st = (Z.of_nat n + 1)%Z ->
  exists f m, p_f (q_p s) c = Some f /\ k_n (f_ks f) = Some m /\ k_n (c_ks st) = Some m /\ ((0 < n)%nat -> exists E, k_E (f_ks f) = Some E /\ c_oldE st = E_E E).
Proof.
  intros g w sched d p o n l s c f0 a ko ksched k st ST HP IS HC Hc F0 HA T F V KC KF KA IT.
  destruct (part_iterates _ _ _ _ _ _ _ _ _ HP IS HC c f0 a Hc F0 HA) as (f & m & e & A1 & A2 & _ & A4 & A5).
  destruct (ks_iterates _ _ _ _ _ _ KC KF T) as (m' & B1 & _ & B3). rewrite IT, KA in B3. replace (Z.to_nat (Z.of_nat n + 1 - 1)) with n in B3 by lia.
  apply (iterate_frame _ _ _ k) in A4; [|exact F]. assert (VE : forall x j, (x < Nelem g)%nat -> (fun _ _ : nat => 0) x j = outer k x j) by (intros; unfold outer; rewrite V; reflexivity).
  destruct (iterate_det _ _ _ _ _ _ _ _ _ _ _ ST VE A4 B3) as (-> & E). exists f, m. split; auto. split; auto. split; auto. intros Hn. destruct (A5 Hn) as (X & X1 & X2). exists X. split; auto. congruence.
Qed.

(** * Without electron-electron interaction *)
Lemma repulsion_none : forall g w k n vh, o_int (k_opt k) = "ni"%string -> repulsion g w k n vh -> forall x j, vh x j = 0.
Proof.
  intros g w k n vh NI (k1 & k1' & A1 & A2 & A3 & A4) x j. apply hxc_inv in A3. destruct A3 as (V & v & -> & CA). cbn [set_vhxc k_vhxc] in A4. injection A4 as <-. destruct A1 as (O & _).
  destruct CA as [(_ & _ & Z1 & _)|(N1 & _)]; [|exfalso; rewrite O in N1; congruence].
  destruct (o_sym (k_opt k1)); [|apply Z1]. unfold sym_avgR, sym_avg, mirror2, mirror1, mirror_flat, ravel3, square, flattenF. rewrite !Z1. field.
Qed.
Lemma ni_iterate : forall g w k ve a a' i n e n0 e0, steady g w -> o_int (k_opt k) = "ni"%string -> iterate g w k ve a i n e -> iterate g w k ve a' 0 n0 e0 -> n = n0.
Proof.
  intros g w k ve a a' i n e n0 e0 ST NI H H0. inversion H0 as [k2 n' S0|]; subst. clear H0. induction H as [k3 n S|i n e vh k3 nout e' H IH RP S EN].
  - symmetry. exact (proj1 (shot_det _ _ _ _ _ _ _ _ _ ST (fun x j _ => eq_refl) S S0)).
  - rewrite IH. assert (E : nout = n0).
    { symmetry. refine (proj1 (shot_det _ _ _ _ _ _ _ _ _ ST _ S S0)). intros x j _. rewrite (repulsion_none _ _ _ _ _ NI RP). ring. }
    rewrite E. apply functional_extensionality. intros x. apply functional_extensionality. intros j. ring.
Qed.
Lemma iterate_zero : forall g w k ve a a' i n e, iterate g w k ve a i n e -> exists n0, iterate g w k ve a' 0 n0 (Fin 0).
Proof. intros g w k ve a a' i n e H. induction H; eauto. exists n. econstructor. eassumption. Qed.
Lemma ni_iterate_energy : forall g w k ve a a' i i' n n' e e', steady g w -> o_int (k_opt k) = "ni"%string -> iterate g w k ve a (S i) n e -> iterate g w k ve a' (S i') n' e' -> e = e'.
Proof.
  intros g w k ve a a' i i' n n' e e' ST NI H H'. destruct (iterate_zero _ _ _ _ _ 0 _ _ _ H) as (n0 & Z).
  inversion H as [|? n1 e1 vh k3 nout ? H1 RP SH EN]; subst. inversion H' as [|? n1' e1' vh' k3' nout' ? H1' RP' SH' EN']; subst.
  pose proof (ni_iterate _ _ _ _ _ _ _ _ _ _ _ ST NI H Z) as E. pose proof (ni_iterate _ _ _ _ _ _ _ _ _ _ _ ST NI H' Z) as E'. rewrite E in EN. rewrite E' in EN'.
  refine (energy_of_det _ _ _ _ _ _ _ _ (proj2 (shot_det _ _ _ _ _ _ _ _ _ ST _ SH SH')) EN EN').
  intros x j _. rewrite (repulsion_none _ _ _ _ _ NI RP), (repulsion_none _ _ _ _ _ NI RP'). reflexivity.
Qed.
(** Isolated components without interaction keep the density of the initial guess; their energies do not change after the first pass. *)
Theorem ni_isolated : forall g w sched d p o n l s n' l' s' c f0 a, steady g (pe_env w) -> passes g w sched d p o n l s -> passes g w sched d p o n' l' s' -> po_iso (p_opt p) = true -> ps_cont o = false ->
  computed p c -> p_f p c = Some f0 -> o_int (k_opt (f_ks f0)) = "ni"%string -> step_size (ps_alpha o) c = Some a ->
  exists f f' m, p_f (q_p s) c = Some f /\ p_f (q_p s') c = Some f' /\ k_n (f_ks f) = Some m /\ k_n (f_ks f') = Some m /\
    ((0 < n)%nat -> (0 < n')%nat -> exists E E', k_E (f_ks f) = Some E /\ k_E (f_ks f') = Some E' /\ E_E E = E_E E').
Proof.
  intros g w sched d p o n l s n' l' s' c f0 a ST HP HP' IS HC Hc F0 NI HA.
  destruct (part_iterates _ _ _ _ _ _ _ _ _ HP IS HC c f0 a Hc F0 HA) as (f & m & e & A1 & A2 & _ & A4 & A5).
  destruct (part_iterates _ _ _ _ _ _ _ _ _ HP' IS HC c f0 a Hc F0 HA) as (f' & m' & e' & B1 & B2 & _ & B4 & B5).
  destruct (iterate_zero _ _ _ _ _ 0 _ _ _ A4) as (n0 & Z). pose proof (ni_iterate _ _ _ _ _ _ _ _ _ _ _ ST NI A4 Z) as ->. pose proof (ni_iterate _ _ _ _ _ _ _ _ _ _ _ ST NI B4 Z) as ->.
  exists f, f', n0. repeat (split; [assumption|]). intros P1 P2. destruct (A5 P1) as (E & X1 & X2). destruct (B5 P2) as (E' & Y1 & Y2). exists E, E'. repeat (split; [assumption|]).
  destruct n; [lia|]. destruct n'; [lia|]. rewrite X2, Y2. eapply ni_iterate_energy; eauto.
Qed.
