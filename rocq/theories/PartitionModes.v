(** Partition: which settings can complete a pass. *)
From Coq Require Import Reals List Arith Lia Lra ZArith Bool String.
From Verif Require Import Base BaseLemmas GridModel GridSpec GridProofs HartreeModel SolverModel SolverSpec LibxcModel OptionsModel KSModel KSSpec KSProofs KSThms KSLoop KSEnergy KSTotal
  InverterModel PartitionModel PartitionSpec PartitionBase PartitionConstr PartitionDens PartitionFrame PartitionEnergy PartitionEp PartitionTotal PartitionKin PartitionPot PartitionLoop PartitionStep PartitionPass PartitionKeep PartitionScf PartitionRun.
Import ListNotations.
Local Open Scope R_scope.

(** * Reading off a pass *)
Lemma body_calls : forall g w o sched s s', psc_body g w o sched s = Ok s' -> po_iso (p_opt (q_p s)) = false -> exists p3 p3' vp p5 E, pstat (q_p s) p3 /\ partition_potential g w p3 = Ok (p3', vp) /\
  pstat (q_p s) p5 /\ energy g (pe_env w) p5 = Ok (q_p s') /\ p_T (q_p s') "E"%string = Some (SC E).
Proof.
  intros g w o sched s s' H I. destruct (body_residual _ _ _ _ _ _ H) as (E & _ & _ & BE & _). apply body_inv in H. destruct H as (p & r & fl & W & _ & ->). rewrite next_p in *.
  apply work_inv in W. destruct W as (p1 & p2 & p3 & pv & p4 & p5 & W1 & W2 & W3 & W4 & W5 & W6 & W7 & _).
  pose proof (psame_pstat _ _ (avoid_stat _ _ _ W1)) as S1. pose proof (hxc_stat _ _ _ _ W2) as S2. destruct (mid_mirror _ _ _ W3) as (S3 & _). pose proof (psame_pstat _ _ (psc_vp_same _ _ _ _ W4)) as S4.
  pose proof (step_stat _ _ _ _ _ _ _ _ _ (comps_ab_nodup _) W5) as S5. destruct (psc_proto_stat _ _ _ _ W6) as (S6 & _).
  assert (T3 : pstat (q_p s) p3) by eauto using pstat_trans. assert (T5 : pstat (q_p s) p5) by eauto 10 using pstat_trans.
  unfold psc_vp in W4. rewrite (proj1 T3), I in W4. destruct pv as [p3' vp]. exists p3, p3', vp, p5, E. auto.
Qed.
Lemma potential_calls : forall g w p p' v, partition_potential g w p = Ok (p', v) -> po_vp (p_opt p) = "component"%string /\ exists p1 p2 p3, vp_nuclear p = Ok p1 /\ vp_kinetic g w p1 = Ok p2 /\ vp_hxc g (pe_env w) p2 = Ok p3 /\
  p_opt p1 = p_opt p /\ p_opt p2 = p_opt p /\ p_ens p1 = p_ens p /\ p_ens p2 = p_ens p /\ p_pol p1 = p_pol p /\ p_pol p2 = p_pol p.
Proof.
  intros g w p p' v H. unfold partition_potential in H. destruct (String.eqb_spec (po_vp (p_opt p)) "component") as [E|].
  - split; auto. unfold vp_component in H. destruct (vp_nuclear p) as [p1|] eqn:E1; [|discriminate]. cbn [bind] in H. destruct (vp_kinetic g w p1) as [p2|] eqn:E2; [|discriminate]. cbn [bind] in H.
    destruct (vp_hxc g (pe_env w) p2) as [p3|] eqn:E3; [|discriminate]. exists p1, p2, p3. pose proof (vp_nuclear_same _ _ E1) as (A1 & A2 & _ & _ & _ & _ & A7 & _). pose proof (vp_kinetic_same _ _ _ _ E2) as (B1 & B2 & _ & _ & _ & _ & B7 & _).
    repeat (split; [solve [auto]|]). repeat split; congruence.
  - exfalso. destruct (vp_inversion p) eqn:V; [|discriminate]. eapply vp_inversion_never; eauto.
Qed.
Lemma forL_pT : forall X (l : list X) body, (forall x p p', body x p = Ok p' -> p_T p' = p_T p) -> forall p p', forL l body p = Ok p' -> p_T p' = p_T p.
Proof.
  induction l as [|x l IH]; intros body H p p' E; cbn [forL] in E; [injection E as <-; reflexivity|].
  destruct (body x p) as [q|] eqn:B; [|discriminate]. cbn [bind] in E. rewrite (IH body H q p' E). eapply H; eauto.
Qed.
Lemma overlap_T : forall g p p', vp_overlap g p = Ok p' -> p_T p' = p_T p.
Proof.
  intros g p p' H. unfold vp_overlap in H.
  destruct (axis1 (p_na p)) as [na|]; [|discriminate]. cbn [bind] in H. destruct (have (p_nb p)) as [nb|]; [|discriminate]. cbn [bind] in H.
  destruct (overlap_S _ _ _ _) as [S|]; [|discriminate]. cbn [bind] in H. cbv zeta in H.
  match type of H with bind ?m _ = _ => destruct m as [p1|] eqn:E1; [|discriminate] end. cbn [bind] in H.
  assert (XH : p_T p' = p_T p1) by (eapply forL_pT; [|exact H]; intros c q q' E; cbv beta in E; dm E; injection E as <-; reflexivity). rewrite XH.
  assert (XE1 : p_T p1 = p_T _) by (eapply forL_pT; [|exact E1]; intros c q q' E; cbv beta in E; dm E; injection E as <-; reflexivity). rewrite XE1. reflexivity.
Qed.
Lemma EnsCorHar_T : forall g p p', EnsCorHar g p = Ok p' -> p_T p' = p_T p.
Proof.
  intros g p p' H. unfold EnsCorHar in H. destruct (negb (p_ens p)); [discriminate|].
  match type of H with bind ?m _ = _ => destruct m as [p1|] eqn:E1; [|discriminate] end. cbn [bind] in H.
  match type of H with bind ?m _ = _ => destruct m as [p2|] eqn:E2; [|discriminate] end. cbn [bind] in H.
  match type of H with bind ?m _ = _ => destruct m as [e|] eqn:E3; [|discriminate] end. cbn [bind] in H. injection H as <-. cbn [set_E p_T].
  assert (XE2 : p_T p2 = p_T p1) by (eapply forL_pT; [|exact E2]; intros c q q' E; cbv beta in E; dm E; injection E as <-; reflexivity). rewrite XE2.
  assert (XE1 : p_T p1 = p_T _) by (eapply forL_pT; [|exact E1]; intros c q q' E; cbv beta in E; dm E; injection E as <-; reflexivity). rewrite XE1. reflexivity.
Qed.
Lemma ep_hxc_T : forall g w p p', ep_hxc g w p = Ok p' -> p_T p' = p_T p.
Proof.
  intros g w p p' H. unfold ep_hxc in H. destruct (ep_dft g w p) as [p1|] eqn:E1; [|discriminate]. cbn [bind] in H. cbv zeta in H.
  assert (X : p_T p1 = p_T p).
  { clear H. unfold ep_dft in E1. destruct (String.eqb (po_int (p_opt p)) "dft"); [|injection E1 as <-; reflexivity]. cbv zeta in E1. dm E1. injection E1 as <-. reflexivity. }
  rewrite <- X. clear E1 X.
  destruct (String.eqb _ "exact"); [dm H; injection H as <-; reflexivity|]. destruct (String.eqb _ "hartree"); [dm H; injection H as <-; reflexivity|]. destruct (String.eqb _ "overlap_xc").
  { destruct (vp_overlap g p1) as [p2|] eqn:E2; [|discriminate]. cbn [bind] in H. apply overlap_T in E2. dm H; injection H as <-. exact E2. }
  destruct (String.eqb _ "overlap_hxc" || _); [|discriminate].
  destruct (vp_overlap g p1) as [p2|] eqn:E2; [|discriminate]. cbn [bind] in H. destruct (EnsCorHar g p2) as [p3|] eqn:E3; [|discriminate]. cbn [bind] in H. apply overlap_T in E2. apply EnsCorHar_T in E3. dm H; injection H as <-. cbn [set_E p_T]. congruence.
Qed.
#[local] Opaque set_E set_T set_eks set_evals.
Lemma energy_E : forall g w p p', energy g w p = Ok p' -> exists a Ep b, p_T p' "Ep"%string = Some Ep /\ p_T p' "E"%string = Some (sv_op Rplus (sv_op Rplus (SC a) Ep) (SC b)).
Proof.
  intros g w p p' H. unfold energy in H. cbv zeta in H.
  match type of H with bind ?m _ = _ => destruct m as [a|] eqn:E1; [|discriminate] end. cbn [bind] in H.
  match type of H with bind ?m _ = _ => destruct m as [b|] eqn:E2; [|discriminate] end. cbn [bind] in H.
  match type of H with bind (partition_energy g w ?q) _ = _ => set (p2 := q) in H; clearbody p2 end.
  destruct (partition_energy g w p2) as [p3|] eqn:M1; [|discriminate]. cbn [bind] in H.
  unfold attr in H at 1. destruct (p_T p3 "Ep"%string) as [Ep|] eqn:T; [|discriminate]. cbn [have bind] in H.
  match type of H with bind ?m _ = _ => destruct m as [ea|]; [|discriminate] end. cbn [bind] in H.
  match type of H with bind ?m _ = _ => destruct m as [eb|]; [|discriminate] end. cbn [bind] in H. injection H as <-.
  eexists _, Ep, _. rewrite set_evals_p_T, set_T_p_T. split; [|apply aset_same].
  rewrite aset_other by discriminate. rewrite set_E_p_T, set_T_p_T, aset_other by discriminate. exact T.
Qed.
Transparent set_E set_T set_eks set_evals.
Lemma energy_calls : forall g w p p', energy g w p = Ok p' -> po_iso (p_opt p) = false -> exists q1 q2 q3, p_opt q1 = p_opt p /\ p_opt q2 = p_opt p /\ p_ens q2 = p_ens p /\ ep_kinetic g q1 = Ok q2 /\ ep_hxc g w q2 = Ok q3 /\
  (forall a, p_T q2 "Ep_kin"%string = Some (AR a) -> exists b, p_T p' "E"%string = Some (AR b)).
Proof.
  intros g w p p' H I. destruct (energy_E _ _ _ _ H) as (x & Ep & y & T1 & T2). apply energy_mid in H. destruct H as (p2 & p3 & M1 & M2 & _ & _ & _ & _ & _ & _ & _ & _ & _ & M7 & _). pose proof M2 as (A1 & _ & _ & _ & _ & _ & A7 & _).
  unfold partition_energy in M1. rewrite A1, I in M1. destruct (ep_nuclear g p2) as [q1|] eqn:N1; [|discriminate]. cbn [bind] in M1. destruct (ep_kinetic g q1) as [q2|] eqn:N2; [|discriminate]. cbn [bind] in M1.
  destruct (ep_hxc g w q2) as [q3|] eqn:N3; [|discriminate]. cbn [bind] in M1. exists q1, q2, q3. pose proof (ep_nuclear_same _ _ _ N1) as (B1 & _ & _ & _ & _ & _ & B7 & _). pose proof (ep_kinetic_same _ _ _ N2) as (C1 & _ & _ & _ & _ & _ & C7 & _).
  split; [congruence|]. split; [congruence|]. split; [congruence|]. split; auto. split; auto. intros a Ha. rewrite <- (ep_hxc_T _ _ _ _ N3) in Ha. unfold attr in M1. rewrite Ha in M1.
  destruct (have (p_E q3 "Ep_pot"%string)); [|discriminate]. cbn [bind have] in M1. destruct (have (p_E q3 "Ep_hxc"%string)); [|discriminate]. cbn [bind] in M1. injection M1 as <-. rewrite set_T_p_T, aset_same in M7. rewrite T1 in M7. injection M7 as ->. rewrite T2. cbn [sv_op]. eauto.
Qed.

(** * Settings that never complete *)
Definition dead (p : part) : Prop := po_iso (p_opt p) = false /\ (
  po_vp (p_opt p) <> "component"%string \/
  In (po_hxc (p_opt p)) ["overlap_hxc_2"; "surprisal"]%string \/
  (po_hxc (p_opt p) = "overlap_hxc"%string /\ p_ens p = false) \/
  (po_int (p_opt p) = "ni"%string /\ po_hxc (p_opt p) <> "exact"%string) \/
  In (po_kin (p_opt p)) ["paramke"; "fixed"; "vonweiz"]%string \/
  (po_kin (p_opt p) = "twoorbital"%string /\ p_pol p = 2%nat)).
Lemma dead_hxc : forall g w p p', vp_hxc g w p = Ok p' -> ~ In (po_hxc (p_opt p)) ["overlap_hxc_2"; "surprisal"]%string /\ ~ (po_hxc (p_opt p) = "overlap_hxc"%string /\ p_ens p = false) /\ ~ (po_int (p_opt p) = "ni"%string /\ po_hxc (p_opt p) <> "exact"%string).
Proof.
  intros g w p p' H. unfold vp_hxc in H. destruct (vp_hxc_parts g w p) as [p1|] eqn:E1; [|discriminate]. cbn [bind] in H. cbv zeta in H. split; [|split].
  - intros [Q|[Q|[]]]; rewrite <- Q in H; cbn in H; discriminate.
  - intros (Q & N). rewrite Q in H. cbn [String.eqb Ascii.eqb Bool.eqb orb] in H. destruct (vp_overlap g p1) as [p2|] eqn:E2; [|discriminate]. cbn [bind] in H. unfold EnsCorHar in H.
    pose proof (vp_hxc_parts_same _ _ _ _ E1) as (_ & _ & _ & _ & _ & _ & A & _). pose proof (vp_overlap_same _ _ _ E2) as (_ & _ & _ & _ & _ & _ & B & _). rewrite B, A, N in H. discriminate.
  - intros (Q & N). unfold vp_hxc_parts in E1. rewrite Q in E1. destruct (String.eqb_spec (po_hxc (p_opt p)) "exact"); [contradiction|]. discriminate.
Qed.
Lemma dead_kin : forall g w p p', vp_kinetic g w p = Ok p' -> po_kin (p_opt p) <> "paramke"%string /\ ~ (po_kin (p_opt p) = "twoorbital"%string /\ p_pol p = 2%nat).
Proof.
  intros g w p p' H. unfold vp_kinetic in H. cbv zeta in H. split.
  - intros Q. rewrite Q in H. discriminate.
  - intros (Q & N). rewrite Q in H. cbn [String.eqb Ascii.eqb Bool.eqb] in H. unfold vpk_two in H. rewrite N in H. destruct (have (p_na p)); [|discriminate]. cbn [bind] in H. destruct (have (p_nb p)); discriminate.
Qed.
Theorem dead_never : forall g w o sched s s', dead (q_p s) -> psc_body g w o sched s <> Ok s'.
Proof.
  intros g w o sched s s' (I & D) H. destruct (body_calls _ _ _ _ _ _ H I) as (p3 & p3' & vp & p5 & E & S3 & PP & S5 & EN & TE).
  assert (Q3 : p_opt p3 = p_opt (q_p s) /\ p_ens p3 = p_ens (q_p s) /\ p_pol p3 = p_pol (q_p s)) by (destruct S3 as (A & B & _ & _ & _ & _ & C & _); auto). destruct Q3 as (O3 & N3 & P3).
  assert (O5 : p_opt p5 = p_opt (q_p s)) by apply S5.
  destruct (potential_calls _ _ _ _ _ PP) as (V & q1 & q2 & q3 & _ & K & X & O1 & O2 & N1 & N2 & P1 & P2).
  destruct (dead_hxc _ _ _ _ X) as (X1 & X2 & X3). destruct (dead_kin _ _ _ _ K) as (K1 & K2). rewrite O2, N2 in *. rewrite O1, P1 in *. rewrite O3, N3, P3 in *.
  destruct (energy_calls _ _ _ _ EN) as (r1 & r2 & r3 & R1 & R2 & R3 & R4 & R5 & R6); [rewrite O5; exact I|]. destruct (ep_kinetic_inv _ _ _ R4) as (y1 & Tm & tm & Tf & tf & Y1 & _ & _ & Y3).
  destruct D as [D|[D|[D|[D|[D|D]]]]]; try tauto. destruct D as [D|[D|[D|[]]]].
  - congruence.
  - unfold ep_kinetic in R4. rewrite R1, O5, <- D in R4. discriminate.
  - rewrite R1, O5, <- D in Y3. assert (Z : epk_vonweiz g r1 = Ok (y1, (Tm, tm, Tf, tf))) by (destruct Y3 as [[_ ?]|[[[?|?] _]|[[? _]|[[? _]|[? _]]]]]; try discriminate; auto).
    assert (Za : exists a t, Tf = AR a /\ Tm = SC t). { unfold epk_vonweiz in Z. destruct (have (p_nf r1)); [|discriminate]. cbn [bind] in Z. destruct (np_sqrt1 _ _); [|discriminate]. cbn [bind] in Z. destruct (forL _ _ _); [|discriminate]. cbn [bind] in Z. injection Z as _ <- _ <- _. eauto. }
    destruct Za as (a & t & -> & ->). assert (Zb : exists b, p_T r2 "Ep_kin"%string = Some (AR b)) by (rewrite Y1; destruct (po_ess (p_opt r1)); cbn [sv_op]; eauto). destruct Zb as (b & Zb). destruct (R6 _ Zb) as (c & Zc). congruence.
Qed.
Theorem run_not_dead : forall g w sched d p o n l s, passes g w sched d p o (S n) l s -> ~ dead p.
Proof.
  intros g w sched d p o n l s H D. apply passes_S in H. destruct H as (l0 & s0 & H & _ & B & _). destruct (run_static _ _ _ _ _ _ _ _ _ H) as (R1 & R2 & _ & _ & _ & _ & R7 & _).
  eapply dead_never; [|exact B]. unfold dead in *. rewrite R1, R2, R7. exact D.
Qed.
Lemma first_pass : forall g w sched d p o n l s, passes g w sched d p o (S n) l s -> exists s0 s1, passes g w sched d p o 0 [] s0 /\ psc_body g w o (sched 1%Z) s0 = Ok s1.
Proof.
  intros g w sched d p o. induction n as [|n IH]; intros l s H; apply passes_S in H; destruct H as (l0 & s0 & H & _ & B & _); [|eapply IH; eauto].
  pose proof H as H0. apply passes_0 in H. destruct H as (p0 & nf & _ & _ & _ & -> & E). exists s0, s. split; auto. rewrite E in B at 1. exact B.
Qed.

(** * New objects *)
Lemma energy_needs : forall g w p p', energy g w p = Ok p' -> exists f e, p_f p Ca = Some f /\ k_E (f_ks f) = Some e.
Proof.
  intros g w p p' H. unfold energy in H. cbv zeta in H. match type of H with bind ?m _ = _ => destruct m as [a|] eqn:E1; [|discriminate] end. clear H.
  assert (X : exists b, es_step (String.eqb (po_int (p_opt p)) "dft") p Ca es0 = Ok b). { unfold comps_a in E1. destruct (p_ens p); cbn [forL] in E1; destruct (es_step _ p Ca es0) as [b|]; try discriminate; eauto. }
  destruct X as (b & X). unfold es_step in X. destruct (get_f p Ca) as [f|] eqn:F; [|discriminate]. cbn [bind] in X. apply get_f_some in F. destruct (k_E (f_ks f)) as [e|] eqn:K; [|discriminate]. eauto.
Qed.
Lemma hxc_needs : forall g w p p', vp_hxc g w p = Ok p' -> po_hxc (p_opt p) = "overlap_xc"%string \/ po_hxc (p_opt p) = "overlap_hxc"%string -> exists f e, p_f p Ca = Some f /\ k_E (f_ks f) = Some e.
Proof.
  intros g w p p' H Q. unfold vp_hxc in H. destruct (vp_hxc_parts g w p) as [p1|] eqn:E1; [|discriminate]. cbn [bind] in H. cbv zeta in H. pose proof (vp_hxc_parts_same _ _ _ _ E1) as S1.
  assert (X : exists p2 p3, psame p p2 /\ energy g w p2 = Ok p3).
  { destruct Q as [Q|Q]; rewrite Q in H; cbn [String.eqb Ascii.eqb Bool.eqb orb] in H; destruct (vp_overlap g p1) as [p2|] eqn:E2; try discriminate; cbn [bind] in H; pose proof (vp_overlap_same _ _ _ E2) as S2.
    - destruct (energy g w p2) as [p3|] eqn:E3; [|discriminate]. exists p2, p3. split; auto. eapply psame_trans; eauto.
    - destruct (EnsCorHar g p2) as [p3|] eqn:E3; [|discriminate]. cbn [bind] in H. destruct (energy g w p3) as [p4|] eqn:E4; [|discriminate]. exists p3, p4. split; auto. eapply psame_trans; [exact S1|]. eapply psame_trans; [exact S2|]. eapply EnsCorHar_same; eauto. }
  destruct X as (p2 & p3 & S2 & E2). apply energy_needs in E2. destruct E2 as (f & e & F & K). destruct (psame_f _ _ _ _ S2 F) as (f0 & F0 & (Z & _)). exists f0, e. split; auto. rewrite <- Z. exact K.
Qed.
Lemma computed_Ca : forall p, In Ca (comps_ab p). Proof. intros p. unfold comps_ab. destruct (po_ab (p_opt p)), (p_ens p); simpl; auto. Qed.
Lemma overlap_needs : forall g w o sched s s', psc_body g w o sched s = Ok s' -> po_iso (p_opt (q_p s)) = false -> po_hxc (p_opt (q_p s)) = "overlap_xc"%string \/ po_hxc (p_opt (q_p s)) = "overlap_hxc"%string ->
  exists f e, p_f (q_p s) Ca = Some f /\ k_E (f_ks f) = Some e.
Proof.
  intros g w o sched s s' H I Q. apply body_inv in H. destruct H as (p & r & fl & W & _). apply work_frag in W. destruct W as (p3 & pv & vp & V & S3 & _ & _ & _ & _ & C).
  destruct (C Ca (computed_Ca _)) as (f & fh & fv & fs & f' & F1 & F2 & F3 & _). unfold psc_vp in V. rewrite (proj1 S3), I in V.
  destruct (potential_calls _ _ _ _ _ V) as (_ & q1 & q2 & q3 & N & K & X & O1 & O2 & _). destruct (hxc_needs _ _ _ _ X) as (fx & e & X1 & X2); [rewrite O2, (proj1 S3); exact Q|].
  pose proof (psame_trans _ _ _ (vp_nuclear_same _ _ N) (vp_kinetic_same _ _ _ _ K)) as SS. destruct (psame_f _ _ _ _ SS X1) as (f0 & G0 & (Z & _)). rewrite F3 in G0. injection G0 as <-.
  exists f, e. split; auto. apply hxc_frag_inv in F2. destruct F2 as (_ & _ & _ & _ & KE & _). congruence.
Qed.
Lemma eff_E : forall k k', set_effective_potential k = Ok k' -> k_E k' = k_E k.
Proof.
  intros k k' H. unfold set_effective_potential in H. destruct (need (k_vext k)); [|discriminate]. cbn [bind] in H. destruct (need (k_vhxc k)); [|discriminate]. cbn [bind] in H. cbv zeta in H.
  destruct (distribute k _) as [sol|]; [|discriminate]. cbn [bind] in H. injection H as <-. reflexivity.
Qed.
Lemma guess_E : forall g w o l f f', guess_frag g w o l f = Ok f' -> k_E (f_ks f') = k_E (f_ks f) /\ f_V f' = f_V f.
Proof.
  intros g w o l f f' H. pose proof (guess_frag_inv _ _ _ _ _ _ H) as ((_ & _ & _ & _ & _ & V) & _). split; auto. unfold guess_frag in H. destruct (ps_cont o); [destruct (k_n (f_ks f)); [|discriminate]; congruence|].
  destruct (set_effective_potential _) as [k1|] eqn:E; [|discriminate]. cbn [bind] in H. destruct (ks_density g w (ps_iter o) (Fin 0) l k1) as [[k2 n]|] eqn:D; [|discriminate]. cbn [bind fst snd] in H.
  apply chempot_inv in H. destruct H as (_ & _ & _ & _ & u & ->). apply eff_E in E. pose proof (density_inv _ _ _ _ _ _ _ _ D) as (sol & n0 & E2 & _). rewrite E2. cbn [fk f_ks set_u set_n set_sol k_E]. rewrite E. reflexivity.
Qed.
Lemma start_new : forall g w o sched p p', psc_start g w o sched p = Ok p' -> forall c, In c (comps_ab p) -> exists f f', p_f p c = Some f /\ p_f p' c = Some f' /\ k_E (f_ks f') = k_E (f_ks f) /\ f_V f' = f_V f.
Proof.
  intros g w o sched p p' H c Hc. unfold psc_start in H. destruct (psc_setup o p) as [p1|] eqn:E1; [|discriminate]. cbn [bind] in H.
  match type of H with bind ?m _ = _ => destruct m as [p2|] eqn:E2; [|discriminate] end. cbn [bind] in H. apply setup_inv in E1. destruct E1 as (A1 & A2 & _).
  assert (CE : comps_ab p1 = comps_ab p) by (rewrite A1; reflexivity). rewrite <- CE in E2. pose proof (guess_stat _ _ _ _ _ _ E2) as S2. apply guess_all in E2. destruct E2 as (_ & B & _).
  destruct (A2 c) as (f & al & C1 & _ & C3); [apply in_comps_ab in Hc; apply Hc|]. rewrite <- CE in Hc. destruct (B c Hc) as (f0 & f1 & D1 & D2 & D3). rewrite C3 in D1. injection D1 as D1.
  destruct (psc_proto_stat _ _ _ _ H) as (S3 & M3). assert (Hc2 : In c (comps_ab p2)) by (rewrite (comps_ab_stat _ _ S2); auto).
  assert (P : exists f', p_f p' c = Some f'). { destruct S3 as (_ & _ & _ & _ & _ & _ & _ & _ & _ & _ & S3). specialize (S3 c). rewrite D3 in S3. destruct (p_f p' c); [eauto|contradiction]. }
  destruct P as (f' & P). destruct (M3 c f' Hc2 P) as (f2 & q & Q1 & Q2). rewrite D3 in Q1. injection Q1 as <-. exists f, f'. split; auto. split; auto. apply guess_E in D2. rewrite Q2. cbn [fQ f_ks f_V]. destruct D2 as (-> & ->). rewrite <- D1. auto.
Qed.
(** the overlap functionals need the energies of the fragments, which are first computed after the potential *)
Theorem overlap_first_pass : forall g w sched d p o n l s f, passes g w sched d p o (S n) l s -> po_iso (p_opt p) = false -> po_hxc (p_opt p) = "overlap_xc"%string \/ po_hxc (p_opt p) = "overlap_hxc"%string ->
  p_f p Ca = Some f -> k_E (f_ks f) <> None.
Proof.
  intros g w sched d p o n l s f H I Q F E. destruct (first_pass _ _ _ _ _ _ _ _ _ H) as (s0 & s1 & P0 & B). destruct (run_static _ _ _ _ _ _ _ _ _ P0) as (R1 & _).
  destruct (overlap_needs _ _ _ _ _ _ B) as (f0 & e & F0 & E0); [rewrite R1; auto|rewrite R1; auto|]. apply passes_0 in P0. destruct P0 as (p0 & nf & _ & A2 & _ & _ & ->). cbn [q_p] in *.
  destruct (start_new _ _ _ _ _ _ A2 Ca (computed_Ca p)) as (f1 & f2 & G1 & G2 & G3 & _). congruence.
Qed.

(** the two-orbital potential is stored for the first component of each fragment only *)
Definition vk (c : comp) (p p' : part) : Prop := forall f', p_f p' c = Some f' -> exists f, p_f p c = Some f /\ f_V f' "vp_kin"%string = f_V f "vp_kin"%string.
Lemma vk_refl : forall c p, vk c p p. Proof. unfold vk; eauto. Qed.
Lemma vk_trans : forall c a b d, vk c a b -> vk c b d -> vk c a d.
Proof. unfold vk. intros c a b d H1 H2 f' F. destruct (H2 f' F) as (f & A & B). destruct (H1 f A) as (f0 & A0 & B0). exists f0. split; congruence. Qed.
Lemma vk_set : forall c p e f f', get_f p e = Ok f -> (e = c -> f_V f' "vp_kin"%string = f_V f "vp_kin"%string) -> vk c p (set_frag p e f').
Proof.
  intros c p e f f' G V h H. apply get_f_some in G. destruct (comp_dec e c) as [->|N]; [rewrite set_frag_same in H; injection H as <-; eauto|rewrite set_frag_other in H by auto; eauto].
Qed.
Lemma forL_vk : forall c X (l : list X) body, (forall x p p', In x l -> body x p = Ok p' -> vk c p p') -> forall p p', forL l body p = Ok p' -> vk c p p'.
Proof.
  intros c X. induction l as [|x l IH]; intros body H p p' E; cbn [forL] in E; [injection E as <-; apply vk_refl|].
  destruct (body x p) as [q|] eqn:B; [|discriminate]. cbn [bind] in E. eapply vk_trans; [eapply H; [left; reflexivity|exact B]|]. eapply IH; [|exact E]. intros; eapply H; [right|]; eauto.
Qed.
Ltac vks H := match type of H with context [get_f ?q ?c] => destruct (get_f q c) as [?f|] eqn:?G; [|discriminate H]; cbn [bind] in H; dm H; injection H as <-; eapply vk_set; [eassumption|intros _; cbn [fV f_V fvt]; rewrite ?aset_other by discriminate; reflexivity] end.
Lemma vp_nuclear_vk : forall c p p', vp_nuclear p = Ok p' -> vk c p p'.
Proof. intros c p p' H. unfold vp_nuclear in H. eapply forL_vk; [|exact H]. intros e q q' _ E. cbv beta in E. vks E. Qed.
Lemma vpk_two_vk : forall g c p p', vpk_two g p = Ok p' -> vk c p p'.
Proof.
  intros g c p p' H. unfold vpk_two in H. destruct (have (p_na p)); [|discriminate]. cbn [bind] in H. destruct (have (p_nb p)); [|discriminate]. cbn [bind] in H. destruct (p_pol p =? 2)%nat; [discriminate|].
  match type of H with bind ?m _ = _ => destruct m as [p1|] eqn:E1; [|discriminate] end. cbn [bind] in H. destruct (two_pot _ _ _); [|discriminate]. cbn [bind] in H. injection H as <-.
  assert (X : vk c p p1) by (eapply forL_vk; [|exact E1]; intros e q q' _ E; cbv beta in E; vks E). exact X.
Qed.
Lemma two_vk : forall g w p p', vp_kinetic g w p = Ok p' -> po_kin (p_opt p) = "twoorbital"%string -> vk CA p p'.
Proof.
  intros g w p p' H Q. unfold vp_kinetic in H. cbv zeta in H. rewrite Q in H. cbn [String.eqb Ascii.eqb Bool.eqb] in H. destruct (vpk_two g p) as [p1|] eqn:E1; [|discriminate]. cbn [bind] in H. pose proof (vpk_two_vk g CA _ _ E1) as V1. eapply vk_trans; [exact V1|].
  assert (O : p_opt p1 = p_opt p). { clear H. unfold vpk_two in E1. destruct (have (p_na p)); [|discriminate]. cbn [bind] in E1. destruct (have (p_nb p)); [|discriminate]. cbn [bind] in E1. destruct (p_pol p =? 2)%nat; [discriminate|].
    match type of E1 with bind ?m _ = _ => destruct m as [p9|] eqn:E2; [|discriminate] end. cbn [bind] in E1. destruct (two_pot _ _ _); [|discriminate]. cbn [bind] in E1. injection E1 as <-. cbn [set_vt p_opt].
    clear V1. revert E2. generalize (comps (p_ens p)). intros l. revert p Q. induction l as [|e l IH]; intros p Q E; cbn [forL] in E; [injection E as <-; reflexivity|].
    match type of E with bind ?m _ = _ => destruct m as [q|] eqn:B; [|discriminate] end. cbn [bind] in E. assert (OQ : p_opt q = p_opt p) by (dm B; injection B as <-; reflexivity). rewrite (IH q); auto. congruence. }
  unfold vpk_finish in H. rewrite O, Q in H. cbn [String.eqb Ascii.eqb Bool.eqb] in H. destruct (have (p_vt p1)); [|discriminate]. cbn [bind] in H. destruct (get_f p1 Ca) as [fa|] eqn:FA; [|discriminate]. cbn [bind] in H. destruct (have (f_vt fa)); [|discriminate]. cbn [bind] in H.
  destruct (get_f p1 Cb) as [fb|] eqn:FB; [|discriminate]. cbn [bind] in H. destruct (have (f_vt fb)); [|discriminate]. cbn [bind] in H. destruct (finite _ _ _); [|discriminate]. cbn [bind] in H. destruct (finite _ _ _); [|discriminate]. cbn [bind] in H. injection H as <-.
  intros h F. rewrite set_frag_other in F by discriminate. rewrite set_frag_other in F by discriminate. eauto.
Qed.
Lemma hxc_vk : forall g w c p p', vp_hxc g w p = Ok p' -> po_hxc (p_opt p) <> "overlap_xc"%string -> po_hxc (p_opt p) <> "overlap_hxc"%string -> vk c p p'.
Proof.
  intros g w c p p' H Q1 Q2. unfold vp_hxc in H. destruct (vp_hxc_parts g w p) as [p1|] eqn:E1; [|discriminate]. cbn [bind] in H. cbv zeta in H.
  assert (V1 : vk c p p1).
  { clear H. unfold vp_hxc_parts in E1. cbv zeta in E1. destruct (String.eqb (po_hxc (p_opt p)) "exact" && _).
    - eapply forL_vk; [|exact E1]. intros e q q' _ E. cbv beta in E. vks E.
    - destruct (negb _); [discriminate|]. destruct (have (p_nf p)); [|discriminate]. cbn [bind] in E1. destruct (v_hartree _ _ _ _); [|discriminate]. cbn [bind] in E1.
      destruct (get_xc _ _ _ _ _ _) as [[[? ?] ?]|]; [|discriminate]. cbn [bind] in E1. destruct (get_xc _ _ _ _ _ _) as [[[? ?] ?]|]; [|discriminate]. cbn [bind] in E1.
      match type of E1 with forL _ _ ?q = _ => assert (V0 : vk c p q) by (exact (vk_refl c p)) end. eapply vk_trans; [exact V0|]. eapply forL_vk; [|exact E1]. intros e q q' _ E. cbv beta in E. vks E. }
  eapply vk_trans; [exact V1|]. destruct (String.eqb_spec (po_hxc (p_opt p)) "overlap_xc"); [contradiction|]. destruct (String.eqb_spec (po_hxc (p_opt p)) "overlap_hxc"); [contradiction|]. cbn [orb bind] in H.
  destruct (String.eqb (po_hxc (p_opt p)) "exact"); [|destruct (String.eqb (po_hxc (p_opt p)) "hartree"); [|destruct (String.eqb (po_hxc (p_opt p)) "surprisal"); discriminate]];
    unfold put_hxc in H; (eapply forL_vk; [|exact H]); intros e q q' _ E; cbv beta in E; vks E.
Qed.
Lemma component_needs : forall g w p p', vp_component g w p = Ok p' -> forall c, member (p_ens p) c -> exists p1 p2 p3 f v, vp_nuclear p = Ok p1 /\ vp_kinetic g w p1 = Ok p2 /\ vp_hxc g (pe_env w) p2 = Ok p3 /\ p_f p3 c = Some f /\ f_V f "vp_kin"%string = Some v.
Proof.
  intros g w p p' H c M. pose proof H as H0. unfold vp_component in H0. destruct (vp_nuclear p) as [p1|] eqn:E1; [|discriminate]. cbn [bind] in H0. destruct (vp_kinetic g w p1) as [p2|] eqn:E2; [|discriminate]. cbn [bind] in H0.
  destruct (vp_hxc g (pe_env w) p2) as [p3|] eqn:E3; [|discriminate]. cbn [bind] in H0. match type of H0 with bind ?m _ = _ => destruct m as [p4|] eqn:E4; [|discriminate] end. cbn [bind] in H0.
  match type of H0 with bind ?m _ = _ => destruct m as [p5|] eqn:E5; [|discriminate] end. clear H0 H. exists p1, p2, p3.
  assert (F4 : p_f p4 = p_f p3). { apply (forL_names (fun nm p => do _ <- have (p_nf p); Ok (fun _ _ => 0)) vp_names p3 p4 vp_names_nodup); [reflexivity|]. rewrite <- E4. apply forL_ext. intros nm q _. destruct (have (p_nf q)); reflexivity. }
  destruct (accum_all _ _ _ (comps_nodup _) E5) as (u & q & U1 & _). destruct (U1 c (proj2 (in_comps _ _) M)) as (f & x & y & z & Y1 & _ & Y3 & _). rewrite F4 in Y1. exists f, y. auto 10.
Qed.
Lemma two_needs : forall g w o sched s s', psc_body g w o sched s = Ok s' -> po_iso (p_opt (q_p s)) = false -> po_kin (p_opt (q_p s)) = "twoorbital"%string -> p_ens (q_p s) = true ->
  po_hxc (p_opt (q_p s)) <> "overlap_xc"%string -> po_hxc (p_opt (q_p s)) <> "overlap_hxc"%string -> exists f v, p_f (q_p s) CA = Some f /\ f_V f "vp_kin"%string = Some v.
Proof.
  intros g w o sched s s' H I Q N X1 X2. apply body_inv in H. destruct H as (p & r & fl & W & _). apply work_frag in W. destruct W as (p3 & pv & vp & V & S3 & _ & _ & _ & _ & C).
  destruct (C CA) as (f & fh & fv & fs & f' & F1 & F2 & F3 & _). { apply in_comps_ab. rewrite N. split; [reflexivity|right; reflexivity]. }
  assert (O3 : p_opt p3 = p_opt (q_p s)) by apply S3. assert (N3 : p_ens p3 = true) by (destruct S3 as (_ & _ & _ & _ & _ & _ & -> & _); exact N).
  unfold psc_vp in V. rewrite O3, I in V. destruct (potential_calls _ _ _ _ _ V) as (V0 & _). unfold partition_potential in V. rewrite V0 in V. cbn [String.eqb Ascii.eqb Bool.eqb] in V.
  destruct (vp_component g w p3) as [pc|] eqn:VC; [|discriminate]. destruct (component_needs _ _ _ _ VC CA) as (q1 & q2 & q3 & fx & v & E1 & E2 & E3 & E4 & E5); [rewrite N3; simpl; auto|].
  assert (O1 : p_opt q1 = p_opt (q_p s)) by (rewrite <- O3; apply (vp_nuclear_same _ _ E1)). assert (O2 : p_opt q2 = p_opt (q_p s)) by (rewrite <- O1; apply (vp_kinetic_same _ _ _ _ E2)).
  assert (VK : vk CA p3 q3). { eapply vk_trans; [apply (vp_nuclear_vk _ _ _ E1)|]. eapply vk_trans; [eapply two_vk; [exact E2|congruence]|]. eapply hxc_vk; [exact E3|congruence|congruence]. }
  destruct (VK fx E4) as (f3 & G1 & G2). rewrite F3 in G1. injection G1 as <-. apply hxc_frag_inv in F2. destruct F2 as ((_ & _ & _ & _ & _ & FV) & _). exists f, v. split; auto. congruence.
Qed.
Theorem two_first_pass : forall g w sched d p o n l s f g0, passes g w sched d p o (S n) l s -> po_iso (p_opt p) = false -> po_kin (p_opt p) = "twoorbital"%string -> p_ens p = true ->
  p_f p Ca = Some f -> p_f p CA = Some g0 -> k_E (f_ks f) <> None \/ f_V g0 "vp_kin"%string <> None.
Proof.
  intros g w sched d p o n l s f g0 H I Q N F G.
  destruct (string_dec (po_hxc (p_opt p)) "overlap_xc") as [X|X]; [left; eapply overlap_first_pass; eauto|]. destruct (string_dec (po_hxc (p_opt p)) "overlap_hxc") as [Y|Y]; [left; eapply overlap_first_pass; eauto|]. right. intros E.
  destruct (first_pass _ _ _ _ _ _ _ _ _ H) as (s0 & s1 & P0 & B). destruct (run_static _ _ _ _ _ _ _ _ _ P0) as (R1 & _ & _ & _ & _ & _ & R7 & _).
  destruct (two_needs _ _ _ _ _ _ B) as (f0 & v & F0 & E0); try congruence. apply passes_0 in P0. destruct P0 as (p0 & nf & _ & A2 & _ & _ & ->). cbn [q_p] in *.
  destruct (start_new _ _ _ _ _ _ A2 CA) as (f1 & f2 & G1 & G2 & _ & G3). { apply in_comps_ab. rewrite N. split; [reflexivity|right; reflexivity]. } congruence.
Qed.
