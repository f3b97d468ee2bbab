(** Partition: statements about whole runs of Partition.scf. *)
From Coq Require Import Reals List Arith Lia Lra ZArith Bool String.
From Verif Require Import Base BaseLemmas GridModel GridSpec GridProofs HartreeModel SolverModel SolverSpec LibxcModel OptionsModel KSModel KSSpec KSProofs KSThms KSLoop KSEnergy KSTotal
  InverterModel PartitionModel PartitionSpec PartitionBase PartitionDens PartitionFrame PartitionEnergy PartitionLoop PartitionStep PartitionPass PartitionKeep.
Import ListNotations.
Local Open Scope R_scope.

Lemma member_dec : forall e c, member e c \/ ~ member e c. Proof. intros e c. destruct c; simpl; auto; destruct e; auto. Qed.
Lemma computed_in : forall p c, computed p c <-> In c (comps_ab p). Proof. intros. rewrite in_comps_ab. reflexivity. Qed.
Lemma in_a_match : forall (A : Type) c (x y : A), (if in_a c then x else y) = match c with Ca | CA => x | _ => y end. Proof. intros A [] x y; reflexivity. Qed.

(** * Settings of a run *)
Lemma setup_inv : forall o p p', psc_setup o p = Ok p' -> p' = with_f p (p_f p') /\
  (forall c, member (p_ens p) c -> exists f al, p_f p c = Some f /\ step_size (ps_alpha o) c = Some al /\
    p_f p' c = Some (falpha (ffrozen f (match c with Ca | CA => ps_fa o | _ => ps_fb o end)) al)) /\
  (forall c, ~ member (p_ens p) c -> p_f p' c = p_f p c).
Proof.
  intros o p p' H. unfold psc_setup in H. match type of H with bind ?m _ = _ => destruct m as [p1|] eqn:E1; [|discriminate] end. cbn [bind] in H.
  match type of H with bind ?m _ = _ => destruct m as [al|] eqn:E2; [|discriminate] end. cbn [bind] in H.
  assert (X1 : forL (comps (p_ens p)) (fun c p => do f <- get_f p c; do f' <- Ok (ffrozen f (if in_a c then ps_fa o else ps_fb o)); Ok (set_frag p c f')) p = Ok p1) by (rewrite <- E1; apply forL_ext; intros c q _; destruct (get_f q c); reflexivity).
  apply (forL_frags (fun c p f => Ok (ffrozen f (if in_a c then ps_fa o else ps_fb o)))) in X1; [|intros ? ? ? ?; reflexivity|apply comps_nodup].
  assert (X2 : forL (comps (p_ens p)) (fun c p => do f <- get_f p c; do f' <- Ok (falpha f (if in_a c then fst al else snd al)); Ok (set_frag p c f')) p1 = Ok p') by (rewrite <- H; apply forL_ext; intros c q _; destruct (get_f q c); reflexivity).
  apply (forL_frags (fun c p f => Ok (falpha f (if in_a c then fst al else snd al)))) in X2; [|intros ? ? ? ?; reflexivity|apply comps_nodup].
  destruct X1 as (A1 & A2 & A3), X2 as (B1 & B2 & B3). split; [rewrite B1, A1; reflexivity|]. split.
  - intros c Hc. apply in_comps in Hc. destruct (A2 c Hc) as (f & f1 & C1 & C2 & C3). destruct (B2 c Hc) as (f2 & f3 & D1 & D2 & D3). injection C2 as <-. injection D2 as <-.
    rewrite C3 in D1. injection D1 as <-. rewrite !in_a_match in D3. exists f. eexists. split; auto. split; [|exact D3]. unfold step_size. destruct (ps_alpha o) as [|x [|y [|]]]; try discriminate; injection E2 as <-; destruct c; reflexivity.
  - intros c Hc. rewrite B3, A3 by (rewrite in_comps; auto). reflexivity.
Qed.
Lemma start_stat : forall g w o sched p p', psc_start g w o sched p = Ok p' -> exists p1, psc_setup o p = Ok p1 /\ pstat p1 p'.
Proof.
  intros g w o sched p p' H. unfold psc_start in H. destruct (psc_setup o p) as [p1|] eqn:E1; [|discriminate]. cbn [bind] in H.
  match type of H with bind ?m _ = _ => destruct m as [p2|] eqn:E2; [|discriminate] end. cbn [bind] in H. exists p1. split; auto.
  apply setup_inv in E1. destruct E1 as (E1 & _). replace (comps_ab p) with (comps_ab p1) in E2 by (rewrite E1; reflexivity).
  eapply pstat_trans; [eapply guess_stat; exact E2|]. apply psc_proto_stat in H. apply H.
Qed.
Lemma run_stat : forall g w sched d p o n l s, passes g w sched d p o n l s -> exists p1, psc_setup o p = Ok p1 /\ pstat p1 (q_p s).
Proof.
  intros g w sched d p o n l s H. induction H as [p0 nf O S N|n l s s' HP IH T B].
  - apply start_stat in S. exact S.
  - destruct IH as (p1 & A & C). exists p1. split; auto. eapply pstat_trans; [exact C|]. apply body_inv in B. destruct B as (p' & [[E nf] dif] & fl & W & _ & ->). cbn [psc_next q_p]. eapply pass_static; eauto.
Qed.
Theorem run_static : forall g w sched d p o n l s, passes g w sched d p o n l s -> let p' := q_p s in
  p_opt p' = p_opt p /\ p_pol p' = p_pol p /\ p_Za p' = p_Za p /\ p_Zb p' = p_Zb p /\ p_nua p' = p_nua p /\ p_nub p' = p_nub p /\ p_ens p' = p_ens p /\ p_va p' = p_va p /\ p_vb p' = p_vb p /\
  p_V p' "vext"%string = p_V p "vext"%string /\
  forall c, member (p_ens p) c -> exists f f', p_f p c = Some f /\ p_f p' c = Some f' /\ frame (f_ks f) (f_ks f') /\ f_scale f' = f_scale f /\
    step_size (ps_alpha o) c = Some (f_alpha f') /\ f_frozen f' = Some (match c with Ca | CA => ps_fa o | _ => ps_fb o end).
Proof.
  intros g w sched d p o n l s H p'. destruct (run_stat _ _ _ _ _ _ _ _ _ H) as (p1 & S1 & (A1 & A2 & A3 & A4 & A5 & A6 & A7 & A8 & A9 & A10 & A11)). fold p' in A1, A2, A3, A4, A5, A6, A7, A8, A9, A10, A11.
  apply setup_inv in S1. destruct S1 as (B1 & B2 & _). rewrite B1 in A1, A2, A3, A4, A5, A6, A7, A8, A9, A10. cbn [with_f p_opt p_pol p_Za p_Zb p_nua p_nub p_ens p_va p_vb p_V] in *.
  repeat (split; [assumption|]). intros c Hc. destruct (B2 c Hc) as (f & al & C1 & C2 & C3). specialize (A11 c). rewrite C3 in A11. destruct (p_f p' c) as [f'|]; [|contradiction].
  destruct A11 as (D1 & D2 & D3 & D4). exists f, f'. cbn [falpha ffrozen f_ks f_scale f_alpha f_frozen] in *. repeat (split; [solve [auto]|]). split; [rewrite D3; exact C2|exact D4].
Qed.

(** * What a pass leaves behind *)
Lemma fsame_settled : forall g p p' F n na nb nf q, psame p p' -> settled g p F n na nb nf q -> exists F', settled g p' F' n na nb nf q /\ forall c, member (p_ens p) c -> fsame (F c) (F' c).
Proof.
  intros g p p' F n na nb nf q (A1 & A2 & A3 & A4 & A5 & A6 & A7 & A8 & A9 & A10 & A11 & A12 & A13 & A14) ((D1 & D2) & (P1 & P2 & P3 & P4 & P5 & P6) & Q & M).
  set (F' := fun c => match p_f p' c with Some f => f | None => F c end).
  assert (X : forall c, member (p_ens p) c -> p_f p' c = Some (F' c) /\ fsame (F c) (F' c)).
  { intros c Hc. specialize (A14 c). rewrite (D1 c Hc) in A14. unfold F'. destruct (p_f p' c) as [f|]; [|contradiction]. auto. }
  exists F'. split; [|intros c Hc; apply (X c Hc)]. unfold settled, densities, frags, protomolecule. rewrite A1, A2, A7, A10, A11, A12.
  split; [split; [intros c Hc; apply (X c Hc)|]|].
  { intros c Hc. destruct (X c Hc) as (_ & (-> & _)). auto. }
  assert (G : forall l k s, (forall c, In c l -> member (p_ens p) c) -> group (po_ess (p_opt p)) (p_pol p) F' n l k s = group (po_ess (p_opt p)) (p_pol p) F n l k s).
  { intros l k s HL. unfold group. apply lsum_ext. intros c Hc. destruct (X c (HL c Hc)) as (_ & (_ & -> & _)). reflexivity. }
  split; [|split].
  - do 3 (split; [assumption|]). split; [|split; [|assumption]]; intros; rewrite G; auto; intros c Hc; destruct (p_ens p); simpl in Hc; intuition (subst; simpl; auto).
  - intros c Hc. destruct (X c Hc) as (_ & (_ & E1 & E2 & _)). rewrite E1, E2. apply Q. auto.
  - auto.
Qed.
Lemma proto_settled : forall g o p p', psc_proto g o p = Ok p' -> ps_target o = false -> exists F n na nb nf q, settled g p' F n na nb nf q.
Proof.
  intros g o p p' H T. unfold psc_proto in H. rewrite T in H. match type of H with bind ?m _ = _ => destruct m as [p1|] eqn:E1; [|discriminate] end. cbn [bind] in H.
  match type of H with bind ?m _ = _ => destruct m as [p2|] eqn:E2; [|discriminate] end. cbn [bind] in H.
  destruct (proto_same_f _ _ E2) as (F2 & S2). pose proof (Q_inv _ _ H) as (nf & N & W & B & _).
  destruct (B Ca Logic.I) as (fd & nd & _ & _ & _).
  set (F1 := fun c => match p_f p1 c with Some f => f | None => fd end). set (n := fun c => match k_n (f_ks (F1 c)) with Some m => m | None => nd end).
  assert (EN : p_ens p2 = p_ens p1) by apply S2.
  assert (D1 : densities p1 F1 n).
  { split; intros c Hc; rewrite <- EN in Hc; destruct (B c Hc) as (f & m & B1 & B2 & _); rewrite F2 in B1.
    - unfold F1. rewrite B1. reflexivity.
    - unfold n, F1. rewrite B1, B2. reflexivity. }
  destruct (proto_density _ _ _ _ D1 E2) as (na & nb & nf' & P1 & P2 & P3 & _ & P5 & P6 & _ & P7). rewrite N in P3. injection P3 as <-.
  set (q := fun c k s => to_R (ndiv (f_scale (F1 c) * n c k s) (nf k s))).
  exists (fun c => fQ (F1 c) (Some (q c))), n, na, nb, nf, q.
  assert (E' : p_ens p' = p_ens p1) by (rewrite W; exact EN). assert (EO : p_opt p' = p_opt p1) by (rewrite W; apply S2). assert (EP : p_pol p' = p_pol p1) by (rewrite W; apply S2).
  assert (X : forall c, member (p_ens p1) c -> p_f p' c = Some (fQ (F1 c) (Some (q c)))).
  { intros c Hc. rewrite <- EN in Hc. destruct (B c Hc) as (f & m & B1 & B2 & B3). rewrite B3. rewrite F2 in B1. unfold q, n, F1. rewrite B1, B2. reflexivity. }
  unfold settled, densities, frags, protomolecule. rewrite E', EO, EP. split; [split; [exact X|intros c Hc; apply (proj2 D1 c Hc)]|]. split; [|split].
  - rewrite W. cbn [with_f p_na p_nb p_nf]. repeat (split; [assumption|]). assumption.
  - intros c Hc. split; [reflexivity|]. intros k s. unfold q. cbn [fQ f_scale]. split; intros Z; [rewrite ndiv_nz by auto; reflexivity|rewrite Z; apply ndiv_z].
  - intros A c Hc Ha. assert (A0 : po_ab (p_opt p) = true) by (destruct (po_ab (p_opt p)) eqn:A0; auto; injection E1 as <-; congruence). rewrite A0 in E1.
    assert (EE : p_ens p1 = p_ens p) by (apply mirror_stat in E1; apply E1). apply mirrorAB_inv in E1. destruct E1 as (_ & M & _). rewrite EE in Hc. destruct (M c Hc Ha) as (M0 & a & b & b' & M1 & M2 & M3 & M4). apply mirror_frag_spec in M3. destruct M3 as ((x & y & Y1 & Y2 & Y3) & _).
    unfold n, F1. rewrite M0, M1, M4, Y1, Y2. exact Y3.
Qed.
(** at the start and after every pass, densities and Q functions are consistent *)
Theorem run_settled : forall g w sched d p o n l s, passes g w sched d p o n l s -> ps_target o = false -> exists F m na nb nf q, settled g (q_p s) F m na nb nf q /\ q_oldn s = nf.
Proof.
  intros g w sched d p o n l s H T. destruct H as [p0 nf O S N|n l s s' HP Te B].
  - unfold psc_start in S. destruct (psc_setup o p) as [p1|]; [|discriminate]. cbn [bind] in S. destruct (forL _ _ p1) as [p2|]; [|discriminate]. cbn [bind] in S.
    destruct (proto_settled _ _ _ _ S T) as (F & m & na & nb & nf' & q & X). exists F, m, na, nb, nf', q. split; [exact X|]. cbn [q_oldn]. destruct X as (_ & (_ & _ & X & _) & _). congruence.
  - pose proof (body_residual _ _ _ _ _ _ B) as (E & nf & dn & _ & N & _ & O & _). apply body_inv in B. destruct B as (p' & r & fl & W & _ & ->).
    assert (Q : q_p (psc_next o s p' r fl) = p') by (destruct r as [[? ?] ?]; reflexivity). rewrite Q in *.
    apply work_inv in W. destruct W as (p1 & p2 & p3 & pv & p4 & p5 & _ & _ & _ & _ & _ & W6 & W7 & _). destruct (proto_settled _ _ _ _ W6 T) as (F & m & na & nb & nf' & q & X).
    destruct (fsame_settled _ _ _ _ _ _ _ _ _ (energy_same _ _ _ _ W7) X) as (F' & X' & _). exists F', m, na, nb, nf', q. split; [exact X'|]. destruct X' as (_ & (_ & _ & X' & _) & _). congruence.
Qed.

(** * The external potentials of a pass (C60) *)
Theorem pass_vext : forall g w o sched s s', psc_body g w o sched s = Ok s' -> exists vp,
  (po_iso (p_opt (q_p s)) = false -> p_V (q_p s') "vp"%string = Some vp) /\ (po_iso (p_opt (q_p s)) = true -> vp = (fun _ _ => 0)) /\
  forall c, computed (q_p s) c -> exists f f' n nout k1 k2 vext vhxc, p_f (q_p s) c = Some f /\ p_f (q_p s') c = Some f' /\
    k_n (f_ks f) = Some n /\ ks_density g (pe_env w) (ps_iter o) (q_dif s) (sched c) k1 = Ok (k2, nout) /\ frame (f_ks f) k1 /\
    k_veff k1 = Some (add3 (k_vnuc (f_ks f)) vext vhxc) /\ k_vhxc (f_ks f') = Some vhxc /\
    (exists k, calc_hxc_potential g (pe_env w) (f_ks f) = Ok k /\ exists v, k_vhxc k = Some v /\ forall x j, vhxc x j = v x j) /\
    k_n (f_ks f') = Some (fun x j => (1 - f_alpha f) * n x j + f_alpha f * nout x j) /\
    k_vext (f_ks f') = Some vext /\
    (f_frozen f = Some true -> k_vext (f_ks f) = Some vext) /\
    (f_frozen f <> Some true -> (ps_sdft o = false -> vext = vp) /\ (ps_sdft o = true -> f_V f' "vp"%string = Some vext)).
Proof.
  intros g w o sched s s' H. apply body_inv in H. destruct H as (p & r & fl & W & _ & ->). assert (Q : q_p (psc_next o s p r fl) = p) by (destruct r as [[? ?] ?]; reflexivity). rewrite Q. clear Q.
  destruct (work_frag _ _ _ _ _ _ _ W) as (p3 & pv & vp & X1 & X2 & X3 & X4 & _ & _ & X5). exists vp. split; [exact X4|]. split.
  - intros I. rewrite <- (proj1 X2) in I. destruct (iso_vp _ _ _ _ X1 I) as (A & _). exact A.
  - intros c Hc. apply computed_in in Hc. destruct (X5 c Hc) as (f & fh & fv & fs & f' & A1 & A2 & A3 & A4 & A5 & A6 & A7 & A8 & A9 & A10 & A11 & A12 & A13).
    apply hxc_frag_inv in A2. destruct A2 as ((H1 & _ & H3 & H4 & _ & _) & _ & H8 & H9 & _ & _ & k & v & H12 & H13 & H14 & H15 & _).
    destruct A5 as (S1 & _ & _ & S4 & S5 & _).
    apply step_inv in A6. destruct A6 as ((_ & _ & _ & _ & _ & G6) & x & k1 & k2 & n & nout & G7 & G8 & G9 & G10 & G11 & G12 & G13 & _ & _ & G16).
    pose proof (eff_pot _ _ G8) as (ve & vh & P1 & P2 & P3 & _). cbn [set_vext k_vext k_vhxc k_vnuc] in P1, P2, P3. rewrite S1 in *.
    assert (HV : k_vnuc (f_ks fh) = k_vnuc (f_ks f)) by apply H1.
    exists f, f', n, nout, k1, k2, ve, vh. split; auto. split; auto. split; [congruence|]. split; auto. split; [eapply frame_trans; eauto|].
    split; [rewrite P3, HV; reflexivity|]. split; [rewrite A8, G16; exact P2|]. split; [exists k; split; auto; exists v; split; auto|].
    split; [rewrite A8, G13, S4, H3; reflexivity|]. split; [rewrite A8, G11; exact P1|].
    unfold new_vext in G7. rewrite S5, H4 in G7. split.
    + intros Fz. rewrite Fz in G7. injection G7 as G7. rewrite <- H9, <- S1. congruence.
    + intros Fz. destruct (f_frozen f) as [[|]|]; try congruence; (destruct (ps_sdft o); [destruct (attr (f_V fv) "vp") as [v0|] eqn:AV; [|discriminate]; apply have_some in AV; cbn [bind] in G7|]; split; congruence).
Qed.

(** * Isolated fragments (C59) *)
Lemma passes_0 : forall g w sched d p o l s, passes g w sched d p o 0 l s -> exists p0 nf, psc_options p d = Ok o /\ psc_start g (pe_env w) o (sched 0%Z) p = Ok p0 /\ p_nf p0 = Some nf /\ l = [] /\ s = mkPst p0 (Fin 10) 0 nf 1%Z 0 (Fin 10) 0%Z [].
Proof. intros g w sched d p o l s H. inversion H; subst. exists p0, nf. auto 10. Qed.
Lemma passes_S : forall g w sched d p o n l s', passes g w sched d p o (S n) l s' -> exists l0 s, passes g w sched d p o n l0 s /\ psc_test o s = Ok true /\ psc_body g w o (sched (q_iter s)) s = Ok s' /\ l = (l0 ++ reports (q_p s'))%list.
Proof. intros g w sched d p o n l s' H. inversion H; subst. eauto 10. Qed.
Lemma hxc_det : forall g w f1 f2 h1 h2, f_ks f1 = f_ks f2 -> hxc_frag g w f1 = Ok h1 -> hxc_frag g w f2 = Ok h2 -> f_ks h1 = f_ks h2.
Proof.
  intros g w f1 f2 h1 h2 E A B. unfold hxc_frag in *. rewrite E in A. destruct (calc_hxc_potential g w (f_ks f2)) as [k|]; [|discriminate]. cbn [bind] in *.
  destruct (need (k_vhxc k)) as [v|]; [|discriminate]. cbn [bind] in *. destruct (need (k_vhxc (f_ks f2))) as [u|]; [|discriminate]. cbn [bind] in *. injection A as <-. injection B as <-. reflexivity.
Qed.
Lemma chempot_det : forall f1 f2 h1 h2, f_ks f1 = f_ks f2 -> frag_chempot f1 = Ok h1 -> frag_chempot f2 = Ok h2 -> f_ks h1 = f_ks h2.
Proof. intros f1 f2 h1 h2 E A B. unfold frag_chempot in *. rewrite E in A. destruct (calc_chempot (f_ks f2)) as [k|]; [|discriminate]. cbn [bind] in *. injection A as <-. injection B as <-. reflexivity. Qed.
Lemma density_dif : forall g w d1 d2 l k, ks_density g w false d1 l k = ks_density g w false d2 l k. Proof. reflexivity. Qed.
Lemma step_det : forall g w o l d1 d2 vp f1 f2 h1 h2, f_ks f1 = f_ks f2 -> f_frozen f1 = f_frozen f2 -> f_alpha f1 = f_alpha f2 -> f_V f1 "vp"%string = f_V f2 "vp"%string -> ps_iter o = false \/ d1 = d2 ->
  step_frag g w o l d1 vp f1 = Ok h1 -> step_frag g w o l d2 vp f2 = Ok h2 -> f_ks h1 = f_ks h2.
Proof.
  intros g w o l d1 d2 vp f1 f2 h1 h2 E1 E2 E3 E4 D A B. unfold step_frag in *. unfold attr in *. rewrite E1, E2, E3, E4 in A.
  match type of B with bind ?m _ = _ => destruct m as [k0|]; [|discriminate] end. cbn [bind] in *. destruct (set_effective_potential k0) as [k1|]; [|discriminate]. cbn [bind] in *.
  assert (X : ks_density g w (ps_iter o) d1 l k1 = ks_density g w (ps_iter o) d2 l k1) by (destruct D as [->| ->]; reflexivity). rewrite X in A. clear X.
  destruct (ks_density g w (ps_iter o) d2 l k1) as [kn|]; [|discriminate]. cbn [bind] in *.
  destruct (frag_chempot (fk f1 (fst kn))) as [c1|] eqn:C1; [|discriminate]. destruct (frag_chempot (fk f2 (fst kn))) as [c2|] eqn:C2; [|discriminate]. cbn [bind] in *.
  assert (X : f_ks c1 = f_ks c2) by (eapply chempot_det; [|exact C1|exact C2]; reflexivity). rewrite X in A. destruct (need (k_n (f_ks c2))) as [n|]; [|discriminate]. cbn [bind] in *. cbv zeta in *.
  match type of B with bind ?m _ = _ => destruct m as [k2|]; [|discriminate] end. cbn [bind] in *. injection A as <-. injection B as <-. reflexivity.
Qed.
Lemma guess_det : forall g w o l f1 f2 h1 h2, f_ks f1 = f_ks f2 -> guess_frag g w o l f1 = Ok h1 -> guess_frag g w o l f2 = Ok h2 -> f_ks h1 = f_ks h2.
Proof.
  intros g w o l f1 f2 h1 h2 E A B. unfold guess_frag in *. rewrite E in A. destruct (ps_cont o).
  - destruct (k_n (f_ks f2)); [|discriminate]. congruence.
  - destruct (set_effective_potential _) as [k1|]; [|discriminate]. cbn [bind] in *. destruct (ks_density _ _ _ _ _ _) as [kn|]; [|discriminate]. cbn [bind] in *.
    eapply chempot_det; [|exact A|exact B]. reflexivity.
Qed.
(** the guess, component by component *)
Lemma start_frag : forall g w o sched p p', psc_start g w o sched p = Ok p' -> forall c, computed p c -> exists f f0 f1 f', p_f p c = Some f /\ f_ks f0 = f_ks f /\ guess_frag g w o (sched c) f0 = Ok f1 /\ p_f p' c = Some f' /\ f_ks f' = f_ks f1.
Proof.
  intros g w o sched p p' H c Hc. unfold psc_start in H. destruct (psc_setup o p) as [p1|] eqn:E1; [|discriminate]. cbn [bind] in H.
  match type of H with bind ?m _ = _ => destruct m as [p2|] eqn:E2; [|discriminate] end. cbn [bind] in H. apply setup_inv in E1. destruct E1 as (A1 & A2 & _).
  assert (CE : comps_ab p1 = comps_ab p) by (rewrite A1; reflexivity). rewrite <- CE in E2. pose proof (guess_stat _ _ _ _ _ _ E2) as S2. apply guess_all in E2. destruct E2 as (_ & B & _).
  destruct (A2 c (proj1 Hc)) as (f & al & C1 & _ & C3). apply computed_in in Hc. rewrite <- CE in Hc. destruct (B c Hc) as (f0 & f1 & D1 & D2 & D3). rewrite C3 in D1. injection D1 as D1.
  destruct (psc_proto_stat _ _ _ _ H) as (S3 & M3). assert (Hc2 : In c (comps_ab p2)) by (rewrite (comps_ab_stat _ _ S2); auto).
  assert (P : exists f', p_f p' c = Some f'). { destruct S3 as (_ & _ & _ & _ & _ & _ & _ & _ & _ & _ & S3). specialize (S3 c). rewrite D3 in S3. destruct (p_f p' c); [eauto|contradiction]. }
  destruct P as (f' & P). destruct (M3 c f' Hc2 P) as (f2 & q & Q1 & Q2). rewrite D3 in Q1. injection Q1 as <-. exists f, f0, f1, f'. split; auto. split; [rewrite <- D1; reflexivity|]. split; auto. split; auto. rewrite Q2. reflexivity.
Qed.
Theorem isolated_run : forall g w sched1 sched2 d p1 p2 o n l1 l2 s1 s2 c f1 f2, passes g w sched1 d p1 o n l1 s1 -> passes g w sched2 d p2 o n l2 s2 ->
  po_iso (p_opt p1) = true -> po_iso (p_opt p2) = true -> ps_iter o = false -> (forall z, sched1 z c = sched2 z c) -> computed p1 c -> computed p2 c ->
  p_f p1 c = Some f1 -> p_f p2 c = Some f2 -> f_ks f1 = f_ks f2 ->
  exists f1' f2', p_f (q_p s1) c = Some f1' /\ p_f (q_p s2) c = Some f2' /\ f_ks f1' = f_ks f2'.
Proof.
  intros g w sched1 sched2 d p1 p2 o n. induction n as [|n IH]; intros l1 l2 s1 s2 c f1 f2 P1 P2 I1 I2 It HS C1 C2 F1 F2 E.
  - apply passes_0 in P1. apply passes_0 in P2. destruct P1 as (a & na & _ & A2 & _ & _ & ->), P2 as (b & nb & _ & B2 & _ & _ & ->). cbn [q_p].
    destruct (start_frag _ _ _ _ _ _ A2 c C1) as (f & f0 & fg & f' & X1 & X2 & X3 & X4 & X5). destruct (start_frag _ _ _ _ _ _ B2 c C2) as (h & h0 & hg & h' & Y1 & Y2 & Y3 & Y4 & Y5).
    exists f', h'. split; auto. split; auto. rewrite X5, Y5. rewrite HS in X3. eapply guess_det; [|exact X3|exact Y3]. congruence.
  - apply passes_S in P1. apply passes_S in P2. destruct P1 as (la & a & A1 & _ & A3 & _), P2 as (lb & b & B1 & _ & B3 & _).
    destruct (IH _ _ _ _ c f1 f2 A1 B1 I1 I2 It HS C1 C2 F1 F2 E) as (fa & fb & G1 & G2 & G3).
    assert (QI : q_iter a = q_iter b) by (rewrite (proj1 (passes_count _ _ _ _ _ _ _ _ _ A1)), (proj1 (passes_count _ _ _ _ _ _ _ _ _ B1)); reflexivity).
    destruct (run_static _ _ _ _ _ _ _ _ _ A1) as (RA1 & _ & _ & _ & _ & _ & RA2 & _ & _ & _ & RA). destruct (run_static _ _ _ _ _ _ _ _ _ B1) as (RB1 & _ & _ & _ & _ & _ & RB2 & _ & _ & _ & RB).
    destruct (RA c (proj1 C1)) as (xa & ya & _ & Ya & _ & _ & Aa & Za). destruct (RB c (proj1 C2)) as (xb & yb & _ & Yb & _ & _ & Ab & Zb). rewrite G1 in Ya. injection Ya as <-. rewrite G2 in Yb. injection Yb as <-.
    apply body_inv in A3. destruct A3 as (pa & ra & fla & WA & _ & ->). apply body_inv in B3. destruct B3 as (pb & rb & flb & WB & _ & ->).
    assert (Qa : q_p (psc_next o a pa ra fla) = pa) by (destruct ra as [[? ?] ?]; reflexivity). assert (Qb : q_p (psc_next o b pb rb flb) = pb) by (destruct rb as [[? ?] ?]; reflexivity). rewrite Qa, Qb. clear Qa Qb.
    assert (Ca' : In c (comps_ab (q_p a))) by (apply computed_in; unfold computed; rewrite RA1, RA2; exact C1). assert (Cb' : In c (comps_ab (q_p b))) by (apply computed_in; unfold computed; rewrite RB1, RB2; exact C2).
    destruct (work_frag _ _ _ _ _ _ _ WA) as (pa3 & pav & va & U1 & U2 & _ & _ & _ & _ & U5). destruct (U5 c Ca') as (g1 & g2 & g3 & g4 & g5 & V1 & V2 & V3 & V4 & V5 & V6 & V7 & V8 & _).
    destruct (work_frag _ _ _ _ _ _ _ WB) as (pb3 & pbv & vb & T1 & T2 & _ & _ & _ & _ & T5). destruct (T5 c Cb') as (h1 & h2 & h3 & h4 & h5 & W1 & W2 & W3 & W4 & W5 & W6 & W7 & W8 & _).
    rewrite G1 in V1. injection V1 as <-. rewrite G2 in W1. injection W1 as <-. exists g5, h5. split; auto. split; auto. rewrite V8, W8.
    assert (ISa : po_iso (p_opt pa3) = true) by (rewrite (proj1 U2), RA1; exact I1). assert (ISb : po_iso (p_opt pb3) = true) by (rewrite (proj1 T2), RB1; exact I2).
    destruct (iso_vp _ _ _ _ U1 ISa) as (Ea & Fa & _). destruct (iso_vp _ _ _ _ T1 ISb) as (Eb & Fb & _). cbn [fst snd] in *. subst va vb.
    destruct (Fa c) as (z1 & Z1 & Z2); [rewrite (comps_ab_stat _ _ U2); exact Ca'|]. destruct (Fb c) as (z2 & Z3 & Z4); [rewrite (comps_ab_stat _ _ T2); exact Cb'|].
    rewrite V3 in Z1. injection Z1 as <-. rewrite W3 in Z3. injection Z3 as <-. rewrite V4 in Z2. injection Z2 as ->. rewrite W4 in Z4. injection Z4 as ->.
    pose proof (hxc_det _ _ _ _ _ _ G3 V2 W2) as HE. apply hxc_frag_inv in V2. apply hxc_frag_inv in W2. destruct V2 as ((_ & _ & L1 & L2 & _) & _), W2 as ((_ & _ & L3 & L4 & _) & _).
    rewrite HS, QI in V6. eapply step_det; [| | | |left; exact It|exact V6|exact W6]; cbn [fV f_ks f_frozen f_alpha f_V]; [exact HE|congruence| |rewrite !aset_same; reflexivity].
    rewrite L1, L3. congruence.
Qed.
Theorem isolated_vext : forall g w sched d p o n l s c f', passes g w sched d p o (S n) l s -> po_iso (p_opt p) = true -> computed p c -> p_f (q_p s) c = Some f' -> f_frozen f' <> Some true -> exists v, k_vext (f_ks f') = Some v /\ forall x j, v x j = 0.
Proof.
  intros g w sched d p o n l s c f' P I C F Z. apply passes_S in P. destruct P as (l0 & a & A1 & _ & A3 & _). destruct (run_static _ _ _ _ _ _ _ _ _ A1) as (R1 & _ & _ & _ & _ & _ & R2 & _).
  apply body_inv in A3. destruct A3 as (pa & ra & fla & WA & _ & ->). assert (Qa : q_p (psc_next o a pa ra fla) = pa) by (destruct ra as [[? ?] ?]; reflexivity). rewrite Qa in F. clear Qa.
  assert (C' : In c (comps_ab (q_p a))) by (apply computed_in; unfold computed; rewrite R1, R2; exact C).
  destruct (work_frag _ _ _ _ _ _ _ WA) as (pa3 & pav & va & U1 & U2 & _ & _ & _ & _ & U5). destruct (U5 c C') as (g1 & g2 & g3 & g4 & g5 & V1 & V2 & V3 & V4 & V5 & V6 & V7 & V8 & _ & _ & _ & V12 & _).
  rewrite F in V7. injection V7 as <-. assert (IS : po_iso (p_opt pa3) = true) by (rewrite (proj1 U2), R1; exact I). destruct (iso_vp _ _ _ _ U1 IS) as (Ea & Fa & _). cbn [fst snd] in *. subst va.
  destruct (Fa c) as (z1 & Z1 & Z2); [rewrite (comps_ab_stat _ _ U2); exact C'|]. rewrite V4 in Z2. injection Z2 as ->.
  apply step_inv in V6. destruct V6 as (_ & x & k1 & k2 & m & nout & G1 & _ & _ & _ & G5 & _). rewrite V8, G5. unfold new_vext in G1. cbn [fV f_frozen f_V] in G1. destruct V5 as (_ & _ & _ & _ & V5 & _). cbn [fV f_frozen] in V5. rewrite V5 in G1.
  apply hxc_frag_inv in V2. destruct V2 as ((_ & _ & _ & L2 & _) & _). rewrite L2 in G1. rewrite V12 in Z. unfold attr in G1. rewrite aset_same in G1. cbn [have bind] in G1.
  exists (fun _ _ => 0). split; [|reflexivity]. destruct (f_frozen g1) as [[|]|]; try congruence; destruct (ps_sdft o); congruence.
Qed.
