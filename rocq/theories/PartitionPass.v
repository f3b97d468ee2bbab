(** Partition: one pass of Partition.scf as a whole. *)
From Coq Require Import Reals List Arith Lia Lra ZArith Bool String.
From Verif Require Import Base BaseLemmas GridModel GridSpec GridProofs HartreeModel SolverModel SolverSpec LibxcModel OptionsModel KSModel KSSpec KSProofs KSThms KSLoop KSEnergy KSTotal
  InverterModel PartitionModel PartitionSpec PartitionBase PartitionDens PartitionFrame PartitionEnergy PartitionLoop PartitionStep PartitionKeep.
Import ListNotations.
Local Open Scope R_scope.

(** * What no pass changes *)
Definition fstat (f f' : frag) : Prop := frame (f_ks f) (f_ks f') /\ f_scale f' = f_scale f /\ f_alpha f' = f_alpha f /\ f_frozen f' = f_frozen f.
Definition fstat_opt (a b : option frag) : Prop := match a, b with Some f, Some f' => fstat f f' | None, None => True | _, _ => False end.
Definition pstat (p p' : part) : Prop :=
  p_opt p' = p_opt p /\ p_pol p' = p_pol p /\ p_Za p' = p_Za p /\ p_Zb p' = p_Zb p /\ p_nua p' = p_nua p /\ p_nub p' = p_nub p /\
  p_ens p' = p_ens p /\ p_va p' = p_va p /\ p_vb p' = p_vb p /\ p_V p' "vext"%string = p_V p "vext"%string /\ forall c, fstat_opt (p_f p c) (p_f p' c).
Lemma fstat_refl : forall f, fstat f f. Proof. intros. split; [apply frame_refl|auto]. Qed.
Lemma fstat_trans : forall a b c, fstat a b -> fstat b c -> fstat a c.
Proof. intros a b c (A1 & A2 & A3 & A4) (B1 & B2 & B3 & B4). split; [eapply frame_trans; eauto|repeat split; congruence]. Qed.
Lemma fstat_opt_refl : forall f, fstat_opt f f. Proof. intros [f|]; simpl; auto using fstat_refl. Qed.
Lemma pstat_refl : forall p, pstat p p. Proof. intros. repeat (split; [reflexivity|]). intros; apply fstat_opt_refl. Qed.
Lemma pstat_trans : forall a b c, pstat a b -> pstat b c -> pstat a c.
Proof.
  intros a b c (A1 & A2 & A3 & A4 & A5 & A6 & A7 & A8 & A9 & A10 & A11) (B1 & B2 & B3 & B4 & B5 & B6 & B7 & B8 & B9 & B10 & B11).
  repeat (split; [congruence|]). intros d. specialize (A11 d). specialize (B11 d). destruct (p_f a d), (p_f b d), (p_f c d); simpl in *; try tauto. eapply fstat_trans; eauto.
Qed.
Lemma psame_pstat : forall p p', psame p p' -> pstat p p'.
Proof.
  intros p p' (A1 & A2 & A3 & A4 & A5 & A6 & A7 & A8 & A9 & _ & _ & _ & A13 & A14). repeat (split; [assumption|]). intros c. specialize (A14 c). destruct (p_f p c), (p_f p' c); simpl in *; try tauto.
  destruct A14 as (B1 & B2 & _ & B4 & B5 & _). split; [rewrite B1; apply frame_refl|auto].
Qed.
Lemma with_stat : forall p p', p' = with_f p (p_f p') -> (forall c, fstat_opt (p_f p c) (p_f p' c)) -> pstat p p'.
Proof. intros p p' E H. unfold pstat. rewrite E at 1 2 3 4 5 6 7 8 9 10. repeat (split; [reflexivity|]). exact H. Qed.
Lemma fkeep_fstat : forall f f', fkeep f f' -> fstat f f'. Proof. intros f f' (A & B & C & D & _). split; auto. Qed.
Definition comp_dec : forall a b : comp, {a = b} + {a <> b}. Proof. decide equality. Defined.
Lemma comps_ab_dec : forall p c, In c (comps_ab p) \/ ~ In c (comps_ab p).
Proof. intros. destruct (in_dec comp_dec c (comps_ab p)); auto. Qed.
Lemma hxc_stat : forall g w p p', forL (comps_ab p) (psc_hxc g w) p = Ok p' -> pstat p p'.
Proof.
  intros g w p p' H. apply hxc_all in H. destruct H as (A & B & C). apply with_stat; auto. intros c. destruct (comps_ab_dec p c) as [I|I].
  - destruct (B c I) as (f & f' & B1 & B2 & B3). rewrite B1, B3. apply fkeep_fstat. eapply hxc_frag_inv; eauto.
  - rewrite C by auto. apply fstat_opt_refl.
Qed.
Lemma guess_frag_inv : forall g w o l f f', guess_frag g w o l f = Ok f' -> fkeep f f' /\ exists n, k_n (f_ks f') = Some n /\
  if ps_cont o then f' = f else exists k1 k2, frame (f_ks f) k1 /\ ks_density g w (ps_iter o) (Fin 0) l k1 = Ok (k2, n) /\ k_vext (f_ks f') = Some (fun _ _ => 0) /\ k_vhxc (f_ks f') = Some (fun _ _ => 0).
Proof.
  intros g w o l f f' H. unfold guess_frag in H. destruct (ps_cont o).
  - destruct (k_n (f_ks f)) as [n|] eqn:N; [|discriminate]. injection H as <-. split; [split; [apply frame_refl|auto 10]|]. exists n. auto.
  - destruct (set_effective_potential _) as [k1|] eqn:E; [|discriminate]. cbn [bind] in H. destruct (ks_density g w (ps_iter o) (Fin 0) l k1) as [[k2 n]|] eqn:D; [|discriminate]. cbn [bind fst snd] in H.
    apply chempot_inv in H. destruct H as ((C1 & C2 & C3 & C4 & C5 & C6) & C7 & C8 & C9 & _). cbn [fk f_ks f_scale f_alpha f_frozen f_Q f_V] in *.
    pose proof (eff_pot _ _ E) as (ve & vh & P1 & P2 & _ & _ & _ & P6 & P7 & P8 & _). pose proof (density_inv _ _ _ _ _ _ _ _ D) as (sol & n0 & E2 & _).
    assert (F1 : frame (f_ks f) k1). { eapply frame_trans; [|eapply frame_eff; exact E]. eapply frame_trans; [apply (frame_vext _ (Some (fun _ _ => 0)))|apply frame_vhxc]. }
    split.
    + split; [|auto 10]. eapply frame_trans; [exact F1|]. eapply frame_trans; [eapply density_frame; exact D|]. eapply frame_trans; [apply frame_n|exact C1].
    + exists n. split; [exact C7|]. exists k1, k2. split; auto. split; auto. rewrite C8, C9, E2. cbn [set_n set_sol k_vext k_vhxc]. rewrite P7, P8. auto.
Qed.
Lemma guess_stat : forall g w o sched p p', forL (comps_ab p) (psc_guess g w o sched) p = Ok p' -> pstat p p'.
Proof.
  intros g w o sched p p' H. apply guess_all in H. destruct H as (_ & B & C & A). apply with_stat; auto. intros c. destruct (comps_ab_dec p c) as [I|I].
  - destruct (B c I) as (f & f' & B1 & B2 & B3). rewrite B1, B3. apply fkeep_fstat. eapply guess_frag_inv; eauto.
  - rewrite C by auto. apply fstat_opt_refl.
Qed.
Lemma step_stat : forall g w o sched dif vp l p p', NoDup l -> forL l (psc_fragment g w o sched dif vp) p = Ok p' -> pstat p p'.
Proof.
  intros g w o sched dif vp l p p' N H. apply step_all in H; auto. destruct H as (A & B & C). apply with_stat; auto. intros c.
  destruct (in_dec comp_dec c l) as [I|I].
  - destruct (B c I) as (f & f' & B1 & B2 & B3). rewrite B1, B3. apply fkeep_fstat. eapply step_inv; eauto.
  - rewrite C by auto. apply fstat_opt_refl.
Qed.
Lemma mirror_frag_stat : forall g a b b', mirror_frag g a b = Ok b' -> fstat b b'.
Proof.
  intros g a b b' H. unfold mirror_frag in H. cbv zeta in H. destruct (have (k_n (f_ks a))) as [n|]; [|discriminate]. cbn [bind] in H. destruct (have (k_veff (f_ks a))) as [ve|]; [|discriminate]. cbn [bind] in H.
  destruct (have (k_vext (f_ks a))) as [vx|]; [|discriminate]. cbn [bind] in H. injection H as <-.
  destruct (f_V a "vp"%string); (split; [repeat (split; [reflexivity|]); intros; apply same_static_refl|repeat split]).
Qed.
Lemma mirror_stat : forall g p p', mirrorAB g p = Ok p' -> pstat p p'.
Proof.
  intros g p p' H. apply mirrorAB_inv in H. destruct H as (A & B & C). apply with_stat; auto. intros c.
  assert (M : member (p_ens p) c \/ ~ member (p_ens p) c) by (destruct c; simpl; auto; destruct (p_ens p); auto).
  destruct M as [M|M]; [|rewrite C by auto; apply fstat_opt_refl].
  assert (T : of_a c \/ exists d, c = twin d /\ of_a d /\ member (p_ens p) d).
  { unfold of_a. destruct c; [left; auto|left; auto|right; exists Ca; simpl; auto|right; exists CA; simpl in *; auto]. }
  destruct T as [T|(d & -> & T & Md)].
  - destruct (B c M T) as (-> & _). apply fstat_opt_refl.
  - destruct (B d Md T) as (_ & a & b & b' & B1 & B2 & B3 & B4). rewrite B2, B4. eapply mirror_frag_stat; eauto.
Qed.
Lemma proto_same_f : forall p p', calc_protomolecule p = Ok p' -> p_f p' = p_f p /\ pstat p p'.
Proof. intros p p' H. unfold calc_protomolecule in H. dm H. cbv zeta in H. injection H as <-. split; [reflexivity|]. repeat (split; [reflexivity|]). intros; apply fstat_opt_refl. Qed.
Lemma Q_stat : forall p p', calc_Q p = Ok p' -> pstat p p' /\ forall c f', p_f p' c = Some f' -> exists f q, p_f p c = Some f /\ f' = fQ f q.
Proof.
  intros p p' H. apply Q_inv in H. destruct H as (nf & N & A & B & C).
  assert (X : forall c, p_f p' c = None /\ p_f p c = None \/ exists f q, p_f p c = Some f /\ p_f p' c = Some (fQ f q)).
  { intros c. assert (M : member (p_ens p) c \/ ~ member (p_ens p) c) by (destruct c; simpl; auto; destruct (p_ens p); auto). destruct M as [M|M].
    - destruct (B c M) as (f & n & B1 & _ & B2). right. eauto.
    - rewrite C by auto. destruct (p_f p c) as [f|]; [right|auto]. exists f, (f_Q f). split; auto. destruct f; reflexivity. }
  split.
  - apply with_stat; auto. intros c. destruct (X c) as [(-> & ->)|(f & q & -> & ->)]; simpl; auto. split; [apply frame_refl|auto].
  - intros c f' E. destruct (X c) as [(Y & _)|(f & q & Y1 & Y2)]; [congruence|]. exists f, q. split; auto. congruence.
Qed.
(** the protomolecule step leaves the active components alone, apart from Q *)
Lemma psc_proto_stat : forall g o p p', psc_proto g o p = Ok p' -> pstat p p' /\
  forall c f', In c (comps_ab p) -> p_f p' c = Some f' -> exists f q, p_f p c = Some f /\ f' = fQ f q.
Proof.
  intros g o p p' H. unfold psc_proto in H. match type of H with bind ?m _ = _ => destruct m as [p1|] eqn:E1; [|discriminate] end. cbn [bind] in H.
  match type of H with bind ?m _ = _ => destruct m as [p2|] eqn:E2; [|discriminate] end. cbn [bind] in H.
  assert (S1 : pstat p p1 /\ forall c, In c (comps_ab p) -> p_f p1 c = p_f p c).
  { destruct (po_ab (p_opt p)) eqn:A; [|injection E1 as <-; split; [apply pstat_refl|auto]]. split; [eapply mirror_stat; eauto|]. intros c Hc. apply in_comps_ab in Hc. destruct Hc as (M & T). apply mirrorAB_inv in E1. destruct E1 as (_ & E1 & _). apply (proj1 (E1 c M (T A))). }
  assert (S2 : p_f p2 = p_f p1 /\ pstat p1 p2) by (destruct (ps_target o); [injection E2 as <-; split; [auto|apply pstat_refl]|apply proto_same_f; auto]).
  apply Q_stat in H. destruct H as (S3 & S4). split; [eapply pstat_trans; [apply S1|]; eapply pstat_trans; [apply S2|auto]|].
  intros c f' Hc E. destruct (S4 c f' E) as (f & q & Y1 & Y2). exists f, q. split; auto. destruct S1 as (_ & S1), S2 as (S2 & _). rewrite S2, S1 in Y1 by auto. exact Y1.
Qed.
Lemma avoid_stat : forall it p p', psc_avoid it p = Ok p' -> psame p p'.
Proof. intros it p p' H. unfold psc_avoid in H. destruct (inverting p); [|injection H as <-; apply psame_refl]. destruct (have (p_inv p)); [|discriminate]. cbn [bind] in H. injection H as <-. apply psame_inv. Qed.
Lemma psc_vp_same : forall g w p pv, psc_vp g w p = Ok pv -> psame p (fst pv).
Proof.
  intros g w p pv H. unfold psc_vp in H. destruct (po_iso (p_opt p)).
  - destruct (have (p_nf p)); [|discriminate]. cbn [bind] in H. match type of H with bind ?m _ = _ => destruct m as [p1|] eqn:E; [|discriminate] end. cbn [bind] in H. injection H as <-. cbn [fst].
    eapply forL_psame; [|exact E]. intros c q q' _ X. cbv beta in X. destruct (get_f q c) as [f|] eqn:G; [|discriminate]. cbn [bind] in X. injection X as <-. eapply psame_frag; eauto. repeat split.
  - destruct pv as [p1 v]. eapply potential_same; eauto.
Qed.
Lemma iso_vp : forall g w p pv, psc_vp g w p = Ok pv -> po_iso (p_opt p) = true -> snd pv = (fun _ _ => 0) /\
  (forall c, In c (comps_ab p) -> exists f, p_f p c = Some f /\ p_f (fst pv) c = Some (fV f "vp" (fun _ _ => 0))) /\ forall c, ~ In c (comps_ab p) -> p_f (fst pv) c = p_f p c.
Proof.
  intros g w p pv H I. unfold psc_vp in H. rewrite I in H. destruct (have (p_nf p)); [|discriminate]. cbn [bind] in H. match type of H with bind ?m _ = _ => destruct m as [p1|] eqn:E; [|discriminate] end. cbn [bind] in H. injection H as <-. cbn [fst snd].
  split; auto. assert (E' : forL (comps_ab p) (fun c p => do f <- get_f p c; do f' <- Ok (fV f "vp" (fun _ _ => 0)); Ok (set_frag p c f')) p = Ok p1) by (rewrite <- E; apply forL_ext; intros c q _; destruct (get_f q c); reflexivity).
  apply (forL_frags (fun c p f => Ok (fV f "vp" (fun _ _ => 0)))) in E'; [|intros ? ? ? ?; reflexivity|apply comps_ab_nodup]. destruct E' as (_ & A & Bd). split; auto.
  intros c Hc. destruct (A c Hc) as (f & f' & A1 & A2 & A3). injection A2 as <-. eauto.
Qed.
Lemma comps_ab_stat : forall p p', pstat p p' -> comps_ab p' = comps_ab p.
Proof. intros p p' (A & _ & _ & _ & _ & _ & Bd & _). unfold comps_ab. rewrite A, Bd. reflexivity. Qed.

(** * One pass *)
Lemma psame_f : forall p p' c f', psame p p' -> p_f p' c = Some f' -> exists f, p_f p c = Some f /\ fsame f f'.
Proof. intros p p' c f' (_ & _ & _ & _ & _ & _ & _ & _ & _ & _ & _ & _ & _ & H) E. specialize (H c). rewrite E in H. destruct (p_f p c) as [f|]; [|contradiction]. exists f. auto. Qed.
Lemma psame_f' : forall p p' c f, psame p p' -> p_f p c = Some f -> exists f', p_f p' c = Some f' /\ fsame f f'.
Proof. intros p p' c f (_ & _ & _ & _ & _ & _ & _ & _ & _ & _ & _ & _ & _ & H) E. specialize (H c). rewrite E in H. destruct (p_f p' c) as [f'|]; [|contradiction]. exists f'. auto. Qed.
(** mirrorAB before the potential: active components untouched *)
Lemma mid_mirror : forall g p p', (if po_ab (p_opt p) then mirrorAB g p else Ok p) = Ok p' -> pstat p p' /\ forall c, In c (comps_ab p) -> p_f p' c = p_f p c.
Proof.
  intros g p p' H. destruct (po_ab (p_opt p)) eqn:A; [|injection H as <-; split; [apply pstat_refl|auto]]. split; [eapply mirror_stat; eauto|]. intros c Hc. apply in_comps_ab in Hc. destruct Hc as (M & T). apply mirrorAB_inv in H. destruct H as (_ & H & _). apply (proj1 (H c M (T A))).
Qed.
Theorem pass_static : forall g w o sched s p r, psc_work g w o sched s = Ok (p, r) -> pstat (q_p s) p.
Proof.
  intros g w o sched s p r H. apply work_inv in H. destruct H as (p1 & p2 & p3 & pv & p4 & p5 & W1 & W2 & W3 & W4 & W5 & W6 & W7 & _).
  pose proof (psame_pstat _ _ (avoid_stat _ _ _ W1)) as S1. pose proof (hxc_stat _ _ _ _ W2) as S2. destruct (mid_mirror _ _ _ W3) as (S3 & _). pose proof (psame_pstat _ _ (psc_vp_same _ _ _ _ W4)) as S4.
  pose proof (step_stat _ _ _ _ _ _ _ _ _ (comps_ab_nodup _) W5) as S5. destruct (psc_proto_stat _ _ _ _ W6) as (S6 & _). pose proof (psame_pstat _ _ (energy_same _ _ _ _ W7)) as S7.
  eauto 10 using pstat_trans.
Qed.
Lemma work_frag : forall g w o sched s p r, psc_work g w o sched s = Ok (p, r) -> exists p3 pv vp, psc_vp g w p3 = Ok (pv, vp) /\ pstat (q_p s) p3 /\ p_nf p3 = p_nf (q_p s) /\
  (po_iso (p_opt (q_p s)) = false -> p_V p "vp"%string = Some vp) /\ p_x p = p_x pv /\ p_c p = p_c pv /\
  forall c, In c (comps_ab (q_p s)) -> exists f fh fv fs f', p_f (q_p s) c = Some f /\ hxc_frag g (pe_env w) f = Ok fh /\ p_f p3 c = Some fh /\ p_f pv c = Some fv /\ fsame fh fv /\
    step_frag g (pe_env w) o (sched c) (q_dif s) vp fv = Ok fs /\ p_f p c = Some f' /\ f_ks f' = f_ks fs /\ f_homo f' = f_homo fs /\ f_scale f' = f_scale f /\ f_alpha f' = f_alpha f /\ f_frozen f' = f_frozen f /\ f_V f' "vp"%string = f_V fv "vp"%string.
Proof.
  intros g w o sched s p r H. apply work_inv in H. destruct H as (p1 & p2 & p3 & pv & p4 & p5 & W1 & W2 & W3 & W4 & W5 & W6 & W7 & _). destruct pv as [pv vp]. cbn [fst snd] in *.
  pose proof (avoid_stat _ _ _ W1) as S1. pose proof (hxc_stat _ _ _ _ W2) as S2. destruct (mid_mirror _ _ _ W3) as (S3 & M3). pose proof (psc_vp_same _ _ _ _ W4) as S4. cbn [fst] in S4.
  pose proof (step_stat _ _ _ _ _ _ _ _ _ (comps_ab_nodup _) W5) as S5. destruct (psc_proto_stat _ _ _ _ W6) as (S6 & M6). pose proof (energy_same _ _ _ _ W7) as S7.
  pose proof (psame_pstat _ _ S1) as T1. pose proof (psame_pstat _ _ S4) as T4.
  exists p3, pv, vp. split; auto. split; [eauto using pstat_trans|]. split.
  { assert (N1 : p_nf p1 = p_nf (q_p s)) by apply S1. assert (N2 : p_nf p2 = p_nf p1) by (apply hxc_all in W2; destruct W2 as (-> & _); reflexivity).
    assert (N3 : p_nf p3 = p_nf p2) by (destruct (po_ab (p_opt p2)); [apply mirrorAB_inv in W3; destruct W3 as (-> & _); reflexivity|injection W3 as <-; reflexivity]). congruence. }
  pose proof (energy_yk _ _ _ _ W7) as (X7 & C7 & _ & V7 & F7).
  apply hxc_all in W2. destruct W2 as (_ & B2 & _). apply step_all in W5; [|apply comps_ab_nodup]. destruct W5 as (VW & B5 & _).
  assert (E5 : p_V p5 = p_V p4 /\ p_x p5 = p_x p4 /\ p_c p5 = p_c p4).
  { clear - W6. unfold psc_proto in W6. match type of W6 with bind ?m _ = _ => destruct m as [q1|] eqn:E1; [|discriminate] end. cbn [bind] in W6. match type of W6 with bind ?m _ = _ => destruct m as [q2|] eqn:E2; [|discriminate] end. cbn [bind] in W6.
    apply Q_inv in W6. destruct W6 as (nf & _ & -> & _). cbn [with_f p_V p_x p_c].
    assert (E3 : p_V q2 = p_V q1 /\ p_x q2 = p_x q1 /\ p_c q2 = p_c q1) by (destruct (ps_target o); [injection E2 as <-; auto|unfold calc_protomolecule in E2; dm E2; cbv zeta in E2; injection E2 as <-; auto]).
    assert (E4 : p_V q1 = p_V p4 /\ p_x q1 = p_x p4 /\ p_c q1 = p_c p4) by (destruct (po_ab (p_opt p4)); [apply mirrorAB_inv in E1; destruct E1 as (-> & _); auto|injection E1 as <-; auto]).
    destruct E3 as (-> & -> & ->). exact E4. }
  destruct E5 as (E5 & E5x & E5c).
  split.
  { intros I. assert (O3 : p_opt p3 = p_opt (q_p s)) by (rewrite (proj1 S3), (proj1 S2); apply S1). rewrite <- O3 in I. rewrite V7, E5, VW. cbn [with_f p_V]. clear - W4 I. unfold psc_vp in W4. rewrite I in W4. unfold partition_potential in W4.
    destruct (String.eqb (po_vp (p_opt p3)) "component").
    + destruct (vp_component g w p3) as [q|]; [|discriminate]. cbn [bind] in W4. destruct (attr (p_V q) "vp") as [v|] eqn:A; [|discriminate]. cbn [bind] in W4. injection W4 as <- <-. apply have_some in A. exact A.
    + exfalso. destruct (vp_inversion p3) eqn:V; [|discriminate]. eapply vp_inversion_never; eauto. }
  split; [rewrite X7, E5x, VW; reflexivity|]. split; [rewrite C7, E5c, VW; reflexivity|].
  intros c Hc. assert (C1 : In c (comps_ab p1)) by (rewrite (comps_ab_stat _ _ T1); auto).
  destruct (B2 c C1) as (f1 & fh & X1 & X2 & X3). destruct (psame_f _ _ _ _ S1 X1) as (f & X4 & X5).
  assert (f1 = f).
  { clear - W1 X1 X4. unfold psc_avoid in W1. destruct (inverting (q_p s)); [destruct (have (p_inv (q_p s))); [|discriminate]; cbn [bind] in W1|]; injection W1 as <-; cbn [set_inv p_f] in X1; congruence. } subst f1.
  assert (C2 : In c (comps_ab p2)) by (rewrite (comps_ab_stat _ _ S2); auto). pose proof (M3 c C2) as Y3. rewrite X3 in Y3.
  destruct (B5 c C1) as (fv & fs & Z1 & Z2 & Z3). destruct (psame_f' _ _ _ _ S4 Y3) as (fv' & V1 & V2). rewrite Z1 in V1. injection V1 as <-.
  assert (C4 : In c (comps_ab p4)). { rewrite (comps_ab_stat _ _ (pstat_trans _ _ _ (pstat_trans _ _ _ (pstat_trans _ _ _ S2 S3) T4) S5)). auto. }
  assert (P5 : exists f5, p_f p5 c = Some f5). { destruct S6 as (_ & _ & _ & _ & _ & _ & _ & _ & _ & _ & S6). specialize (S6 c). rewrite Z3 in S6. destruct (p_f p5 c) as [f5|]; [eauto|contradiction]. }
  destruct P5 as (f5 & P5). destruct (M6 c f5 C4 P5) as (f4 & q & Q1 & Q2). rewrite Z3 in Q1. injection Q1 as <-. destruct (psame_f' _ _ _ _ S7 P5) as (f' & Q3 & Q4).
  pose proof (hxc_frag_inv _ _ _ _ X2) as ((_ & H2 & H3 & H4 & _) & _). pose proof (step_inv _ _ _ _ _ _ _ _ Z2) as ((_ & G2 & G3 & G4 & _ & G6) & _).
  specialize (F7 c). rewrite P5, Q3 in F7. cbn [yf] in F7.
  destruct V2 as (U3 & U4 & U5 & U6 & U7 & U8). destruct Q4 as (R1 & R2 & R3 & R4 & R5 & R6). subst f5. cbn [fQ f_ks f_scale f_Q f_alpha f_frozen f_homo] in *.
  exists f, fh, fv, fs, f'. repeat (split; [solve [auto]|]). split; [repeat split; auto|]. repeat (split; [solve [auto]|]). split; [congruence|]. split; [congruence|]. split; [congruence|]. rewrite F7. cbn [fQ f_V]. rewrite G6. reflexivity.
Qed.
