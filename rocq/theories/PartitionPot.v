(** Partition: the partition potential. *)
From Coq Require Import Reals List Arith Lia Lra ZArith Bool String.
From Verif Require Import Base BaseLemmas GridModel GridSpec GridProofs HartreeModel SolverModel SolverSpec LibxcModel OptionsModel KSModel KSSpec KSProofs KSLoop KSEnergy
  InverterModel PartitionModel PartitionSpec PartitionBase PartitionConstr PartitionDens PartitionFrame PartitionEnergy PartitionEp.
Import ListNotations.
Local Open Scope R_scope.

Lemma forL_names : forall (h : string -> part -> res mat) l p p', NoDup l -> (forall nm nm' q x, nm' <> nm -> h nm (set_V q nm' x) = h nm q) ->
  forL l (fun nm p => do x <- h nm p; Ok (set_V p nm x)) p = Ok p' ->
  p_f p' = p_f p /\ (forall nm, In nm l -> exists x, h nm p = Ok x /\ p_V p' nm = Some x) /\ (forall nm, ~ In nm l -> p_V p' nm = p_V p nm).
Proof.
  intros h l. induction l as [|a l IH]; intros p p' N I H; cbn [forL] in H.
  - injection H as <-. split; [reflexivity|]. split; [intros nm []|reflexivity].
  - destruct (h a p) as [x|] eqn:E; [|discriminate]. cbn [bind] in H. inversion N as [|? ? N1 N2]; subst. destruct (IH _ _ N2 I H) as (A & B & C). split; [exact A|]. split.
    + intros nm [<-|Hn]; [exists x; split; auto; rewrite (C a N1); cbn [set_V p_V]; apply aset_same|].
      destruct (B nm Hn) as (y & B1 & B2). exists y. split; [|auto]. rewrite I in B1; auto. intros ->; contradiction.
    + intros nm Hn. rewrite C by (intros X; apply Hn; right; auto). cbn [set_V p_V]. apply aset_other. intros ->. apply Hn. left. auto.
Qed.
Lemma vp_names_nodup : NoDup vp_names.
Proof. unfold vp_names. repeat constructor; simpl; intuition discriminate. Qed.
Lemma fV_same : forall f k x, f_V (fV f k x) k = Some x. Proof. intros. cbn [fV f_V]. apply aset_same. Qed.
Lemma fV_other : forall f k x nm, nm <> k -> f_V (fV f k x) nm = f_V f nm. Proof. intros. cbn [fV f_V]. apply aset_other. auto. Qed.
Lemma vp_accum_inv : forall c p p', vp_accum c p = Ok p' -> exists f a b d Q, p_f p c = Some f /\
  f_V f "vp_pot"%string = Some a /\ f_V f "vp_kin"%string = Some b /\ f_V f "vp_hxc"%string = Some d /\ f_Q f = Some Q /\
  p_f p' c = Some (fV f "vp" (add3 a b d)) /\ (forall e, e <> c -> p_f p' e = p_f p e) /\
  (forall nm, In nm vp_names -> exists v s, f_V (fV f "vp" (add3 a b d)) nm = Some v /\ p_V p nm = Some s /\ p_V p' nm = Some (fun k x => s k x + v k x * Q k x)).
Proof.
  intros c p p' H. unfold vp_accum in H. destruct (vp_own p c) as [p1|] eqn:E1; [|discriminate]. cbn [bind] in H. unfold vp_own in E1.
  destruct (get_f p c) as [f|] eqn:F; [|discriminate]. cbn [bind] in E1. apply get_f_some in F.
  destruct (attr (f_V f) "vp_pot") as [a|] eqn:A; [|discriminate]. cbn [bind] in E1. destruct (attr (f_V f) "vp_kin") as [b|] eqn:B; [|discriminate]. cbn [bind] in E1.
  destruct (attr (f_V f) "vp_hxc") as [d|] eqn:D; [|discriminate]. cbn [bind] in E1. injection E1 as <-. apply have_some in A, B, D.
  set (f' := fV f "vp" (add3 a b d)) in *. set (p1 := set_frag p c f') in *.
  set (h := fun nm p => do f <- get_f p c; do v <- attr (f_V f) nm; do Q <- getQ f; do s <- attr (p_V p) nm; Ok (fun k x => s k x + v k x * Q k x) : res mat).
  assert (H' : forL vp_names (fun nm p => do x <- h nm p; Ok (set_V p nm x)) p1 = Ok p').
  { rewrite <- H. apply forL_ext. intros nm q _. unfold h. destruct (get_f q c) as [f9|]; cbn [bind]; auto. destruct (attr (f_V f9) nm); cbn [bind]; auto. destruct (getQ f9); cbn [bind]; auto. destruct (attr (p_V q) nm); auto. }
  apply forL_names in H'; [|apply vp_names_nodup|].
  2: { intros nm nm' q x Hn. unfold h. change (get_f (set_V q nm' x) c) with (get_f q c). destruct (get_f q c) as [f9|]; cbn [bind]; auto. destruct (attr (f_V f9) nm); cbn [bind]; auto. destruct (getQ f9); cbn [bind]; auto.
       unfold attr. cbn [set_V p_V]. rewrite aset_other by auto. reflexivity. }
  destruct H' as (K1 & K2 & _).
  assert (G1 : get_f p1 c = Ok f') by (unfold get_f; unfold p1; rewrite set_frag_same; reflexivity).
  destruct (getQ f) as [Q|] eqn:Q1.
  - apply getQ_some in Q1. exists f, a, b, d, Q. do 5 (split; [assumption|]). split; [rewrite K1; apply set_frag_same|]. split; [intros e He; rewrite K1; apply set_frag_other; auto|].
    intros nm Hn. destruct (K2 nm Hn) as (x & X1 & X2). unfold h in X1. rewrite G1 in X1. cbn [bind] in X1. destruct (attr (f_V f') nm) as [v|] eqn:V; [|discriminate]. cbn [bind] in X1. unfold getQ in X1. change (f_Q f') with (f_Q f) in X1. rewrite Q1 in X1. cbn [bind] in X1.
    destruct (attr (p_V p1) nm) as [s|] eqn:S; [|discriminate]. cbn [bind] in X1. injection X1 as <-. exists v, s. apply have_some in V, S. auto.
  - exfalso. destruct (K2 "vp"%string) as (x & X1 & _); [left; auto|]. unfold h in X1. rewrite G1 in X1. cbn [bind] in X1. destruct (attr (f_V f') "vp") as [v|]; [|discriminate]. cbn [bind] in X1.
    change (getQ f') with (getQ f) in X1. rewrite Q1 in X1. discriminate.
Qed.
(** accumulated sums *)
Lemma accum_all : forall l p p', NoDup l -> forL l vp_accum p = Ok p' ->
  exists u q, (forall c, In c l -> exists f a b d, p_f p c = Some f /\ f_V f "vp_pot"%string = Some a /\ f_V f "vp_kin"%string = Some b /\ f_V f "vp_hxc"%string = Some d /\ f_Q f = Some (q c) /\
      p_f p' c = Some (fV f "vp" (add3 a b d)) /\ forall nm, In nm vp_names -> f_V (fV f "vp" (add3 a b d)) nm = Some (u c nm)) /\
    (forall c, ~ In c l -> p_f p' c = p_f p c) /\
    forall nm, In nm vp_names -> (l = [] /\ p_V p' nm = p_V p nm) \/ exists s v, p_V p nm = Some s /\ p_V p' nm = Some v /\ forall k x, v k x = s k x + lsum l (fun c => u c nm k x * q c k x).
Proof.
  induction l as [|c l IH]; intros p p' N H; cbn [forL] in H.
  - injection H as <-. exists (fun _ _ _ _ => 0), (fun _ _ _ => 0). split; [intros c []|]. split; auto.
  - destruct (vp_accum c p) as [p1|] eqn:E; [|discriminate]. cbn [bind] in H. inversion N as [|? ? N1 N2]; subst. apply vp_accum_inv in E.
    destruct E as (f & a & b & d & Q & F1 & F2 & F3 & F4 & F5 & F6 & F7 & F8). destruct (IH _ _ N2 H) as (u & q & U1 & U2 & U3).
    exists (fun e => if comp_eqb e c then fun nm => match f_V (fV f "vp" (add3 a b d)) nm with Some v => v | None => fun _ _ => 0 end else u e), (fun e => if comp_eqb e c then Q else q e).
    split; [|split].
    + intros e He. destruct (comp_eqb_spec e c) as [->|Ne].
      * exists f, a, b, d. do 5 (split; [assumption|]). split; [rewrite U2; auto|]. intros nm Hn. destruct (F8 nm Hn) as (v & s & V1 & _). rewrite V1. reflexivity.
      * destruct He as [He|He]; [congruence|]. destruct (U1 e He) as (f' & a' & b' & d' & Y1 & Y). exists f', a', b', d'. rewrite F7 in Y1 by auto. split; auto.
    + intros e He. rewrite U2 by (intros X; apply He; right; auto). apply F7. intros ->. apply He. left; auto.
    + intros nm Hn. right. destruct (F8 nm Hn) as (v & s & V1 & V2 & V3). cbn [lsum]. rewrite comp_eqb_refl, V1.
      assert (X : forall k x, lsum l (fun c0 => (if comp_eqb c0 c then fun nm0 => match f_V (fV f "vp" (add3 a b d)) nm0 with Some v0 => v0 | None => fun _ _ => 0 end else u c0) nm k x * (if comp_eqb c0 c then Q else q c0) k x) = lsum l (fun c0 => u c0 nm k x * q c0 k x)).
      { intros k x. apply lsum_ext. intros e He. destruct (comp_eqb_spec e c) as [->|]; [contradiction|reflexivity]. }
      destruct (U3 nm Hn) as [[-> E]|(s' & v' & W1 & W2 & W3)].
      * exists s. eexists. split; auto. split; [rewrite E; exact V3|]. intros. cbn [lsum]. cbv beta. ring.
      * rewrite V3 in W1. injection W1 as <-. exists s, v'. split; auto. split; auto. intros k x. rewrite W3, X. ring.
Qed.
Lemma vp_map_inv : forall h p p', vp_map h p = Ok p' -> p_f p' = p_f p /\ forall nm, In nm vp_names -> exists v, p_V p nm = Some v /\ p_V p' nm = Some (h v).
Proof.
  intros h p p' H. unfold vp_map in H.
  assert (H' : forL vp_names (fun nm p => do x <- (do v <- attr (p_V p) nm; Ok (h v)); Ok (set_V p nm x)) p = Ok p').
  { rewrite <- H. apply forL_ext. intros nm q _. destruct (attr (p_V q) nm); reflexivity. }
  apply (forL_names (fun nm p => do v <- attr (p_V p) nm; Ok (h v))) in H'; [|apply vp_names_nodup|].
  - destruct H' as (A & B & _). split; auto. intros nm Hn. destruct (B nm Hn) as (x & X1 & X2). destruct (attr (p_V p) nm) as [v|] eqn:E; [|discriminate]. cbn [bind] in X1. injection X1 as <-. apply have_some in E. eauto.
  - intros nm nm' q x Hn. unfold attr. cbn [set_V p_V]. rewrite aset_other by auto. reflexivity.
Qed.
Lemma component_inv : forall g w p p', vp_component g w p = Ok p' ->
  exists p3 u q, (exists p2, vp_hxc g (pe_env w) p2 = Ok p3 /\ p_opt p2 = p_opt p /\ p_ens p2 = p_ens p) /\
    (forall c, member (p_ens p) c -> exists f3 f, p_f p3 c = Some f3 /\ p_f p' c = Some f /\ f_Q f = Some (q c) /\ (forall nm, nm <> "vp"%string -> f_V f nm = f_V f3 nm) /\ (forall nm, In nm vp_names -> f_V f nm = Some (u c nm)) /\
       forall k s, u c "vp"%string k s = u c "vp_pot"%string k s + u c "vp_kin"%string k s + u c "vp_hxc"%string k s) /\
    forall nm, In nm vp_names -> exists v, p_V p' nm = Some v /\ forall k s, (k < Nelem g)%nat -> (s < p_pol p)%nat ->
      v k s = processed g (po_ess (p_opt p)) (po_ab (p_opt p)) (p_pol p) (fun k s => lsum (if p_ens p then [Ca; CA; Cb; CB] else [Ca; Cb]) (fun c => u c nm k s * q c k s)) k s.
Proof.
  intros g w p p' H. unfold vp_component in H. destruct (vp_nuclear p) as [p1|] eqn:E1; [|discriminate]. cbn [bind] in H.
  destruct (vp_kinetic g w p1) as [p2|] eqn:E2; [|discriminate]. cbn [bind] in H. destruct (vp_hxc g (pe_env w) p2) as [p3|] eqn:E3; [|discriminate]. cbn [bind] in H.
  match type of H with bind ?m _ = _ => destruct m as [p4|] eqn:E4; [|discriminate] end. cbn [bind] in H.
  match type of H with bind ?m _ = _ => destruct m as [p5|] eqn:E5; [|discriminate] end. cbn [bind] in H.
  match type of H with bind ?m _ = _ => destruct m as [p6|] eqn:E6; [|discriminate] end. cbn [bind] in H.
  assert (P2 : p_opt p2 = p_opt p /\ p_ens p2 = p_ens p).
  { pose proof (psame_trans _ _ _ (vp_nuclear_same _ _ E1) (vp_kinetic_same _ _ _ _ E2)) as X. split; apply X. }
  assert (H4 : forL vp_names (fun nm p => do x <- (do _ <- have (p_nf p); Ok (fun _ _ => 0)); Ok (set_V p nm x)) p3 = Ok p4).
  { rewrite <- E4. apply forL_ext. intros nm q _. destruct (have (p_nf q)); reflexivity. }
  apply (forL_names (fun nm p => do _ <- have (p_nf p); Ok (fun _ _ => 0))) in H4; [|apply vp_names_nodup|reflexivity].
  destruct H4 as (F4 & V4 & _). destruct (accum_all _ _ _ (comps_nodup _) E5) as (u & q & U1 & U2 & U3).
  exists p3, u, q. split; [exists p2; auto|].
  assert (F6 : p_f p6 = p_f p5 /\ forall nm, In nm vp_names -> exists v, p_V p6 nm = Some v /\ forall k s, (s < p_pol p)%nat -> v k s =
     (let S := fun k s => lsum (if p_ens p then [Ca; CA; Cb; CB] else [Ca; Cb]) (fun c => u c nm k s * q c k s) in S k s + (if po_ess (p_opt p) then S k (p_pol p - 1 - s)%nat else 0))).
  { assert (V5 : forall nm, In nm vp_names -> exists v, p_V p5 nm = Some v /\ forall k s, v k s = lsum (if p_ens p then [Ca; CA; Cb; CB] else [Ca; Cb]) (fun c => u c nm k s * q c k s)).
    { intros nm Hn. destruct (V4 nm Hn) as (x & X1 & X2). destruct (have (p_nf p3)); [|discriminate]. cbn [bind] in X1. injection X1 as <-.
      destruct (U3 nm Hn) as [[Y _]|(s & v & S1 & S2 & S3)]; [unfold comps, comps_a, comps_b in Y; destruct (p_ens p); discriminate|].
      rewrite X2 in S1. injection S1 as <-. exists v. split; auto. intros. rewrite S3, Rplus_0_l. reflexivity. }
    destruct (po_ess (p_opt p)).
    - apply vp_map_inv in E6. destruct E6 as (A & B). split; auto. intros nm Hn. destruct (B nm Hn) as (v & B1 & B2). destruct (V5 nm Hn) as (v' & W1 & W2). rewrite B1 in W1. injection W1 as <-.
      eexists. split; [exact B2|]. intros k s Hs. cbv zeta. unfold with_flip, flip. cbv beta iota. rewrite W2. f_equal. rewrite <- W2. reflexivity.
    - injection E6 as <-. split; auto. intros nm Hn. destruct (V5 nm Hn) as (v & W1 & W2). exists v. split; auto. intros. cbv zeta. rewrite W2. ring. }
  clear V4 U3 E4 E5 E6 E1 E2 E3. destruct F6 as (F6 & V6).
  assert (F7 : p_f p' = p_f p6 /\ forall nm, In nm vp_names -> exists v, p_V p' nm = Some v /\ exists v6, p_V p6 nm = Some v6 /\ v = if po_ab (p_opt p) then sym_avgR g v6 else v6).
  { destruct (po_ab (p_opt p)).
    - apply vp_map_inv in H. destruct H as (A & B). split; auto. intros nm Hn. destruct (B nm Hn) as (v & B1 & B2). eauto.
    - injection H as <-. split; auto. intros nm Hn. destruct (V6 nm Hn) as (v & W1 & _). eauto. }
  destruct F7 as (F7 & V7). split.
  - intros c Hc. destruct (U1 c (proj2 (in_comps _ _) Hc)) as (f & a & b & d & Y1 & Y2 & Y3 & Y4 & Y5 & Y6 & Y7). rewrite F4 in Y1. exists f, (fV f "vp" (add3 a b d)).
    split; auto. split; [rewrite F7, F6; auto|]. split; [exact Y5|]. split; [intros nm Hn; apply fV_other; auto|]. split; auto.
    intros k s. pose proof (Y7 "vp"%string (or_introl eq_refl)) as Z1. rewrite fV_same in Z1. pose proof (Y7 "vp_pot"%string ltac:(simpl; tauto)) as Z2. pose proof (Y7 "vp_kin"%string ltac:(simpl; tauto)) as Z3.
    pose proof (Y7 "vp_hxc"%string ltac:(simpl; tauto)) as Z4. rewrite fV_other in Z2, Z3, Z4 by discriminate. rewrite Y2 in Z2. rewrite Y3 in Z3. rewrite Y4 in Z4.
    injection Z1 as <-. injection Z2 as <-. injection Z3 as <-. injection Z4 as <-. reflexivity.
  - intros nm Hn. destruct (V7 nm Hn) as (v & Y1 & v6 & Y2 & ->). eexists. split; [exact Y1|]. destruct (V6 nm Hn) as (v6' & W1 & W2). rewrite Y2 in W1. injection W1 as <-.
    intros k s Hk Hs. unfold processed. cbv zeta in *. destruct (po_ab (p_opt p)); [|apply W2; auto].
    unfold sym_avgR, sym_avg. rewrite mirror2_mirror1 by auto. rewrite (mirror1_ext _ g (fun x => v6 x s) (fun x => lsum (if p_ens p then [Ca; CA; Cb; CB] else [Ca; Cb]) (fun c => u c nm x s * q c x s) + (if po_ess (p_opt p) then lsum (if p_ens p then [Ca; CA; Cb; CB] else [Ca; Cb]) (fun c => u c nm x (p_pol p - 1 - s)%nat * q c x (p_pol p - 1 - s)%nat) else 0)) k Hk) by (intros; apply W2; auto).
    rewrite W2 by auto. lra.
Qed.
Lemma mirror1_plus : forall g (a b : vec) k, (k < Nelem g)%nat -> mirror1 g (fun x => a x + b x) k = mirror1 g a k + mirror1 g b k.
Proof. intros g a b k Hk. destruct (pos_surj g k Hk) as (ia & ir & P & ->). rewrite !mirror1_pos by auto. reflexivity. Qed.
Lemma processed_ext : forall g ess ab pol A B k s, (k < Nelem g)%nat -> (s < pol)%nat -> (forall k s, (k < Nelem g)%nat -> (s < pol)%nat -> A k s = B k s) ->
  processed g ess ab pol A k s = processed g ess ab pol B k s.
Proof.
  intros g ess ab pol A B k s Hk Hs H. unfold processed. cbv zeta.
  assert (X : forall x, (x < Nelem g)%nat -> A x s + (if ess then A x (pol - 1 - s)%nat else 0) = B x s + (if ess then B x (pol - 1 - s)%nat else 0)).
  { intros x Hx. rewrite (H x s), (H x (pol - 1 - s)%nat) by (auto; lia). reflexivity. }
  destruct ab; [|apply X; auto]. rewrite X by auto. do 2 f_equal. apply mirror1_ext; auto.
Qed.
Lemma processed_plus : forall g ess ab pol A B k s, (k < Nelem g)%nat ->
  processed g ess ab pol (fun k s => A k s + B k s) k s = processed g ess ab pol A k s + processed g ess ab pol B k s.
Proof.
  intros g ess ab pol A B k s Hk. unfold processed. cbv zeta. destruct ab; [|destruct ess; ring].
  rewrite (mirror1_ext _ g (fun x => A x s + B x s + (if ess then A x (pol - 1 - s)%nat + B x (pol - 1 - s)%nat else 0))
     (fun x => (A x s + (if ess then A x (pol - 1 - s)%nat else 0)) + (B x s + (if ess then B x (pol - 1 - s)%nat else 0))) k Hk) by (intros; destruct ess; ring).
  rewrite mirror1_plus by auto. destruct ess; field.
Qed.
Lemma processed_sym : forall g ess pol A v, (forall k s, (k < Nelem g)%nat -> (s < pol)%nat -> v k s = processed g ess true pol A k s) -> symmetric g pol v.
Proof.
  intros g ess pol A v H k s Hk Hs. rewrite (mirror1_ext _ g (fun x => v x s) (fun x => processed g ess true pol A x s) k Hk) by (intros; auto). rewrite (H k s Hk Hs).
  unfold processed. cbv zeta. destruct (pos_surj g k Hk) as (ia & ir & P & ->). rewrite mirror1_pos by auto. rewrite mirror1_pos by (apply mirror_point; auto). rewrite mirror1_pos by auto.
  replace (Na g - 1 - (Na g - 1 - ia))%nat with ia by (destruct P; lia). ring.
Qed.
(** * the exact hxc potential *)
Lemma put_hxc_inv : forall h p p', put_hxc h p = Ok p' -> forall c, member (p_ens p) c -> exists f f' a b d v, p_f p c = Some f /\
  f_V f "vp_h"%string = Some a /\ f_V f "vp_x"%string = Some b /\ f_V f "vp_c"%string = Some d /\ h f a b d = Ok v /\ p_f p' c = Some f' /\ f' = fV f "vp_hxc" v.
Proof.
  intros h p p' H c Hc. unfold put_hxc in H.
  set (hh := fun (c : comp) (p : part) (f : frag) => do a <- attr (f_V f) "vp_h"; do b <- attr (f_V f) "vp_x"; do d <- attr (f_V f) "vp_c"; do v <- h f a b d; Ok (fV f "vp_hxc" v)).
  assert (H' : forL (comps (p_ens p)) (fun c p => do f <- get_f p c; do f' <- hh c p f; Ok (set_frag p c f')) p = Ok p').
  { rewrite <- H. apply forL_ext. intros e q _. unfold hh. destruct (get_f q e) as [f9|]; cbn [bind]; auto. destruct (attr (f_V f9) "vp_h"); cbn [bind]; auto. destruct (attr (f_V f9) "vp_x"); cbn [bind]; auto.
    destruct (attr (f_V f9) "vp_c"); cbn [bind]; auto. destruct (h f9 a a0 a1); reflexivity. }
  apply (forL_frags hh) in H'; [|intros ? ? ? ?; reflexivity|apply comps_nodup]. destruct H' as (_ & B & _). destruct (B c (proj2 (in_comps _ _) Hc)) as (f & f' & B1 & B2 & B3). unfold hh in B2.
  destruct (attr (f_V f) "vp_h") as [a|] eqn:A1; [|discriminate]. cbn [bind] in B2. destruct (attr (f_V f) "vp_x") as [b|] eqn:A2; [|discriminate]. cbn [bind] in B2.
  destruct (attr (f_V f) "vp_c") as [d|] eqn:A3; [|discriminate]. cbn [bind] in B2. destruct (h f a b d) as [v|] eqn:A4; [|discriminate]. cbn [bind] in B2. injection B2 as <-. apply have_some in A1, A2, A3.
  exists f, (fV f "vp_hxc" v), a, b, d, v. auto 10.
Qed.
Lemma vp_hxc_exact : forall g w p p', vp_hxc g w p = Ok p' -> po_hxc (p_opt p) = "exact"%string -> forall c, member (p_ens p) c ->
  exists f a b d v, p_f p' c = Some f /\ f_V f "vp_h"%string = Some a /\ f_V f "vp_x"%string = Some b /\ f_V f "vp_c"%string = Some d /\ f_V f "vp_hxc"%string = Some v /\ forall k s, v k s = a k s + b k s + d k s.
Proof.
  intros g w p p' H HX c Hc. unfold vp_hxc in H. destruct (vp_hxc_parts g w p) as [p1|] eqn:E1; [|discriminate]. cbn [bind] in H. cbv zeta in H. rewrite HX in H.
  change (String.eqb "exact" "overlap_xc" || String.eqb "exact" "overlap_hxc") with false in H. change (String.eqb "exact" "exact") with true in H. cbn [bind] in H.
  pose proof (vp_hxc_parts_same _ _ _ _ E1) as S. assert (EN : p_ens p1 = p_ens p) by apply S.
  destruct (put_hxc_inv _ _ _ H c) as (f & f' & a & b & d & v & B1 & B2 & B3 & B4 & B5 & B6 & B7); [rewrite EN; auto|]. injection B5 as <-.
  exists f', a, b, d, (add3 a b d). subst f'. split; auto 10.
Qed.
(** * Properties of the potential *)
(** [u c nm]: part nm of the embedding potential of component c; [q c]: its Q function. *)
Definition embedding (p : part) (u : comp -> string -> mat) (q : comp -> mat) : Prop :=
  forall c, member (p_ens p) c -> exists f, p_f p c = Some f /\ f_Q f = Some (q c) /\ forall nm, In nm parts -> f_V f nm = Some (u c nm).
Theorem potential_sum : forall g w p p', vp_component g w p = Ok p' -> exists u q, embedding p' u q /\
  (forall c k s, member (p_ens p) c -> u c "vp"%string k s = u c "vp_pot"%string k s + u c "vp_kin"%string k s + u c "vp_hxc"%string k s) /\
  forall nm, In nm parts -> exists v, p_V p' nm = Some v /\ forall k s, (k < Nelem g)%nat -> (s < p_pol p)%nat ->
      v k s = processed g (po_ess (p_opt p)) (po_ab (p_opt p)) (p_pol p) (fun k s => lsum (if p_ens p then [Ca; CA; Cb; CB] else [Ca; Cb]) (fun c => u c nm k s * q c k s)) k s.
Proof.
  intros g w p p' H. pose proof (vp_component_same _ _ _ _ H) as S. assert (EN : p_ens p' = p_ens p) by apply S. clear S.
  apply component_inv in H. destruct H as (p3 & u & q & _ & A & B). exists u, q. split; [|split].
  - intros c Hc. rewrite EN in Hc. destruct (A c Hc) as (f3 & f & _ & A2 & A3 & _ & A5 & _). exists f. auto.
  - intros c k s Hc. destruct (A c Hc) as (f3 & f & _ & _ & _ & _ & _ & A6). apply A6.
  - exact B.
Qed.
Lemma in_parts : forall nm, In nm parts -> In nm vp_names. Proof. auto. Qed.
Theorem potential_splits : forall g w p p', vp_component g w p = Ok p' -> exists v a b d, p_V p' "vp"%string = Some v /\ p_V p' "vp_pot"%string = Some a /\ p_V p' "vp_kin"%string = Some b /\ p_V p' "vp_hxc"%string = Some d /\
  forall k s, (k < Nelem g)%nat -> (s < p_pol p)%nat -> v k s = a k s + b k s + d k s.
Proof.
  intros g w p p' H. destruct (potential_sum g w p p' H) as (u & q & _ & U & V).
  destruct (V "vp"%string) as (v & V1 & V2); [simpl; tauto|]. destruct (V "vp_pot"%string) as (a & A1 & A2); [simpl; tauto|]. destruct (V "vp_kin"%string) as (b & B1 & B2); [simpl; tauto|]. destruct (V "vp_hxc"%string) as (d & D1 & D2); [simpl; tauto|].
  exists v, a, b, d. do 4 (split; [assumption|]). intros k s Hk Hs. rewrite V2, A2, B2, D2 by auto. rewrite <- !processed_plus by auto. apply processed_ext; auto. intros x t _ _.
  rewrite <- !lsum_plus. apply lsum_ext. intros c Hc. assert (M : member (p_ens p) c) by (apply in_comps; exact Hc). rewrite (U c x t M). ring.
Qed.
Theorem exact_splits : forall g w p p', vp_component g w p = Ok p' -> po_hxc (p_opt p) = "exact"%string -> exists v a b d, p_V p' "vp_hxc"%string = Some v /\ p_V p' "vp_h"%string = Some a /\ p_V p' "vp_x"%string = Some b /\ p_V p' "vp_c"%string = Some d /\
  forall k s, (k < Nelem g)%nat -> (s < p_pol p)%nat -> v k s = a k s + b k s + d k s.
Proof.
  intros g w p p' H HX. apply component_inv in H. destruct H as (p3 & u & q & (p2 & P2 & O2 & N2) & A & V).
  assert (U : forall c, member (p_ens p) c -> forall k s, u c "vp_hxc"%string k s = u c "vp_h"%string k s + u c "vp_x"%string k s + u c "vp_c"%string k s).
  { intros c Hc k s. destruct (A c Hc) as (f3 & f & A1 & A2 & A3 & A4 & A5 & _). destruct (vp_hxc_exact _ _ _ _ P2 ltac:(rewrite O2; exact HX) c ltac:(rewrite N2; exact Hc)) as (f' & a & b & d & v & B1 & B2 & B3 & B4 & B5 & B6).
    rewrite A1 in B1. injection B1 as <-. rewrite <- A4 in B2, B3, B4, B5 by discriminate. rewrite (A5 "vp_h"%string) in B2 by (simpl; tauto). rewrite (A5 "vp_x"%string) in B3 by (simpl; tauto). rewrite (A5 "vp_c"%string) in B4 by (simpl; tauto). rewrite (A5 "vp_hxc"%string) in B5 by (simpl; tauto).
    injection B2 as ->. injection B3 as ->. injection B4 as ->. injection B5 as ->. apply B6. }
  destruct (V "vp_hxc"%string) as (v & V1 & V2); [simpl; tauto|]. destruct (V "vp_h"%string) as (a & A1 & A2); [simpl; tauto|]. destruct (V "vp_x"%string) as (b & B1 & B2); [simpl; tauto|]. destruct (V "vp_c"%string) as (d & D1 & D2); [simpl; tauto|].
  exists v, a, b, d. do 4 (split; [assumption|]). intros k s Hk Hs. rewrite V2, A2, B2, D2 by auto. rewrite <- !processed_plus by auto. apply processed_ext; auto. intros x t _ _.
  rewrite <- !lsum_plus. apply lsum_ext. intros c Hc. assert (M : member (p_ens p) c) by (apply in_comps; exact Hc). rewrite (U c M x t). ring.
Qed.
Theorem potential_symmetric : forall g w p p' nm v, vp_component g w p = Ok p' -> po_ab (p_opt p) = true -> In nm parts -> p_V p' nm = Some v -> symmetric g (p_pol p) v.
Proof.
  intros g w p p' nm v H HA Hn Hv. destruct (potential_sum g w p p' H) as (u & q & _ & _ & V). destruct (V nm Hn) as (v' & V1 & V2). rewrite Hv in V1. injection V1 as <-. rewrite HA in V2. eapply processed_sym; eauto.
Qed.
Theorem potential_common : forall g w p p' u q U v, vp_component g w p = Ok p' -> embedding p' u q -> p_V p' "vp"%string = Some v ->
  (forall c k s, member (p_ens p) c -> (k < Nelem g)%nat -> (s < p_pol p)%nat -> u c "vp"%string k s = U k s) ->
  (forall k s, (k < Nelem g)%nat -> (s < p_pol p)%nat -> lsum (if p_ens p then [Ca; CA; Cb; CB] else [Ca; Cb]) (fun c => q c k s + (if po_ess (p_opt p) then q c k (p_pol p - 1 - s)%nat else 0)) = 1) ->
  (po_ess (p_opt p) = true -> forall k s, (k < Nelem g)%nat -> (s < p_pol p)%nat -> U k (p_pol p - 1 - s)%nat = U k s) ->
  (po_ab (p_opt p) = true -> symmetric g (p_pol p) U) ->
  forall k s, (k < Nelem g)%nat -> (s < p_pol p)%nat -> v k s = U k s.
Proof.
  intros g w p p' u q U v H E HV HU HQ HE HA k s Hk Hs. pose proof (vp_component_same _ _ _ _ H) as S. assert (EN : p_ens p' = p_ens p) by apply S. clear S.
  destruct (potential_sum g w p p' H) as (u' & q' & E' & _ & V). destruct (V "vp"%string (or_introl eq_refl)) as (v' & V1 & V2). rewrite HV in V1. injection V1 as <-. rewrite V2 by auto.
  assert (SAME : forall c, member (p_ens p) c -> u' c "vp"%string = u c "vp"%string /\ q' c = q c).
  { intros c Hc. rewrite <- EN in Hc. destruct (E c Hc) as (f & F1 & F2 & F3), (E' c Hc) as (f' & G1 & G2 & G3). rewrite F1 in G1. injection G1 as <-. rewrite F2 in G2. injection G2 as <-.
    specialize (F3 "vp"%string (or_introl eq_refl)). specialize (G3 "vp"%string (or_introl eq_refl)). rewrite F3 in G3. injection G3 as <-. auto. }
  set (L := if p_ens p then [Ca; CA; Cb; CB] else [Ca; Cb]) in *. assert (ML : forall c, In c L -> member (p_ens p) c) by (intros c Hc; apply in_comps; exact Hc).
  assert (X : forall x, (x < Nelem g)%nat -> (lsum L (fun c => u' c "vp"%string x s * q' c x s) + (if po_ess (p_opt p) then lsum L (fun c => u' c "vp"%string x (p_pol p - 1 - s)%nat * q' c x (p_pol p - 1 - s)%nat) else 0)) = U x s).
  { intros x Hx. rewrite (lsum_ext L (fun c => u' c "vp"%string x s * q' c x s) (fun c => U x s * q c x s)).
    2: { intros c Hc. destruct (SAME c (ML c Hc)) as (-> & ->). rewrite HU by auto. reflexivity. }
    rewrite lsum_scal. specialize (HQ x s Hx Hs). rewrite lsum_plus in HQ. destruct (po_ess (p_opt p)).
    - rewrite (lsum_ext L (fun c => u' c "vp"%string x (p_pol p - 1 - s)%nat * q' c x (p_pol p - 1 - s)%nat) (fun c => U x s * q c x (p_pol p - 1 - s)%nat)).
      + rewrite lsum_scal, <- Rmult_plus_distr_l, HQ. ring.
      + intros c Hc. destruct (SAME c (ML c Hc)) as (-> & ->). rewrite HU by (auto; lia). rewrite HE by auto. reflexivity.
    - rewrite (lsum_ext L (fun _ => 0) (fun c => 0 * q c x s)) in HQ by (intros; ring). rewrite lsum_scal in HQ. transitivity (U x s * 1); [rewrite <- HQ; ring|ring]. }
  unfold processed. cbv zeta. destruct (po_ab (p_opt p)); [|apply X; auto].
  rewrite X by auto. rewrite (mirror1_ext _ g _ (fun x => U x s) k Hk) by (intros; apply X; auto). rewrite (HA eq_refl k s Hk Hs). field.
Qed.
