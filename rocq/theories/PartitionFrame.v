(** Partition: what the evaluation of potentials and energies leaves alone. *)
From Coq Require Import Reals List Arith Lia Lra ZArith Bool String.
From Verif Require Import Base BaseLemmas GridModel GridSpec GridProofs HartreeModel SolverModel SolverSpec LibxcModel OptionsModel KSModel KSSpec KSProofs KSLoop
  InverterModel PartitionModel PartitionSpec PartitionBase.
Import ListNotations.
Local Open Scope R_scope.

(** The Kohn-Sham state, weight, Q function, mixing, freezing and recorded HOMOs are the same. *)
Definition fsame (f f' : frag) : Prop :=
  f_ks f' = f_ks f /\ f_scale f' = f_scale f /\ f_Q f' = f_Q f /\ f_alpha f' = f_alpha f /\ f_frozen f' = f_frozen f /\ f_homo f' = f_homo f.
Definition fsame_opt (a b : option frag) : Prop := match a, b with Some f, Some f' => fsame f f' | None, None => True | _, _ => False end.
(** Settings, densities, nuclear potentials and every component in the sense of [fsame]. *)
Definition psame (p p' : part) : Prop :=
  p_opt p' = p_opt p /\ p_pol p' = p_pol p /\ p_Za p' = p_Za p /\ p_Zb p' = p_Zb p /\ p_nua p' = p_nua p /\ p_nub p' = p_nub p /\
  p_ens p' = p_ens p /\ p_va p' = p_va p /\ p_vb p' = p_vb p /\ p_na p' = p_na p /\ p_nb p' = p_nb p /\ p_nf p' = p_nf p /\
  p_V p' "vext"%string = p_V p "vext"%string /\ forall c, fsame_opt (p_f p c) (p_f p' c).

Lemma fsame_refl : forall f, fsame f f. Proof. intros. repeat split. Qed.
Lemma fsame_trans : forall a b c, fsame a b -> fsame b c -> fsame a c.
Proof. unfold fsame. intros a b c (A1 & A2 & A3 & A4 & A5 & A6) (B1 & B2 & B3 & B4 & B5 & B6). repeat split; congruence. Qed.
Lemma fsame_opt_refl : forall a, fsame_opt a a. Proof. intros [f|]; simpl; auto using fsame_refl. Qed.
Lemma fsame_opt_trans : forall a b c, fsame_opt a b -> fsame_opt b c -> fsame_opt a c.
Proof. intros [a|] [b|] [c|]; simpl; try tauto. apply fsame_trans. Qed.
Lemma psame_refl : forall p, psame p p.
Proof. intros. unfold psame. repeat (split; [reflexivity|]). intros. apply fsame_opt_refl. Qed.
Lemma psame_trans : forall a b c, psame a b -> psame b c -> psame a c.
Proof.
  unfold psame. intros a b c (A1 & A2 & A3 & A4 & A5 & A6 & A7 & A8 & A9 & A10 & A11 & A12 & A13 & A14) (B1 & B2 & B3 & B4 & B5 & B6 & B7 & B8 & B9 & B10 & B11 & B12 & B13 & B14).
  repeat (split; [congruence|]). intros. eapply fsame_opt_trans; eauto.
Qed.
Lemma psame_frag : forall p c f f', get_f p c = Ok f -> fsame f f' -> psame p (set_frag p c f').
Proof.
  intros p c f f' H S. apply get_f_some in H. unfold psame. repeat (split; [reflexivity|]). intros d. simpl.
  destruct (comp_eqb_spec d c) as [->|]; [rewrite H; exact S|apply fsame_opt_refl].
Qed.
Lemma psame_V : forall p k x, k <> "vext"%string -> psame p (set_V p k x).
Proof. intros p k x H. unfold psame. repeat (split; [reflexivity|]). split; [|intros; apply fsame_opt_refl]. simpl. unfold aset. destruct (String.eqb_spec "vext" k); congruence. Qed.
Ltac ps_easy := unfold psame; repeat (split; [reflexivity|]); intros; apply fsame_opt_refl.
Lemma psame_vt : forall p c x, psame p (set_vt p c x). Proof. intros; ps_easy. Qed.
Lemma psame_E : forall p k x, psame p (set_E p k x). Proof. intros; ps_easy. Qed.
Lemma psame_T : forall p k x, psame p (set_T p k x). Proof. intros; ps_easy. Qed.
Lemma psame_eks : forall p x, psame p (set_eks p x). Proof. intros; ps_easy. Qed.
Lemma psame_evals : forall p x, psame p (set_evals p x). Proof. intros; ps_easy. Qed.
Lemma psame_xc : forall p x c, psame p (set_xc p x c). Proof. intros; ps_easy. Qed.
Lemma psame_kin : forall p x, psame p (set_kin p x). Proof. intros; ps_easy. Qed.
Lemma psame_inv : forall p x, psame p (set_inv p x). Proof. intros; ps_easy. Qed.
Lemma psame_info : forall p x, psame p (set_info p x). Proof. intros; ps_easy. Qed.
Lemma psame_epk : forall p x, psame p (set_epk p x). Proof. intros; ps_easy. Qed.
Create HintDb ps.
#[export] Hint Resolve psame_refl psame_vt psame_E psame_T psame_eks psame_evals psame_xc psame_kin psame_inv psame_info psame_epk : ps.

Lemma forL_psame : forall X (l : list X) body, (forall x p p', In x l -> body x p = Ok p' -> psame p p') -> forall p p', forL l body p = Ok p' -> psame p p'.
Proof.
  induction l as [|x l IH]; intros body H p p' E; simpl in E.
  - injection E as <-. apply psame_refl.
  - destruct (body x p) as [q|] eqn:B; [|discriminate]. cbn [bind] in E. eapply psame_trans; [eapply H; [left; reflexivity|exact B]|].
    eapply IH; [|exact E]. intros; eapply H; [right|]; eauto.
Qed.
Lemma forN_psame : forall n body, (forall i p p', body i p = Ok p' -> psame p p') -> forall p p', forN n body p = Ok p' -> psame p p'.
Proof.
  induction n as [|n IH]; intros body H p p' E; simpl in E.
  - injection E as <-. apply psame_refl.
  - destruct (forN n body p) as [q|] eqn:B; [|discriminate]. cbn [bind] in E. eapply psame_trans; [eapply IH; eauto|eapply H; eauto].
Qed.
(** Take apart a successful computation. *)
Ltac dm H :=
  repeat (cbn [bind] in H;
    match type of H with
    | Ok _ = Ok _ => fail 1
    | Err _ = Ok _ => discriminate H
    | bind ?m _ = Ok _ => destruct m eqn:?; [|discriminate H]
    | (let '(_, _) := ?x in _) = Ok _ => destruct x
    | (let x := _ in _) = Ok _ => cbv zeta in H
    | (if ?b then _ else _) = Ok _ => destruct b eqn:?
    | (match ?b with _ => _ end) = Ok _ => destruct b eqn:?
    end).
Ltac okinj H := injection H as H; subst.

(** * vp_nuclear, vp_kinetic *)
Lemma vp_nuclear_same : forall p p', vp_nuclear p = Ok p' -> psame p p'.
Proof. intros p p' H. eapply forL_psame; [|exact H]. intros c q q' _ E. cbv beta in E. dm E. injection E as <-. eapply psame_frag; eauto. repeat split. Qed.
Lemma vpk_vonweiz_same : forall g p p', vpk_vonweiz g p = Ok p' -> psame p p'.
Proof.
  intros g p p' H. unfold vpk_vonweiz in H. dm H. eapply psame_trans; [apply psame_vt|]. eapply forL_psame; [|exact H]. intros c q q' _ E. cbv beta in E. dm E. injection E as <-. eapply psame_frag; eauto. repeat split.
Qed.
Lemma vpk_libxc_same : forall g w p p', vpk_libxc g w p = Ok p' -> psame p p'.
Proof.
  intros g w p p' H. unfold vpk_libxc in H. dm H. eapply psame_trans; [apply psame_kin|]. eapply psame_trans; [apply psame_vt|]. eapply forL_psame; [|exact H].
  intros c q q' _ E. cbv beta in E. dm E. injection E as <-. eapply psame_frag; eauto. repeat split.
Qed.
Lemma vpk_none_same : forall p p', vpk_none p = Ok p' -> psame p p'.
Proof.
  intros p p' H. unfold vpk_none in H. dm H. eapply psame_trans; [apply psame_vt|]. eapply forL_psame; [|exact H]. intros c q q' _ E. cbv beta in E. dm E. injection E as <-. eapply psame_frag; eauto. repeat split.
Qed.
Lemma vpk_two_same : forall g p p', vpk_two g p = Ok p' -> psame p p'.
Proof.
  intros g p p' H. unfold vpk_two in H. dm H. injection H as <-. eapply psame_trans; [|apply psame_vt].
  match goal with K : forL _ _ _ = Ok _ |- _ => eapply forL_psame; [|exact K] end. intros c q q' _ E. cbv beta in E. dm E. injection E as <-. eapply psame_frag; eauto. repeat split.
Qed.
Lemma inv_spin_same : forall g w s p p', inv_spin g w s p = Ok p' -> psame p p'.
Proof. intros g w s p p' H. unfold inv_spin in H. dm H. injection H as <-. eapply psame_trans; [apply psame_inv|apply psame_info]. Qed.
Lemma vpk_inversion_same : forall g w p p', vpk_inversion g w p = Ok p' -> psame p p'.
Proof.
  intros g w p p' H. unfold vpk_inversion in H.
  destruct (inv_chempot p) as [u|]; [|discriminate]. cbn [bind] in H.
  match type of H with bind ?m _ = _ => destruct m as [p1|] eqn:E1; [|discriminate] end. cbn [bind] in H.
  match type of H with bind ?m _ = _ => destruct m as [p2|] eqn:E2; [|discriminate] end. cbn [bind] in H.
  match type of H with bind ?m _ = _ => destruct m as [iv|] eqn:E3; [|discriminate] end. cbn [bind] in H.
  match type of H with bind ?m _ = _ => destruct m as [iv1|] eqn:E4; [|discriminate] end. cbn [bind] in H.
  match type of H with bind ?m _ = _ => destruct m as [[[r c] v]|] eqn:E5; [|discriminate] end. cbn [bind] in H. injection H as <-.
  eapply psame_trans; [|eapply psame_trans; [|eapply psame_trans; [apply psame_inv|apply psame_vt]]].
  - eapply forL_psame; [|exact E1]. intros c0 q q' _ E. cbv beta in E. dm E. injection E as <-. eapply psame_frag; eauto. repeat split.
  - eapply forN_psame; [|exact E2]. intros i q q' E. eapply inv_spin_same; eauto.
Qed.
Lemma vpk_finish_same : forall g p p', vpk_finish g p = Ok p' -> psame p p'.
Proof.
  intros g p p' H. unfold vpk_finish in H. destruct (String.eqb _ "twoorbital").
  - dm H. injection H as <-. match goal with A : get_f p Ca = Ok ?a, B : get_f p Cb = Ok ?b |- _ => rename A into GA; rename B into GB; rename a into fa; rename b into fb end.
    eapply psame_trans; [|eapply (psame_frag _ _ fb)].
    + apply (psame_frag _ _ fa); [exact GA|repeat split].
    + unfold get_f. rewrite set_frag_other by congruence. exact GB.
    + repeat split.
  - destruct (String.eqb _ "fixed"); [injection H as <-; apply psame_refl|]. eapply forL_psame; [|exact H]. intros c q q' _ E. cbv beta in E. dm E. injection E as <-. eapply psame_frag; eauto. repeat split.
Qed.
Lemma vp_kinetic_same : forall g w p p', vp_kinetic g w p = Ok p' -> psame p p'.
Proof.
  intros g w p p' H. unfold vp_kinetic in H. cbv zeta in H. match type of H with bind ?m _ = _ => destruct m as [p1|] eqn:E1; [|discriminate] end. cbn [bind] in H.
  eapply psame_trans; [|eapply vpk_finish_same; eauto].
  destruct (String.eqb _ "vonweiz"); [eapply vpk_vonweiz_same; eauto|]. destruct (String.eqb _ "libxcke"); [eapply vpk_libxc_same; eauto|].
  destruct (String.eqb _ "paramke"); [discriminate|]. destruct (String.eqb _ "inversion"); [eapply vpk_inversion_same; eauto|].
  destruct (String.eqb _ "none"); [eapply vpk_none_same; eauto|]. destruct (String.eqb _ "twoorbital"); [eapply vpk_two_same; eauto|].
  destruct (String.eqb _ "fixed"); [injection E1 as <-; apply psame_refl|discriminate].
Qed.

(** * energies *)
Lemma vp_overlap_same : forall g p p', vp_overlap g p = Ok p' -> psame p p'.
Proof.
  intros g p p' H. unfold vp_overlap in H.
  destruct (axis1 (p_na p)) as [na|]; [|discriminate]. cbn [bind] in H. destruct (have (p_nb p)) as [nb|]; [|discriminate]. cbn [bind] in H.
  destruct (overlap_S _ _ _ _) as [S|]; [|discriminate]. cbn [bind] in H. cbv zeta in H.
  match type of H with bind ?m _ = _ => destruct m as [p1|] eqn:E1; [|discriminate] end. cbn [bind] in H.
  eapply psame_trans; [|eapply psame_trans].
  2: { eapply forL_psame; [|exact E1]. intros c q q' _ E. cbv beta in E. dm E. injection E as <-. eapply psame_frag; eauto. repeat split. }
  - eapply psame_trans; apply psame_E.
  - eapply forL_psame; [|exact H]. intros c q q' _ E. cbv beta in E. dm E. injection E as <-. eapply psame_frag; eauto. repeat split.
Qed.
Lemma EnsCorHar_same : forall g p p', EnsCorHar g p = Ok p' -> psame p p'.
Proof.
  intros g p p' H. unfold EnsCorHar in H. destruct (negb (p_ens p)); [discriminate|].
  match type of H with bind ?m _ = _ => destruct m as [p1|] eqn:E1; [|discriminate] end. cbn [bind] in H.
  match type of H with bind ?m _ = _ => destruct m as [p2|] eqn:E2; [|discriminate] end. cbn [bind] in H.
  match type of H with bind ?m _ = _ => destruct m as [e|] eqn:E3; [|discriminate] end. cbn [bind] in H. injection H as <-.
  eapply psame_trans; [|eapply psame_trans; [|apply psame_E]].
  - eapply forL_psame; [|exact E1]. intros c q q' _ E. cbv beta in E. dm E. injection E as <-. eapply psame_frag; eauto. repeat split.
  - eapply forL_psame; [|exact E2]. intros c q q' _ E. cbv beta in E. dm E. injection E as <-. eapply psame_frag; eauto. repeat split.
Qed.
Lemma ep_nuclear_same : forall g p p', ep_nuclear g p = Ok p' -> psame p p'.
Proof. intros g p p' H. unfold ep_nuclear in H. dm H. injection H as <-. apply psame_E. Qed.
Lemma ep_kinetic_same : forall g p p', ep_kinetic g p = Ok p' -> psame p p'.
Proof.
  intros g p p' H. unfold ep_kinetic in H. cbv zeta in H. match type of H with bind ?m _ = _ => destruct m as [[p1 [[[Tm tm] Tf] tf]]|] eqn:E1; [|discriminate] end. cbn [bind] in H.
  injection H as <-. eapply psame_trans; [|eapply psame_trans; [apply psame_T|apply psame_epk]].
  destruct (String.eqb _ "vonweiz"); [unfold epk_vonweiz in E1; dm E1; injection E1 as <- _ _ _ _; apply psame_refl|].
  destruct (String.eqb _ "libxcke" || _); [unfold epk_libxc in E1; dm E1; injection E1 as <- _ _ _ _; apply psame_refl|].
  destruct (String.eqb _ "inversion"); [unfold epk_inversion in E1; dm E1; injection E1 as <- _ _ _ _; apply psame_inv|].
  destruct (String.eqb _ "none"); [unfold epk_none in E1; injection E1 as <- _ _ _ _; apply psame_refl|].
  destruct (String.eqb _ "twoorbital"); [|discriminate]. unfold epk_two in E1. dm E1; injection E1 as <- _ _ _ _; (eapply psame_trans; apply psame_V; discriminate).
Qed.
Lemma ep_dft_same : forall g w p p', ep_dft g w p = Ok p' -> psame p p'.
Proof.
  intros g w p p' H. unfold ep_dft in H. destruct (String.eqb _ "dft").
  - dm H; injection H as <-. do 3 (eapply psame_trans; [apply psame_E|]). do 2 (eapply psame_trans; [|apply psame_V; discriminate]). apply psame_V; discriminate.
  - injection H as <-. do 2 (eapply psame_trans; [apply psame_E|]). apply psame_E.
Qed.
Lemma ep_hxc_same : forall g w p p', ep_hxc g w p = Ok p' -> psame p p'.
Proof.
  intros g w p p' H. unfold ep_hxc in H. destruct (ep_dft g w p) as [p1|] eqn:E1; [|discriminate]. cbn [bind] in H. cbv zeta in H. eapply psame_trans; [eapply ep_dft_same; eauto|].
  destruct (String.eqb _ "exact"); [dm H; injection H as <-; apply psame_E|].
  destruct (String.eqb _ "hartree"); [dm H; injection H as <-; apply psame_E|].
  destruct (String.eqb _ "overlap_xc").
  { destruct (vp_overlap g p1) as [p2|] eqn:E2; [|discriminate]. cbn [bind] in H. dm H; injection H as <-. eapply psame_trans; [eapply vp_overlap_same; eauto|apply psame_E]. }
  destruct (String.eqb _ "overlap_hxc" || _); [|discriminate].
  destruct (vp_overlap g p1) as [p2|] eqn:E2; [|discriminate]. cbn [bind] in H. destruct (EnsCorHar g p2) as [p3|] eqn:E3; [|discriminate]. cbn [bind] in H. dm H; injection H as <-.
  eapply psame_trans; [eapply vp_overlap_same; eauto|]. eapply psame_trans; [eapply EnsCorHar_same; eauto|apply psame_E].
Qed.
Lemma partition_energy_same : forall g w p p', partition_energy g w p = Ok p' -> psame p p'.
Proof.
  intros g w p p' H. unfold partition_energy in H. destruct (po_iso (p_opt p)).
  - injection H as <-. eapply psame_trans; [|apply psame_E]. eapply psame_trans; [|apply psame_T]. eapply psame_trans; [|apply psame_E]. apply psame_T.
  - destruct (ep_nuclear g p) as [p1|] eqn:E1; [|discriminate]. cbn [bind] in H. destruct (ep_kinetic g p1) as [p2|] eqn:E2; [|discriminate]. cbn [bind] in H.
    destruct (ep_hxc g w p2) as [p3|] eqn:E3; [|discriminate]. cbn [bind] in H. dm H; injection H as <-.
    eapply psame_trans; [eapply ep_nuclear_same; eauto|]. eapply psame_trans; [eapply ep_kinetic_same; eauto|]. eapply psame_trans; [eapply ep_hxc_same; eauto|apply psame_T].
Qed.
#[local] Opaque set_E set_T set_eks set_evals set_V set_xc set_epk set_inv.
Lemma energy_same : forall g w p p', energy g w p = Ok p' -> psame p p'.
Proof.
  intros g w p p' H. unfold energy in H. cbv zeta in H.
  match type of H with bind ?m _ = _ => destruct m as [a|] eqn:E1; [|discriminate] end. cbn [bind] in H.
  match type of H with bind ?m _ = _ => destruct m as [b|] eqn:E2; [|discriminate] end. cbn [bind] in H.
  match type of H with bind ?m _ = _ => destruct m as [p3|] eqn:E3; [|discriminate] end. cbn [bind] in H.
  match type of H with bind ?m _ = _ => destruct m as [Ep|] eqn:E4; [|discriminate] end. cbn [bind] in H.
  match type of H with bind ?m _ = _ => destruct m as [ea|] eqn:E5; [|discriminate] end. cbn [bind] in H.
  match type of H with bind ?m _ = _ => destruct m as [eb|] eqn:E6; [|discriminate] end. cbn [bind] in H. injection H as <-.
  apply partition_energy_same in E3.
  eapply psame_trans; [|eapply psame_trans; [exact E3|]].
  - eapply psame_trans; [|apply psame_eks]. do 8 (eapply psame_trans; [|apply psame_E]). apply psame_E.
  - eapply psame_trans; [|apply psame_evals]. eapply psame_trans; [|apply psame_T]. eapply psame_trans; [apply psame_T|apply psame_E].
Qed.

(** * potentials *)
Lemma vp_hxc_parts_same : forall g w p p', vp_hxc_parts g w p = Ok p' -> psame p p'.
Proof.
  intros g w p p' H. unfold vp_hxc_parts in H. cbv zeta in H. destruct (String.eqb _ "exact" && _).
  - eapply forL_psame; [|exact H]. intros c q q' _ E. cbv beta in E. dm E. injection E as <-. eapply psame_frag; eauto. repeat split.
  - destruct (negb _); [discriminate|]. dm H. eapply psame_trans; [|eapply forL_psame; [|exact H]].
    + eapply psame_trans; [|apply psame_xc]. do 2 (eapply psame_trans; [|apply psame_V; discriminate]). apply psame_V; discriminate.
    + intros c q q' _ E. cbv beta in E. dm E. injection E as <-. eapply psame_frag; eauto. repeat split.
Qed.
Lemma put_hxc_same : forall h p p', put_hxc h p = Ok p' -> psame p p'.
Proof. intros h p p' H. eapply forL_psame; [|exact H]. intros c q q' _ E. cbv beta in E. dm E. injection E as <-. eapply psame_frag; eauto. repeat split. Qed.
Lemma vp_hxc_same : forall g w p p', vp_hxc g w p = Ok p' -> psame p p'.
Proof.
  intros g w p p' H. unfold vp_hxc in H. destruct (vp_hxc_parts g w p) as [p1|] eqn:E1; [|discriminate]. cbn [bind] in H. cbv zeta in H.
  eapply psame_trans; [eapply vp_hxc_parts_same; eauto|].
  match type of H with bind ?m _ = _ => destruct m as [p2|] eqn:E2; [|discriminate] end. cbn [bind] in H.
  assert (S2 : psame p1 p2) by (destruct (String.eqb _ "overlap_xc" || _); [eapply vp_overlap_same; eauto|injection E2 as <-; apply psame_refl]).
  eapply psame_trans; [exact S2|]. clear E2 S2.
  destruct (String.eqb _ "exact"); [eapply put_hxc_same; eauto|]. destruct (String.eqb _ "hartree"); [eapply put_hxc_same; eauto|].
  destruct (String.eqb _ "overlap_xc").
  { destruct (energy g w p2) as [p3|] eqn:E3; [|discriminate]. cbn [bind] in H. dm H. eapply psame_trans; [eapply energy_same; eauto|eapply put_hxc_same; eauto]. }
  destruct (String.eqb _ "overlap_hxc").
  { destruct (EnsCorHar g p2) as [p3|] eqn:E3; [|discriminate]. cbn [bind] in H. destruct (energy g w p3) as [p4|] eqn:E4; [|discriminate]. cbn [bind] in H. dm H.
    eapply psame_trans; [eapply EnsCorHar_same; eauto|]. eapply psame_trans; [eapply energy_same; eauto|eapply put_hxc_same; eauto]. }
  destruct (String.eqb _ "surprisal"); discriminate.
Qed.
Lemma vp_names_ext : forall nm, In nm vp_names -> nm <> "vext"%string.
Proof. intros nm H ->. simpl in H. intuition discriminate. Qed.
Lemma vp_accum_same : forall c p p', vp_accum c p = Ok p' -> psame p p'.
Proof.
  intros c p p' H. unfold vp_accum in H. destruct (vp_own p c) as [p1|] eqn:E1; [|discriminate]. cbn [bind] in H. apply (psame_trans _ p1).
  - unfold vp_own in E1. dm E1. injection E1 as <-. eapply psame_frag; eauto. repeat split.
  - eapply forL_psame; [|exact H]. intros nm q q' I E. cbv beta in E. dm E. injection E as <-. apply psame_V. apply vp_names_ext. auto.
Qed.
Lemma vp_map_same : forall h p p', vp_map h p = Ok p' -> psame p p'.
Proof. intros h p p' H. eapply forL_psame; [|exact H]. intros nm q q' I E. cbv beta in E. dm E. injection E as <-. apply psame_V. apply vp_names_ext. auto. Qed.
Lemma vp_component_same : forall g w p p', vp_component g w p = Ok p' -> psame p p'.
Proof.
  intros g w p p' H. unfold vp_component in H. destruct (vp_nuclear p) as [p1|] eqn:E1; [|discriminate]. cbn [bind] in H.
  destruct (vp_kinetic g w p1) as [p2|] eqn:E2; [|discriminate]. cbn [bind] in H. destruct (vp_hxc g (pe_env w) p2) as [p3|] eqn:E3; [|discriminate]. cbn [bind] in H.
  match type of H with bind ?m _ = _ => destruct m as [p4|] eqn:E4; [|discriminate] end. cbn [bind] in H.
  match type of H with bind ?m _ = _ => destruct m as [p5|] eqn:E5; [|discriminate] end. cbn [bind] in H.
  match type of H with bind ?m _ = _ => destruct m as [p6|] eqn:E6; [|discriminate] end. cbn [bind] in H.
  eapply psame_trans; [eapply vp_nuclear_same; eauto|]. eapply psame_trans; [eapply vp_kinetic_same; eauto|]. eapply psame_trans; [eapply vp_hxc_same; eauto|].
  eapply psame_trans; [eapply forL_psame; [|exact E4]|].
  { intros nm q q' I E. cbv beta in E. dm E. injection E as <-. apply psame_V. apply vp_names_ext. auto. }
  eapply psame_trans; [eapply forL_psame; [|exact E5]|].
  { intros. eapply vp_accum_same; eauto. }
  eapply psame_trans with p6.
  - destruct (po_ess (p_opt p)); [eapply vp_map_same; eauto|injection E6 as <-; apply psame_refl].
  - destruct (po_ab (p_opt p)); [eapply vp_map_same; eauto|injection H as <-; apply psame_refl].
Qed.
Lemma vp_inversion_never : forall p p', vp_inversion p <> Ok p'.
Proof. intros p p' H. unfold vp_inversion in H. dm H. Qed.
Lemma potential_same : forall g w p p' v, partition_potential g w p = Ok (p', v) -> psame p p'.
Proof.
  intros g w p p' v H. unfold partition_potential in H. destruct (String.eqb _ "component").
  - destruct (vp_component g w p) as [p1|] eqn:E; [|discriminate]. cbn [bind] in H. dm H. injection H as <- <-. eapply vp_component_same; eauto.
  - destruct (vp_inversion p) as [p1|] eqn:E; [|discriminate]. exfalso. eapply vp_inversion_never; eauto.
Qed.
