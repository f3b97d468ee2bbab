(** Partition: what the evaluation of the energies leaves alone besides [psame]: the partition potential, the
    embedding potentials and the exchange-correlation energies of the molecule. *)
From Coq Require Import Reals List Arith Lia Lra ZArith Bool String.
From Verif Require Import Base BaseLemmas GridModel GridSpec GridProofs HartreeModel SolverModel SolverSpec LibxcModel OptionsModel KSModel KSSpec KSProofs KSLoop
  InverterModel PartitionModel PartitionSpec PartitionBase PartitionFrame PartitionEnergy.
Import ListNotations.
Local Open Scope R_scope.

Definition yf (a b : option frag) : Prop := match a, b with Some f, Some f' => f_V f' "vp"%string = f_V f "vp"%string | None, None => True | _, _ => False end.
Definition yk (p p' : part) : Prop :=
  p_x p' = p_x p /\ p_c p' = p_c p /\ p_info p' = p_info p /\ p_V p' "vp"%string = p_V p "vp"%string /\ forall c, yf (p_f p c) (p_f p' c).
Lemma yf_refl : forall a, yf a a. Proof. intros [f|]; simpl; auto. Qed.
Lemma yk_refl : forall p, yk p p. Proof. intros. repeat (split; [reflexivity|]). intros; apply yf_refl. Qed.
Lemma yk_trans : forall a b c, yk a b -> yk b c -> yk a c.
Proof.
  intros a b c (A1 & A2 & A3 & A4 & A5) (B1 & B2 & B3 & B4 & B5). repeat (split; [congruence|]). intros d. specialize (A5 d). specialize (B5 d).
  destruct (p_f a d), (p_f b d), (p_f c d); simpl in *; try tauto; congruence.
Qed.
Lemma yk_frag : forall p c f f', get_f p c = Ok f -> f_V f' "vp"%string = f_V f "vp"%string -> yk p (set_frag p c f').
Proof.
  intros p c f f' H S. apply get_f_some in H. repeat (split; [reflexivity|]). intros d. simpl. destruct (comp_eqb_spec d c) as [->|]; [rewrite H; exact S|apply yf_refl].
Qed.
Lemma yk_V : forall p k x, k <> "vp"%string -> yk p (set_V p k x).
Proof. intros p k x H. do 3 (split; [reflexivity|]). split; [|intros; apply yf_refl]. cbn [set_V p_V]. apply aset_other. congruence. Qed.
Ltac ye := repeat (split; [reflexivity|]); intros; apply yf_refl.
Lemma yk_E : forall p k x, yk p (set_E p k x). Proof. intros; ye. Qed.
Lemma yk_T : forall p k x, yk p (set_T p k x). Proof. intros; ye. Qed.
Lemma yk_eks : forall p x, yk p (set_eks p x). Proof. intros; ye. Qed.
Lemma yk_evals : forall p x, yk p (set_evals p x). Proof. intros; ye. Qed.
Lemma yk_inv : forall p x, yk p (set_inv p x). Proof. intros; ye. Qed.
Lemma yk_epk : forall p x, yk p (set_epk p x). Proof. intros; ye. Qed.
Lemma forL_yk : forall X (l : list X) body, (forall x p p', In x l -> body x p = Ok p' -> yk p p') -> forall p p', forL l body p = Ok p' -> yk p p'.
Proof.
  induction l as [|x l IH]; intros body H p p' E; simpl in E.
  - injection E as <-. apply yk_refl.
  - destruct (body x p) as [q|] eqn:B; [|discriminate]. cbn [bind] in E. eapply yk_trans; [eapply H; [left; reflexivity|exact B]|].
    eapply IH; [|exact E]. intros; eapply H; [right|]; eauto.
Qed.
Ltac ytac := cbn [fV fE f_V]; rewrite ?aset_other by discriminate; reflexivity.

(** * energies *)
Lemma vp_overlap_yk : forall g p p', vp_overlap g p = Ok p' -> yk p p'.
Proof.
  intros g p p' H. unfold vp_overlap in H.
  destruct (axis1 (p_na p)) as [na|]; [|discriminate]. cbn [bind] in H. destruct (have (p_nb p)) as [nb|]; [|discriminate]. cbn [bind] in H.
  destruct (overlap_S _ _ _ _) as [S|]; [|discriminate]. cbn [bind] in H. cbv zeta in H.
  match type of H with bind ?m _ = _ => destruct m as [p1|] eqn:E1; [|discriminate] end. cbn [bind] in H.
  eapply yk_trans; [|eapply yk_trans].
  2: { eapply forL_yk; [|exact E1]. intros c q q' _ E. cbv beta in E. dm E. injection E as <-. eapply yk_frag; eauto; ytac. }
  - eapply yk_trans; apply yk_E.
  - eapply forL_yk; [|exact H]. intros c q q' _ E. cbv beta in E. dm E. injection E as <-. eapply yk_frag; eauto; ytac.
Qed.
Lemma EnsCorHar_yk : forall g p p', EnsCorHar g p = Ok p' -> yk p p'.
Proof.
  intros g p p' H. unfold EnsCorHar in H. destruct (negb (p_ens p)); [discriminate|].
  match type of H with bind ?m _ = _ => destruct m as [p1|] eqn:E1; [|discriminate] end. cbn [bind] in H.
  match type of H with bind ?m _ = _ => destruct m as [p2|] eqn:E2; [|discriminate] end. cbn [bind] in H.
  match type of H with bind ?m _ = _ => destruct m as [e|] eqn:E3; [|discriminate] end. cbn [bind] in H. injection H as <-.
  eapply yk_trans; [|eapply yk_trans; [|apply yk_E]].
  - eapply forL_yk; [|exact E1]. intros c q q' _ E. cbv beta in E. dm E. injection E as <-. eapply yk_frag; eauto; ytac.
  - eapply forL_yk; [|exact E2]. intros c q q' _ E. cbv beta in E. dm E. injection E as <-. eapply yk_frag; eauto; ytac.
Qed.
Lemma ep_nuclear_yk : forall g p p', ep_nuclear g p = Ok p' -> yk p p'.
Proof. intros g p p' H. unfold ep_nuclear in H. dm H. injection H as <-. apply yk_E. Qed.
Lemma ep_kinetic_yk : forall g p p', ep_kinetic g p = Ok p' -> yk p p'.
Proof.
  intros g p p' H. unfold ep_kinetic in H. cbv zeta in H. match type of H with bind ?m _ = _ => destruct m as [[p1 [[[Tm tm] Tf] tf]]|] eqn:E1; [|discriminate] end. cbn [bind] in H.
  injection H as <-. eapply yk_trans; [|eapply yk_trans; [apply yk_T|apply yk_epk]].
  destruct (String.eqb _ "vonweiz"); [unfold epk_vonweiz in E1; dm E1; injection E1 as <- _ _ _ _; apply yk_refl|].
  destruct (String.eqb _ "libxcke" || _); [unfold epk_libxc in E1; dm E1; injection E1 as <- _ _ _ _; apply yk_refl|].
  destruct (String.eqb _ "inversion"); [unfold epk_inversion in E1; dm E1; injection E1 as <- _ _ _ _; apply yk_inv|].
  destruct (String.eqb _ "none"); [unfold epk_none in E1; injection E1 as <- _ _ _ _; apply yk_refl|].
  destruct (String.eqb _ "twoorbital"); [|discriminate]. unfold epk_two in E1. dm E1; injection E1 as <- _ _ _ _; (eapply yk_trans; apply yk_V; discriminate).
Qed.
Lemma ep_dft_yk : forall g w p p', ep_dft g w p = Ok p' -> yk p p'.
Proof.
  intros g w p p' H. unfold ep_dft in H. destruct (String.eqb _ "dft").
  - dm H; injection H as <-. do 3 (eapply yk_trans; [apply yk_E|]). do 2 (eapply yk_trans; [|apply yk_V; discriminate]). apply yk_V; discriminate.
  - injection H as <-. do 2 (eapply yk_trans; [apply yk_E|]). apply yk_E.
Qed.
Lemma ep_hxc_yk : forall g w p p', ep_hxc g w p = Ok p' -> yk p p'.
Proof.
  intros g w p p' H. unfold ep_hxc in H. destruct (ep_dft g w p) as [p1|] eqn:E1; [|discriminate]. cbn [bind] in H. cbv zeta in H. eapply yk_trans; [eapply ep_dft_yk; eauto|].
  destruct (String.eqb _ "exact"); [dm H; injection H as <-; apply yk_E|].
  destruct (String.eqb _ "hartree"); [dm H; injection H as <-; apply yk_E|].
  destruct (String.eqb _ "overlap_xc").
  { destruct (vp_overlap g p1) as [p2|] eqn:E2; [|discriminate]. cbn [bind] in H. dm H; injection H as <-. eapply yk_trans; [eapply vp_overlap_yk; eauto|apply yk_E]. }
  destruct (String.eqb _ "overlap_hxc" || _); [|discriminate].
  destruct (vp_overlap g p1) as [p2|] eqn:E2; [|discriminate]. cbn [bind] in H. destruct (EnsCorHar g p2) as [p3|] eqn:E3; [|discriminate]. cbn [bind] in H. dm H; injection H as <-.
  eapply yk_trans; [eapply vp_overlap_yk; eauto|]. eapply yk_trans; [eapply EnsCorHar_yk; eauto|apply yk_E].
Qed.
Lemma partition_energy_yk : forall g w p p', partition_energy g w p = Ok p' -> yk p p'.
Proof.
  intros g w p p' H. unfold partition_energy in H. destruct (po_iso (p_opt p)).
  - injection H as <-. eapply yk_trans; [|apply yk_E]. eapply yk_trans; [|apply yk_T]. eapply yk_trans; [|apply yk_E]. apply yk_T.
  - destruct (ep_nuclear g p) as [p1|] eqn:E1; [|discriminate]. cbn [bind] in H. destruct (ep_kinetic g p1) as [p2|] eqn:E2; [|discriminate]. cbn [bind] in H.
    destruct (ep_hxc g w p2) as [p3|] eqn:E3; [|discriminate]. cbn [bind] in H. dm H; injection H as <-.
    eapply yk_trans; [eapply ep_nuclear_yk; eauto|]. eapply yk_trans; [eapply ep_kinetic_yk; eauto|]. eapply yk_trans; [eapply ep_hxc_yk; eauto|apply yk_T].
Qed.
#[local] Opaque set_E set_T set_eks set_evals set_V set_xc set_epk set_inv.
Lemma energy_yk : forall g w p p', energy g w p = Ok p' -> yk p p'.
Proof.
  intros g w p p' H. unfold energy in H. cbv zeta in H.
  match type of H with bind ?m _ = _ => destruct m as [a|] eqn:E1; [|discriminate] end. cbn [bind] in H.
  match type of H with bind ?m _ = _ => destruct m as [b|] eqn:E2; [|discriminate] end. cbn [bind] in H.
  match type of H with bind ?m _ = _ => destruct m as [p3|] eqn:E3; [|discriminate] end. cbn [bind] in H.
  match type of H with bind ?m _ = _ => destruct m as [Ep|] eqn:E4; [|discriminate] end. cbn [bind] in H.
  match type of H with bind ?m _ = _ => destruct m as [ea|] eqn:E5; [|discriminate] end. cbn [bind] in H.
  match type of H with bind ?m _ = _ => destruct m as [eb|] eqn:E6; [|discriminate] end. cbn [bind] in H. injection H as <-.
  apply partition_energy_yk in E3.
  eapply yk_trans; [|eapply yk_trans; [exact E3|]].
  - eapply yk_trans; [|apply yk_eks]. do 8 (eapply yk_trans; [|apply yk_E]). apply yk_E.
  - eapply yk_trans; [|apply yk_evals]. eapply yk_trans; [|apply yk_T]. eapply yk_trans; [apply yk_T|apply yk_E].
Qed.


Lemma put_hxc_yk : forall h p p', put_hxc h p = Ok p' -> yk p p'.
Proof. intros h p p' H. eapply forL_yk; [|exact H]. intros c q q' _ E. cbv beta in E. dm E. injection E as <-. eapply yk_frag; eauto; ytac. Qed.

(** * potentials: only the molecular exchange-correlation energies *)
Definition xk (p p' : part) : Prop := p_x p' = p_x p /\ p_c p' = p_c p.
Lemma xk_refl : forall p, xk p p. Proof. split; reflexivity. Qed.
Lemma xk_trans : forall a b c, xk a b -> xk b c -> xk a c. Proof. intros a b c (A1 & A2) (B1 & B2). split; congruence. Qed.
Lemma yk_xk : forall p p', yk p p' -> xk p p'. Proof. intros p p' (A & B & _). split; auto. Qed.
Lemma forL_xk : forall X (l : list X) body, (forall x p p', In x l -> body x p = Ok p' -> xk p p') -> forall p p', forL l body p = Ok p' -> xk p p'.
Proof.
  induction l as [|x l IH]; intros body H p p' E; simpl in E.
  - injection E as <-. apply xk_refl.
  - destruct (body x p) as [q|] eqn:B; [|discriminate]. cbn [bind] in E. eapply xk_trans; [eapply H; [left; reflexivity|exact B]|].
    eapply IH; [|exact E]. intros; eapply H; [right|]; eauto.
Qed.
Lemma vp_accum_xk : forall c p p', vp_accum c p = Ok p' -> xk p p'.
Proof.
  intros c p p' H. unfold vp_accum in H. destruct (vp_own p c) as [p1|] eqn:E1; [|discriminate]. cbn [bind] in H. apply (xk_trans _ p1).
  - unfold vp_own in E1. dm E1. injection E1 as <-. split; reflexivity.
  - eapply forL_xk; [|exact H]. intros nm q q' I E. cbv beta in E. dm E. injection E as <-. split; reflexivity.
Qed.
Lemma vp_map_xk : forall h p p', vp_map h p = Ok p' -> xk p p'.
Proof. intros h p p' H. eapply forL_xk; [|exact H]. intros nm q q' I E. cbv beta in E. dm E. injection E as <-. split; reflexivity. Qed.
(** the molecular exchange and correlation energies are those of the density the potential was made from *)
Lemma vp_hxc_parts_x : forall g w p p', vp_hxc_parts g w p = Ok p' -> po_int (p_opt p) = "dft"%string -> exists nf x c, p_nf p = Some nf /\
  get_xc g (e_lib w) (po_fam (p_opt p)) (po_xid (p_opt p)) (p_pol p) nf = Ok x /\ get_xc g (e_lib w) (po_fam (p_opt p)) (po_cid (p_opt p)) (p_pol p) nf = Ok c /\
  p_x p' = Some (fst x) /\ p_c p' = Some (fst c).
Proof.
  intros g w p p' H D. unfold vp_hxc_parts in H. cbv zeta in H. rewrite D in H. change (String.eqb "dft" "ni") with false in H. rewrite andb_false_r in H. change (negb (String.eqb "dft" "dft")) with false in H. cbv iota in H.
  destruct (p_nf p) as [nf|]; [|discriminate]. cbn [have bind] in H. destruct (v_hartree _ _ _ _) as [vh|]; [|discriminate]. cbn [bind] in H.
  destruct (get_xc g (e_lib w) (po_fam (p_opt p)) (po_xid (p_opt p)) (p_pol p) nf) as [[[ex epx] vx]|] eqn:EX; [|discriminate]. cbn [bind] in H.
  destruct (get_xc g (e_lib w) (po_fam (p_opt p)) (po_cid (p_opt p)) (p_pol p) nf) as [[[ec epc] vc]|] eqn:EC; [|discriminate]. cbn [bind] in H.
  exists nf, (ex, epx, vx), (ec, epc, vc). split; [reflexivity|]. split; [exact EX|]. split; [exact EC|]. cbn [fst].
  assert (X : xk (set_xc (set_V (set_V (set_V p "vh" (arr_fun vh)) "vx" vx) "vc" vc) (ex, epx) (ec, epc)) p').
  { eapply forL_xk; [|exact H]. intros c q q' _ E. cbv beta in E. dm E. injection E as <-. split; reflexivity. }
  destruct X as (X1 & X2). rewrite X1, X2. split; reflexivity.
Qed.
Lemma vp_hxc_x : forall g w p p', vp_hxc g w p = Ok p' -> po_int (p_opt p) = "dft"%string -> exists nf x c, p_nf p = Some nf /\
  get_xc g (e_lib w) (po_fam (p_opt p)) (po_xid (p_opt p)) (p_pol p) nf = Ok x /\ get_xc g (e_lib w) (po_fam (p_opt p)) (po_cid (p_opt p)) (p_pol p) nf = Ok c /\
  p_x p' = Some (fst x) /\ p_c p' = Some (fst c).
Proof.
  intros g w p p' H D. unfold vp_hxc in H. destruct (vp_hxc_parts g w p) as [p1|] eqn:E1; [|discriminate]. cbn [bind] in H. cbv zeta in H.
  apply vp_hxc_parts_x in E1; auto. destruct E1 as (nf & x & c & A1 & A2 & A3 & A4 & A5). exists nf, x, c. do 3 (split; [assumption|]).
  assert (X : xk p1 p'); [|destruct X as (X1 & X2); rewrite X1, X2; auto].
  match type of H with bind ?m _ = _ => destruct m as [p2|] eqn:E2; [|discriminate] end. cbn [bind] in H.
  assert (S2 : xk p1 p2) by (destruct (String.eqb _ "overlap_xc" || _); [apply yk_xk; eapply vp_overlap_yk; eauto|injection E2 as <-; apply xk_refl]).
  eapply xk_trans; [exact S2|]. clear E2 S2 A4 A5.
  assert (PH : forall h q q', put_hxc h q = Ok q' -> xk q q') by (intros; apply yk_xk; eapply put_hxc_yk; eauto).
  destruct (String.eqb _ "exact"); [eapply PH; eauto|]. destruct (String.eqb _ "hartree"); [eapply PH; eauto|].
  destruct (String.eqb _ "overlap_xc").
  { destruct (energy g w p2) as [p3|] eqn:E3; [|discriminate]. cbn [bind] in H. dm H. eapply xk_trans; [apply yk_xk; eapply energy_yk; eauto|eapply PH; eauto]. }
  destruct (String.eqb _ "overlap_hxc").
  { destruct (EnsCorHar g p2) as [p3|] eqn:E3; [|discriminate]. cbn [bind] in H. destruct (energy g w p3) as [p4|] eqn:E4; [|discriminate]. cbn [bind] in H. dm H.
    eapply xk_trans; [apply yk_xk; eapply EnsCorHar_yk; eauto|]. eapply xk_trans; [apply yk_xk; eapply energy_yk; eauto|eapply PH; eauto]. }
  destruct (String.eqb _ "surprisal"); discriminate.
Qed.
Lemma component_x : forall g w p p', vp_component g w p = Ok p' -> po_int (p_opt p) = "dft"%string -> exists nf x c, p_nf p = Some nf /\
  get_xc g (e_lib (pe_env w)) (po_fam (p_opt p)) (po_xid (p_opt p)) (p_pol p) nf = Ok x /\ get_xc g (e_lib (pe_env w)) (po_fam (p_opt p)) (po_cid (p_opt p)) (p_pol p) nf = Ok c /\
  p_x p' = Some (fst x) /\ p_c p' = Some (fst c).
Proof.
  intros g w p p' H D. unfold vp_component in H. destruct (vp_nuclear p) as [p1|] eqn:E1; [|discriminate]. cbn [bind] in H.
  destruct (vp_kinetic g w p1) as [p2|] eqn:E2; [|discriminate]. cbn [bind] in H. destruct (vp_hxc g (pe_env w) p2) as [p3|] eqn:E3; [|discriminate]. cbn [bind] in H.
  match type of H with bind ?m _ = _ => destruct m as [p4|] eqn:E4; [|discriminate] end. cbn [bind] in H.
  match type of H with bind ?m _ = _ => destruct m as [p5|] eqn:E5; [|discriminate] end. cbn [bind] in H.
  match type of H with bind ?m _ = _ => destruct m as [p6|] eqn:E6; [|discriminate] end. cbn [bind] in H.
  pose proof (psame_trans _ _ _ (vp_nuclear_same _ _ E1) (vp_kinetic_same _ _ _ _ E2)) as (S1 & S2 & _ & _ & _ & _ & _ & _ & _ & _ & _ & S12 & _).
  apply vp_hxc_x in E3; [|rewrite S1; auto]. destruct E3 as (nf & x & c & A1 & A2 & A3 & A4 & A5). rewrite S1, S2, ?S12 in *. exists nf, x, c. do 3 (split; [assumption|]).
  assert (X : xk p3 p'); [|destruct X as (X1 & X2); rewrite X1, X2; auto].
  eapply xk_trans; [eapply forL_xk; [|exact E4]|]. { intros nm q q' I E. cbv beta in E. dm E. injection E as <-. split; reflexivity. }
  eapply xk_trans; [eapply forL_xk; [|exact E5]|]. { intros. eapply vp_accum_xk; eauto. }
  eapply xk_trans with p6.
  - destruct (po_ess (p_opt p)); [eapply vp_map_xk; eauto|injection E6 as <-; apply xk_refl].
  - destruct (po_ab (p_opt p)); [eapply vp_map_xk; eauto|injection H as <-; apply xk_refl].
Qed.
