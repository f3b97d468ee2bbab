(** The total energy of partitions with explicit kinetic functionals, written with the functionals of the densities. *)
From Coq Require Import Reals List Arith Lia Lra ZArith Bool String.
From Verif Require Import Base BaseLemmas GridModel GridSpec GridProofs HartreeModel SolverModel SolverSpec LibxcModel OptionsModel KSModel KSSpec KSProofs KSThms KSLoop KSEnergy KSTotal
  InverterModel PartitionModel PartitionSpec PartitionBase PartitionConstr PartitionDens PartitionFrame PartitionEnergy PartitionEp PartitionTotal PartitionKin PartitionPot PartitionLoop PartitionStep PartitionKeep PartitionPass PartitionScf PartitionRun PartitionFinal PartitionModes PartitionNew PartitionGood PartitionMain EmbedPot.
Import ListNotations.
Local Open Scope R_scope.

(** * Specification *)
(** Kinetic energy of the density n under the explicit functional of p. *)
Definition kinetic_int (g : grid) (w : env) (p : part) (n : mat) (T : R) : Prop :=
  (po_kin (p_opt p) = "none"%string /\ T = 0) \/
  (po_kin (p_opt p) = "libxcke"%string /\ exists t v, get_xc g (e_lib w) (po_kfam (p_opt p)) (po_kid (p_opt p)) (p_pol p) n = Ok (T, t, v)).

(** * The stored kinetic energies *)
Definition tf (a b : option frag) : Prop := match a, b with Some f, Some f' => f_VTs f' = f_VTs f | None, None => True | _, _ => False end.
Definition tk (p p' : part) : Prop := p_k p' = p_k p /\ forall c, tf (p_f p c) (p_f p' c).
Lemma tf_refl : forall a, tf a a. Proof. intros [f|]; simpl; auto. Qed.
Lemma tk_refl : forall p, tk p p. Proof. intros. split; [reflexivity|]. intros; apply tf_refl. Qed.
Lemma tk_trans : forall a b c, tk a b -> tk b c -> tk a c.
Proof.
  intros a b c (A1 & A5) (B1 & B5). split; [congruence|]. intros d. specialize (A5 d). specialize (B5 d).
  destruct (p_f a d), (p_f b d), (p_f c d); simpl in *; try tauto; congruence.
Qed.
Lemma tk_frag : forall p c f f', get_f p c = Ok f -> f_VTs f' = f_VTs f -> tk p (set_frag p c f').
Proof.
  intros p c f f' H S. apply get_f_some in H. split; [reflexivity|]. intros d. simpl. destruct (comp_eqb_spec d c) as [->|]; [rewrite H; exact S|apply tf_refl].
Qed.
Ltac te := split; [reflexivity|]; intros; apply tf_refl.
Lemma tk_V : forall p k x, tk p (set_V p k x). Proof. intros; te. Qed.
Lemma tk_E : forall p k x, tk p (set_E p k x). Proof. intros; te. Qed.
Lemma tk_T : forall p k x, tk p (set_T p k x). Proof. intros; te. Qed.
Lemma tk_eks : forall p x, tk p (set_eks p x). Proof. intros; te. Qed.
Lemma tk_evals : forall p x, tk p (set_evals p x). Proof. intros; te. Qed.
Lemma tk_inv : forall p x, tk p (set_inv p x). Proof. intros; te. Qed.
Lemma tk_epk : forall p x, tk p (set_epk p x). Proof. intros; te. Qed.
Lemma forL_tk : forall X (l : list X) body, (forall x p p', In x l -> body x p = Ok p' -> tk p p') -> forall p p', forL l body p = Ok p' -> tk p p'.
Proof.
  induction l as [|x l IH]; intros body H p p' E; simpl in E.
  - injection E as <-. apply tk_refl.
  - destruct (body x p) as [q|] eqn:B; [|discriminate]. cbn [bind] in E. eapply tk_trans; [eapply H; [left; reflexivity|exact B]|].
    eapply IH; [|exact E]. intros; eapply H; [right|]; eauto.
Qed.
Ltac ttac := reflexivity.
(** * energies *)
Lemma vp_overlap_tk : forall g p p', vp_overlap g p = Ok p' -> tk p p'.
Proof.
  intros g p p' H. unfold vp_overlap in H.
  destruct (axis1 (p_na p)) as [na|]; [|discriminate]. cbn [bind] in H. destruct (have (p_nb p)) as [nb|]; [|discriminate]. cbn [bind] in H.
  destruct (overlap_S _ _ _ _) as [S|]; [|discriminate]. cbn [bind] in H. cbv zeta in H.
  match type of H with bind ?m _ = _ => destruct m as [p1|] eqn:E1; [|discriminate] end. cbn [bind] in H.
  eapply tk_trans; [|eapply tk_trans].
  2: { eapply forL_tk; [|exact E1]. intros c q q' _ E. cbv beta in E. dm E. injection E as <-. eapply tk_frag; eauto; ttac. }
  - eapply tk_trans; apply tk_E.
  - eapply forL_tk; [|exact H]. intros c q q' _ E. cbv beta in E. dm E. injection E as <-. eapply tk_frag; eauto; ttac.
Qed.
Lemma EnsCorHar_tk : forall g p p', EnsCorHar g p = Ok p' -> tk p p'.
Proof.
  intros g p p' H. unfold EnsCorHar in H. destruct (negb (p_ens p)); [discriminate|].
  match type of H with bind ?m _ = _ => destruct m as [p1|] eqn:E1; [|discriminate] end. cbn [bind] in H.
  match type of H with bind ?m _ = _ => destruct m as [p2|] eqn:E2; [|discriminate] end. cbn [bind] in H.
  match type of H with bind ?m _ = _ => destruct m as [e|] eqn:E3; [|discriminate] end. cbn [bind] in H. injection H as <-.
  eapply tk_trans; [|eapply tk_trans; [|apply tk_E]].
  - eapply forL_tk; [|exact E1]. intros c q q' _ E. cbv beta in E. dm E. injection E as <-. eapply tk_frag; eauto; ttac.
  - eapply forL_tk; [|exact E2]. intros c q q' _ E. cbv beta in E. dm E. injection E as <-. eapply tk_frag; eauto; ttac.
Qed.
Lemma ep_nuclear_tk : forall g p p', ep_nuclear g p = Ok p' -> tk p p'.
Proof. intros g p p' H. unfold ep_nuclear in H. dm H. injection H as <-. apply tk_E. Qed.
Lemma ep_kinetic_tk : forall g p p', ep_kinetic g p = Ok p' -> tk p p'.
Proof.
  intros g p p' H. unfold ep_kinetic in H. cbv zeta in H. match type of H with bind ?m _ = _ => destruct m as [[p1 [[[Tm tm] Tf] tf]]|] eqn:E1; [|discriminate] end. cbn [bind] in H.
  injection H as <-. eapply tk_trans; [|eapply tk_trans; [apply tk_T|apply tk_epk]].
  destruct (String.eqb _ "vonweiz"); [unfold epk_vonweiz in E1; dm E1; injection E1 as <- _ _ _ _; apply tk_refl|].
  destruct (String.eqb _ "libxcke" || _); [unfold epk_libxc in E1; dm E1; injection E1 as <- _ _ _ _; apply tk_refl|].
  destruct (String.eqb _ "inversion"); [unfold epk_inversion in E1; dm E1; injection E1 as <- _ _ _ _; apply tk_inv|].
  destruct (String.eqb _ "none"); [unfold epk_none in E1; injection E1 as <- _ _ _ _; apply tk_refl|].
  destruct (String.eqb _ "twoorbital"); [|discriminate]. unfold epk_two in E1. dm E1; injection E1 as <- _ _ _ _; (eapply tk_trans; apply tk_V).
Qed.
Lemma ep_dft_tk : forall g w p p', ep_dft g w p = Ok p' -> tk p p'.
Proof.
  intros g w p p' H. unfold ep_dft in H. destruct (String.eqb _ "dft").
  - dm H; injection H as <-. do 3 (eapply tk_trans; [apply tk_E|]). do 2 (eapply tk_trans; [|apply tk_V]). apply tk_V.
  - injection H as <-. do 2 (eapply tk_trans; [apply tk_E|]). apply tk_E.
Qed.
Lemma ep_hxc_tk : forall g w p p', ep_hxc g w p = Ok p' -> tk p p'.
Proof.
  intros g w p p' H. unfold ep_hxc in H. destruct (ep_dft g w p) as [p1|] eqn:E1; [|discriminate]. cbn [bind] in H. cbv zeta in H. eapply tk_trans; [eapply ep_dft_tk; eauto|].
  destruct (String.eqb _ "exact"); [dm H; injection H as <-; apply tk_E|].
  destruct (String.eqb _ "hartree"); [dm H; injection H as <-; apply tk_E|].
  destruct (String.eqb _ "overlap_xc").
  { destruct (vp_overlap g p1) as [p2|] eqn:E2; [|discriminate]. cbn [bind] in H. dm H; injection H as <-. eapply tk_trans; [eapply vp_overlap_tk; eauto|apply tk_E]. }
  destruct (String.eqb _ "overlap_hxc" || _); [|discriminate].
  destruct (vp_overlap g p1) as [p2|] eqn:E2; [|discriminate]. cbn [bind] in H. destruct (EnsCorHar g p2) as [p3|] eqn:E3; [|discriminate]. cbn [bind] in H. dm H; injection H as <-.
  eapply tk_trans; [eapply vp_overlap_tk; eauto|]. eapply tk_trans; [eapply EnsCorHar_tk; eauto|apply tk_E].
Qed.
Lemma partition_energy_tk : forall g w p p', partition_energy g w p = Ok p' -> tk p p'.
Proof.
  intros g w p p' H. unfold partition_energy in H. destruct (po_iso (p_opt p)).
  - injection H as <-. eapply tk_trans; [|apply tk_E]. eapply tk_trans; [|apply tk_T]. eapply tk_trans; [|apply tk_E]. apply tk_T.
  - destruct (ep_nuclear g p) as [p1|] eqn:E1; [|discriminate]. cbn [bind] in H. destruct (ep_kinetic g p1) as [p2|] eqn:E2; [|discriminate]. cbn [bind] in H.
    destruct (ep_hxc g w p2) as [p3|] eqn:E3; [|discriminate]. cbn [bind] in H. dm H; injection H as <-.
    eapply tk_trans; [eapply ep_nuclear_tk; eauto|]. eapply tk_trans; [eapply ep_kinetic_tk; eauto|]. eapply tk_trans; [eapply ep_hxc_tk; eauto|apply tk_T].
Qed.
#[local] Opaque set_E set_T set_eks set_evals set_V set_xc set_epk set_inv.
Lemma energy_tk : forall g w p p', energy g w p = Ok p' -> tk p p'.
Proof.
  intros g w p p' H. unfold energy in H. cbv zeta in H.
  match type of H with bind ?m _ = _ => destruct m as [a|] eqn:E1; [|discriminate] end. cbn [bind] in H.
  match type of H with bind ?m _ = _ => destruct m as [b|] eqn:E2; [|discriminate] end. cbn [bind] in H.
  match type of H with bind ?m _ = _ => destruct m as [p3|] eqn:E3; [|discriminate] end. cbn [bind] in H.
  match type of H with bind ?m _ = _ => destruct m as [Ep|] eqn:E4; [|discriminate] end. cbn [bind] in H.
  match type of H with bind ?m _ = _ => destruct m as [ea|] eqn:E5; [|discriminate] end. cbn [bind] in H.
  match type of H with bind ?m _ = _ => destruct m as [eb|] eqn:E6; [|discriminate] end. cbn [bind] in H. injection H as <-.
  apply partition_energy_tk in E3.
  eapply tk_trans; [|eapply tk_trans; [exact E3|]].
  - eapply tk_trans; [|apply tk_eks]. do 8 (eapply tk_trans; [|apply tk_E]). apply tk_E.
  - eapply tk_trans; [|apply tk_evals]. eapply tk_trans; [|apply tk_T]. eapply tk_trans; [apply tk_T|apply tk_E].
Qed.


Lemma put_hxc_tk : forall h p p', put_hxc h p = Ok p' -> tk p p'.
Proof. intros h p p' H. eapply forL_tk; [|exact H]. intros c q q' _ E. cbv beta in E. dm E. injection E as <-. eapply tk_frag; eauto; ttac. Qed.
#[local] Transparent set_E set_T set_eks set_evals set_V set_xc set_epk set_inv.

(** * The energies stored with the kinetic potential *)
Lemma tk_xc : forall p a b, tk p (set_xc p a b). Proof. intros; te. Qed.
Lemma vp_nuclear_tk : forall p p', vp_nuclear p = Ok p' -> tk p p'.
Proof. intros p p' H. eapply forL_tk; [|exact H]. intros c q q' _ E. cbv beta in E. dm E. injection E as <-. eapply tk_frag; eauto; ttac. Qed.
Lemma vp_hxc_tk : forall g w p p', vp_hxc g w p = Ok p' -> tk p p'.
Proof.
  intros g w p p' H. unfold vp_hxc in H. destruct (vp_hxc_parts g w p) as [p1|] eqn:E1; [|discriminate]. cbn [bind] in H. cbv zeta in H.
  assert (X : tk p p1).
  { unfold vp_hxc_parts in E1. cbv zeta in E1. destruct (String.eqb _ "exact" && _).
    - eapply forL_tk; [|exact E1]. intros c q q' _ E. cbv beta in E. dm E. injection E as <-. eapply tk_frag; eauto; ttac.
    - destruct (negb _); [discriminate|]. destruct (have (p_nf p)) as [nf|]; [|discriminate]. cbn [bind] in E1. destruct (v_hartree _ _ _ _) as [vh|]; [|discriminate]. cbn [bind] in E1.
      match type of E1 with bind ?m _ = _ => destruct m as [[[ex epx] vx]|]; [|discriminate] end. cbn [bind] in E1. match type of E1 with bind ?m _ = _ => destruct m as [[[ec epc] vc]|]; [|discriminate] end. cbn [bind] in E1.
      eapply tk_trans; [|eapply forL_tk; [|exact E1]]; [do 3 (eapply tk_trans; [apply tk_V|]); apply tk_xc|]. intros c q q' _ E. cbv beta in E. dm E. injection E as <-. eapply tk_frag; eauto; ttac. }
  eapply tk_trans; [exact X|]. clear X E1.
  match type of H with bind ?m _ = _ => destruct m as [p2|] eqn:E2; [|discriminate] end. cbn [bind] in H.
  assert (S2 : tk p1 p2) by (destruct (String.eqb _ "overlap_xc" || _); [eapply vp_overlap_tk; eauto|injection E2 as <-; apply tk_refl]).
  eapply tk_trans; [exact S2|]. clear E2 S2.
  destruct (String.eqb _ "exact"); [eapply put_hxc_tk; eauto|]. destruct (String.eqb _ "hartree"); [eapply put_hxc_tk; eauto|].
  destruct (String.eqb _ "overlap_xc").
  { destruct (energy g w p2) as [p3|] eqn:E3; [|discriminate]. cbn [bind] in H. dm H. eapply tk_trans; [eapply energy_tk; eauto|eapply put_hxc_tk; eauto]. }
  destruct (String.eqb _ "overlap_hxc").
  { destruct (EnsCorHar g p2) as [p3|] eqn:E3; [|discriminate]. cbn [bind] in H. destruct (energy g w p3) as [p4|] eqn:E4; [|discriminate]. cbn [bind] in H. dm H.
    eapply tk_trans; [eapply EnsCorHar_tk; eauto|]. eapply tk_trans; [eapply energy_tk; eauto|eapply put_hxc_tk; eauto]. }
  destruct (String.eqb _ "surprisal"); discriminate.
Qed.
Lemma vp_accum_tk : forall c p p', vp_accum c p = Ok p' -> tk p p'.
Proof.
  intros c p p' H. unfold vp_accum in H. destruct (vp_own p c) as [p1|] eqn:E1; [|discriminate]. cbn [bind] in H. apply (tk_trans _ p1).
  - unfold vp_own in E1. dm E1. injection E1 as <-. eapply tk_frag; eauto; ttac.
  - eapply forL_tk; [|exact H]. intros nm q q' _ E. cbv beta in E. dm E. injection E as <-. apply tk_V.
Qed.
Lemma vp_map_tk : forall h p p', vp_map h p = Ok p' -> tk p p'.
Proof. intros h p p' H. eapply forL_tk; [|exact H]. intros nm q q' _ E. cbv beta in E. dm E. injection E as <-. apply tk_V. Qed.
Lemma vpk_finish_tk : forall g p p', vpk_finish g p = Ok p' -> po_kin (p_opt p) <> "twoorbital"%string -> tk p p'.
Proof.
  intros g p p' H NT. unfold vpk_finish in H. destruct (String.eqb_spec (po_kin (p_opt p)) "twoorbital"); [contradiction|].
  destruct (String.eqb _ "fixed"); [injection H as <-; apply tk_refl|].
  eapply forL_tk; [|exact H]. intros c q q' _ E. cbv beta in E. dm E. injection E as <-. eapply tk_frag; eauto; ttac.
Qed.
(** what is stored: the energies of the density and of the component densities *)
Definition kinetic_stored (g : grid) (w : env) (p p' : part) : Prop := exists nf T, p_nf p = Some nf /\ kinetic_int g w p nf T /\ (po_kin (p_opt p) = "libxcke"%string -> exists t, p_k p' = Some (T, t)) /\
  forall c, member (p_ens p) c -> exists f n Tc f', p_f p c = Some f /\ k_n (f_ks f) = Some n /\ kinetic_int g w p n Tc /\ p_f p' c = Some f' /\ (po_kin (p_opt p) = "libxcke"%string -> f_VTs f' = Some Tc).
Lemma kinetic_stored_tk : forall g w p q q', tk q q' -> kinetic_stored g w p q -> kinetic_stored g w p q'.
Proof.
  intros g w p q q' (A & B) (nf & T & N & K & S & F). exists nf, T. split; auto. split; auto. split; [intros L; destruct (S L) as (t & Q); exists t; congruence|]. intros c Hc.
  destruct (F c Hc) as (f & n & Tc & f' & F1 & F2 & F3 & F4 & F5). specialize (B c). rewrite F4 in B. destruct (p_f q' c) as [f2|] eqn:E; [|destruct B]. simpl in B. exists f, n, Tc, f2. repeat (split; [solve [auto]|]). intros L. rewrite B. auto.
Qed.
Lemma kinetic_store : forall g w p p', vp_kinetic g w p = Ok p' -> po_kin (p_opt p) = "none"%string \/ po_kin (p_opt p) = "libxcke"%string -> kinetic_stored g (pe_env w) p p'.
Proof.
  intros g w p p' H KT. unfold vp_kinetic in H. cbv zeta in H. destruct KT as [KT|KT]; rewrite KT in H; cbn [String.eqb Ascii.eqb Bool.eqb] in H.
  - destruct (vpk_none p) as [p1|] eqn:E1; [|discriminate]. cbn [bind] in H. unfold vpk_none in E1. destruct (have (p_nf p)) as [nf|] eqn:NF; [|discriminate]. cbn [bind] in E1. apply have_some in NF.
    set (h := fun (c : comp) (p : part) (f : frag) => do n <- need (k_n (f_ks f)); Ok (fvt f (fun _ _ => Fin 0))).
    assert (H' : forL (comps (p_ens p)) (fun c p => do f <- get_f p c; do f' <- h c p f; Ok (set_frag p c f')) (set_vt p (p_pol p) (fun _ _ => Fin 0)) = Ok p1).
    { rewrite <- E1. apply forL_ext. intros e q _. unfold h. destruct (get_f q e) as [f9|]; cbn [bind]; auto. destruct (need (k_n (f_ks f9))); reflexivity. }
    apply (forL_frags h) in H'; [|intros ? ? ? ?; reflexivity|apply comps_nodup]. destruct H' as (A & B & _).
    apply vpk_finish_tk in H; [|rewrite A; cbn; rewrite KT; discriminate]. eapply kinetic_stored_tk; [exact H|].
    exists nf, 0. split; [exact NF|]. split; [left; auto|]. split; [rewrite KT; discriminate|]. intros c Hc. destruct (B c (proj2 (in_comps _ _) Hc)) as (f & f1 & B1 & B2 & B3). unfold h in B2.
    destruct (need (k_n (f_ks f))) as [n|] eqn:N; [|discriminate]. cbn [bind] in B2. injection B2 as <-. apply need_some in N. exists f, n, 0. eexists. split; [exact B1|]. split; [exact N|]. split; [left; auto|]. split; [exact B3|]. rewrite KT; discriminate.
  - destruct (vpk_libxc g w p) as [p1|] eqn:E1; [|discriminate]. cbn [bind] in H. unfold vpk_libxc in E1. cbv zeta in E1. destruct (have (p_nf p)) as [nf|] eqn:NF; [|discriminate]. cbn [bind] in E1. apply have_some in NF.
    destruct (get_xc g (e_lib (pe_env w)) (po_kfam (p_opt p)) (po_kid (p_opt p)) (p_pol p) nf) as [[[T t] v]|] eqn:X; [|discriminate]. cbn [bind] in E1.
    set (h := fun (c : comp) (q : part) (f : frag) => do n <- need (k_n (f_ks f)); do x <- get_xc g (e_lib (pe_env w)) (po_kfam (p_opt p)) (po_kid (p_opt p)) (p_pol p) n; let '(T, t, v) := x in Ok (fvt (fV (fTs f T) "ts" (fun k _ => t k)) (fun k s => Fin (v k s)))).
    assert (H' : forL (comps (p_ens p)) (fun c p => do f <- get_f p c; do f' <- h c p f; Ok (set_frag p c f')) (set_vt (set_kin p (T, t)) (p_pol p) (fun k s => Fin (v k s))) = Ok p1).
    { rewrite <- E1. apply forL_ext. intros e q _. unfold h. destruct (get_f q e) as [f9|]; cbn [bind]; auto. destruct (need (k_n (f_ks f9))) as [n9|]; cbn [bind]; auto. destruct (get_xc _ _ _ _ _ n9) as [[[? ?] ?]|]; reflexivity. }
    apply (forL_frags h) in H'; [|intros ? ? ? ?; reflexivity|apply comps_nodup]. destruct H' as (A & B & _).
    apply vpk_finish_tk in H; [|rewrite A; cbn; rewrite KT; discriminate]. eapply kinetic_stored_tk; [exact H|].
    exists nf, T. split; [exact NF|]. split; [right; split; eauto|]. split; [exists t; rewrite A; reflexivity|]. intros c Hc. destruct (B c (proj2 (in_comps _ _) Hc)) as (f & f1 & B1 & B2 & B3). unfold h in B2.
    destruct (need (k_n (f_ks f))) as [n|] eqn:N; [|discriminate]. cbn [bind] in B2. destruct (get_xc _ _ _ _ _ n) as [[[T1 t1] v1]|] eqn:X1 in B2; [|discriminate]. cbn [bind] in B2. injection B2 as <-. apply need_some in N.
    exists f, n, T1. eexists. split; [exact B1|]. split; [exact N|]. split; [right; split; eauto|]. split; [exact B3|]. reflexivity.
Qed.
Lemma component_store : forall g w p p', vp_component g w p = Ok p' -> po_kin (p_opt p) = "none"%string \/ po_kin (p_opt p) = "libxcke"%string -> kinetic_stored g (pe_env w) p p'.
Proof.
  intros g w p p' H KT. unfold vp_component in H. destruct (vp_nuclear p) as [p1|] eqn:E1; [|discriminate]. cbn [bind] in H.
  destruct (vp_kinetic g w p1) as [p2|] eqn:E2; [|discriminate]. cbn [bind] in H. destruct (vp_hxc g (pe_env w) p2) as [p3|] eqn:E3; [|discriminate]. cbn [bind] in H.
  match type of H with bind ?m _ = _ => destruct m as [p4|] eqn:E4; [|discriminate] end. cbn [bind] in H.
  match type of H with bind ?m _ = _ => destruct m as [p5|] eqn:E5; [|discriminate] end. cbn [bind] in H.
  match type of H with bind ?m _ = _ => destruct m as [p6|] eqn:E6; [|discriminate] end. cbn [bind] in H.
  pose proof (vp_nuclear_same _ _ E1) as (S1 & S2 & _ & _ & _ & _ & S7 & _ & _ & _ & _ & S12 & _ & S14).
  assert (X : tk p2 p').
  { eapply tk_trans; [eapply vp_hxc_tk; eauto|]. eapply tk_trans; [eapply forL_tk; [|exact E4]|]. { intros nm q q' I E. cbv beta in E. dm E. injection E as <-. apply tk_V. }
    eapply tk_trans; [eapply forL_tk; [|exact E5]|]. { intros. eapply vp_accum_tk; eauto. }
    eapply tk_trans with p6.
    - destruct (po_ess (p_opt p)); [eapply vp_map_tk; eauto|injection E6 as <-; apply tk_refl].
    - destruct (po_ab (p_opt p)); [eapply vp_map_tk; eauto|injection H as <-; apply tk_refl]. }
  eapply kinetic_stored_tk; [exact X|]. destruct (kinetic_store _ _ _ _ E2) as (nf & T & N & K & S & F); [rewrite S1; exact KT|].
  assert (KI : forall n t, kinetic_int g (pe_env w) p1 n t -> kinetic_int g (pe_env w) p n t) by (intros n t; unfold kinetic_int; rewrite S1, S2; auto).
  rewrite S1, ?S12 in *. exists nf, T. split; auto. split; auto. split; auto. intros c Hc. destruct (F c) as (f & n & Tc & f' & F1 & F2 & F3 & F4 & F5); [rewrite S7; exact Hc|].
  specialize (S14 c). rewrite F1 in S14. destruct (p_f p c) as [f0|]; [|destruct S14]. destruct S14 as (Z & _). exists f0, n, Tc, f'. split; auto. split; [rewrite <- Z; exact F2|]. auto.
Qed.

(** * One pass *)
Lemma fragment_tk : forall g w o sched dif vp l p p', NoDup l -> forL l (psc_fragment g w o sched dif vp) p = Ok p' -> tk p p'.
Proof.
  intros g w o sched dif vp l p p' N H. apply step_all in H; [|exact N]. destruct H as (A & B & C). split; [rewrite A; reflexivity|]. intros c. assert (DC : forall x y : comp, {x = y} + {x <> y}) by decide equality. destruct (in_dec DC c l) as [I|I].
  - destruct (B c I) as (f & f' & B1 & B2 & B3). rewrite B1, B3. simpl. eapply step_VTs; eauto.
  - rewrite C by exact I. apply tf_refl.
Qed.
Lemma proto_tk : forall g o p p', psc_proto g o p = Ok p' -> po_ab (p_opt p) = false -> tk p p'.
Proof.
  intros g o p p' H AB. unfold psc_proto in H. rewrite AB in H. cbn [bind] in H. match type of H with bind ?m _ = _ => destruct m as [p2|] eqn:E2; [|discriminate] end. cbn [bind] in H.
  apply (tk_trans _ p2).
  - destruct (ps_target o); [injection E2 as <-; apply tk_refl|]. unfold calc_protomolecule in E2. dm E2; cbv zeta in E2; injection E2 as <-. te.
  - unfold calc_Q in H. eapply forL_tk; [|exact H]. intros c q q' _ E. cbv beta in E. dm E. injection E as <-. eapply tk_frag; eauto; ttac.
Qed.
Theorem pass_kinetic : forall g w o sched s s', psc_body g w o sched s = Ok s' -> po_kin (p_opt (q_p s)) = "none"%string \/ po_kin (p_opt (q_p s)) = "libxcke"%string -> po_iso (p_opt (q_p s)) = false -> po_ab (p_opt (q_p s)) = false ->
  kinetic_stored g (pe_env w) (q_p s) (q_p s').
Proof.
  intros g w o sched s s' H KT IS AB. apply PartitionLoop.body_inv in H. destruct H as (p & r & fl & W & _ & ->). assert (Q : q_p (psc_next o s p r fl) = p) by (destruct r as [[? ?] ?]; reflexivity). rewrite Q. clear Q.
  destruct (work_frag _ _ _ _ _ _ _ W) as (q3 & qv & vq & X1 & X2 & X3 & _ & _ & _ & X5). apply work_inv in W. destruct W as (p1 & p2 & p3 & pv & p4 & p5 & W1 & W2 & W3 & W4 & W5 & W6 & W7 & _). destruct pv as [pv vp]. cbn [fst snd] in *.
  pose proof (avoid_stat _ _ _ W1) as S1. pose proof (hxc_stat _ _ _ _ W2) as S2. destruct (mid_mirror _ _ _ W3) as (S3 & _). pose proof (psc_vp_same _ _ _ _ W4) as S4. cbn [fst] in S4.
  pose proof (step_stat _ _ _ _ _ _ _ _ _ (comps_ab_nodup _) W5) as S5. pose proof (psame_pstat _ _ S1) as T1. pose proof (psame_pstat _ _ S4) as T4.
  assert (O1 : p_opt p1 = p_opt (q_p s)) by apply S1. assert (O2 : p_opt p2 = p_opt (q_p s)) by (rewrite (proj1 S2); exact O1). rewrite O2, AB in W3. injection W3 as <-.
  assert (O4 : po_ab (p_opt p4) = false) by (rewrite (proj1 S5), (proj1 T4), O2; exact AB).
  apply (kinetic_stored_tk _ _ _ pv).
  { eapply tk_trans; [eapply fragment_tk; [|exact W5]; apply comps_ab_nodup|]. eapply tk_trans; [eapply proto_tk; [exact W6|exact O4]|]. eapply energy_tk; eauto. }
  unfold psc_vp in W4. rewrite O2, IS in W4. unfold partition_potential in W4. destruct (String.eqb (po_vp (p_opt p2)) "component"); [|exfalso; destruct (vp_inversion p2) eqn:V; [|discriminate]; eapply vp_inversion_never; eauto].
  destruct (vp_component g w p2) as [p3'|] eqn:C; [|discriminate]. cbn [bind] in W4. destruct (attr (p_V p3') "vp"); [|discriminate]. cbn [bind] in W4. injection W4 as -> _.
  destruct (component_store _ _ _ _ C) as (nf & T & N & K & S & F); [rewrite O2; exact KT|].
  assert (P2 : p_pol p2 = p_pol (q_p s)). { destruct S2 as (_ & -> & _). apply S1. } assert (E2 : p_ens p2 = p_ens (q_p s)). { destruct S2 as (_ & _ & _ & _ & _ & _ & -> & _). apply S1. }
  assert (KI : forall n t, kinetic_int g (pe_env w) p2 n t -> kinetic_int g (pe_env w) (q_p s) n t) by (intros n t; unfold kinetic_int; rewrite O2, P2; auto).
  pose proof (hxc_all _ _ _ _ W2) as (Y1 & Y2 & _). rewrite O2 in S. exists nf, T. split; [rewrite Y1 in N; cbn [with_f p_nf] in N; rewrite <- N; symmetry; apply S1|]. split; auto. split; auto.
  intros c Hc. destruct (F c) as (f & n & Tc & f' & F1 & F2 & F3 & F4 & F5); [rewrite E2; exact Hc|]. rewrite O2 in F5.
  assert (EN1 : p_ens p1 = p_ens (q_p s)) by apply S1.
  destruct (Y2 c) as (g0 & g1 & G1 & G2 & G3); [apply in_comps_ab; split; [rewrite EN1; exact Hc|rewrite O1, AB; discriminate]|]. rewrite F1 in G3. injection G3 as <-. apply hxc_frag_inv in G2. destruct G2 as (_ & _ & N1 & _).
  destruct S1 as (_ & _ & _ & _ & _ & _ & _ & _ & _ & _ & _ & _ & _ & S14). specialize (S14 c). rewrite G1 in S14. destruct (p_f (q_p s) c) as [fs|] eqn:FS; [|destruct S14]. destruct S14 as (Z & _).
  exists fs, n, Tc, f'. split; auto. split; [rewrite <- Z, <- N1; exact F2|]. auto.
Qed.

(** * The total energy *)
Theorem explicit_energy : forall g w p F n na nb nf e p' p0, kinetic_stored g w p0 p -> p_opt p0 = p_opt p -> p_ens p0 = p_ens p -> p_pol p0 = p_pol p ->
  protomolecule p F n na nb nf -> densities p F n -> energies p F e -> at_nuclei p F -> belongs p F ->
  po_int (p_opt p) = "dft"%string -> po_hxc (p_opt p) = "exact"%string -> po_kin (p_opt p) = "none"%string \/ po_kin (p_opt p) = "libxcke"%string -> po_iso (p_opt p) = false ->
  (forall c, In c (comps_ab p) -> evaluated g w (f_ks (F c))) -> po_ab (p_opt p) = false -> p_ens p = false ->
  energy g w p = Ok p' ->
  exists nf0 T0 n0 T vh x c, p_nf p0 = Some nf0 /\ kinetic_int g w p0 nf0 T0 /\ (forall c, member false c -> exists f, p_f p0 c = Some f /\ k_n (f_ks f) = Some (n0 c) /\ kinetic_int g w p0 (n0 c) (T c)) /\
    v_hartree g (e_spL w) (e_spU w) (A1 (fun k => sumR (p_pol p) (fun s => nf k s))) = Ok vh /\ p_x p = Some x /\ p_c p = Some c /\
    p_T p' "Et"%string = Some (SC (share (po_ess (p_opt p)) F [Ca; Cb] (fun c => to_R (E_Ts (e c)) - T c) + T0 + nuclear_total g p nf + 1 / 2 * integrate1 g (fun k => sumR (p_pol p) (fun s => nf k s) * entry vh k 0) + fst x + fst c)).
Proof.
  intros g w p F n na nb nf e p' p0 (nf0 & T0 & NF0 & KI0 & ST0 & STF) OO EE PP HP (HF & HD) HE HN HB Hi Hh Hk Hs HV AB ENS H.
  pose proof (energy_parts g w p F e p' HE H) as EP. cbv zeta in EP. rewrite Hi in EP. change (String.eqb "dft" "dft") with true in EP. cbv iota in EP.
  destruct EP as (_ & _ & _ & PT & PN & PX & PC & PH & _ & _ & _ & _ & Ep & P1 & P2 & _).
  apply energy_mid in H. destruct H as (p2 & p3 & M1 & M2 & M3 & M4 & M5 & M6 & _ & _ & _ & _ & _ & M7 & _ & _ & M8).
  rewrite M8 in PT, PN, PX, PC, PH by (simpl; tauto). clear M8. rewrite M7 in P1. clear M7. clear M6.
  destruct M2 as (S1 & S2 & S3 & S4 & _ & _ & S7 & S8 & S9 & S10 & S11 & S12 & _ & _). destruct M3 as (X1 & X2 & X3 & _).
  set (ess := po_ess (p_opt p)) in *. rewrite AB, ENS in PT, PN, PX, PC, PH, P2.
  assert (CA1 : forall c, In c [Ca; Cb] -> E_Enuc (e c) = pair_integral g (p_pol p) (n c) (k_vnuc (f_ks (F c))) /\
     to_R (E_E (e c)) = to_R (E_Ts (e c)) + E_Enuc (e c) + val (E_Eh (e c)) + E_Ex (e c) + E_Ec (e c)).
  { intros c Hc. assert (Hc' : In c (comps_ab p)) by (unfold comps_ab; rewrite AB, ENS; exact Hc). pose proof (proj1 (in_comps_ab _ _) Hc') as (Mb & _). destruct (HB c Mb) as (B1 & B2 & B3).
    destruct (PartitionTotal.evaluated_energy g w _ _ _ (HV c Hc') (proj2 HE c Mb) (HD c Mb)) as (V1 & V2); [rewrite B2; exact Hi|exact B3|]. rewrite B1 in V1. split; auto. }
  set (h := fun c => pair_integral g (p_pol p) (n c) (k_vnuc (f_ks (F c)))).
  assert (TE : tot false ess false F (fun c => to_R (E_E (e c))) = tot false ess false F (fun c => to_R (E_Ts (e c))) + tot false ess false F h + tot false ess false F (fun c => val (E_Eh (e c))) + tot false ess false F (fun c => E_Ex (e c)) + tot false ess false F (fun c => E_Ec (e c))).
  { rewrite <- !tot_plus. apply tot_ext; auto. intros c Hc. destruct (CA1 c Hc) as (C1 & C2). rewrite C2, C1. reflexivity. }
  assert (TH : forall h, tot false ess false F h = share ess F [Ca; Cb] h) by (intros; apply (tot_all false ess false); [discriminate|auto]).
  unfold partition_energy in M1. rewrite S1, Hs in M1.
  destruct (ep_nuclear g p2) as [q1|] eqn:N1; [|discriminate]. cbn [bind] in M1.
  destruct (ep_kinetic g q1) as [q2|] eqn:N2; [|discriminate]. cbn [bind] in M1.
  destruct (ep_hxc g w q2) as [q3|] eqn:N3; [|discriminate]. cbn [bind] in M1.
  assert (HP2 : protomolecule p2 F n na nb nf).
  { destruct HP as (A1 & A2 & A3 & A4 & A5 & A6). unfold protomolecule. rewrite S1, S2, S7, S10, S11, S12. auto 10. }
  assert (HN2 : at_nuclei p2 F). { unfold at_nuclei in *. rewrite S2, S7, S8, S9. exact HN. }
  destruct (nuclear_sum g p2 F n na nb nf h q1 HP2 HN2 N1) as (x0 & Y1 & Y2); [intros; unfold h; rewrite S2; reflexivity|].
  rewrite S1, S7, ENS in Y2. fold ess in Y2. replace (nuclear_total g p2 nf) with (nuclear_total g p nf) in Y2 by (unfold nuclear_total; rewrite S2, S8, S9; reflexivity).
  assert (Q1 : psame p2 q1 /\ p_x q1 = p_x p2 /\ p_c q1 = p_c p2 /\ p_k q1 = p_k p2 /\ p_f q1 = p_f p2 /\ forall nm, nm <> "Ep_pot"%string -> p_E q1 nm = p_E p2 nm).
  { rewrite (ep_nuclear_spec _ _ _ _ _ _ _ _ HP2 N1). split; [apply psame_E|]. repeat (split; [reflexivity|]). intros. simpl. apply aset_other. auto. }
  destruct Q1 as (Q1 & Q2 & Q3 & QK & Q4 & Q5). destruct Q1 as (R1 & R2 & _ & _ & _ & _ & R7 & _ & _ & R10 & R11 & R12 & _).
  (* kinetic *)
  pose proof (ep_kinetic_K g q1 q2 N2) as (_ & KE & _). pose proof (ep_kinetic_same g q1 q2 N2) as KS.
  destruct (ep_kinetic_inv g q1 q2 N2) as (r1 & Tm & tm & Tf & tf & K1 & _ & K2 & K3). rewrite R1, S1 in K1, K3. fold ess in K1.
  assert (STF' : forall c, In c [Ca; Cb] -> exists n0 Tc f, p_f p0 c = Some f /\ k_n (f_ks f) = Some n0 /\ kinetic_int g w p0 n0 Tc /\ (po_kin (p_opt p) = "libxcke"%string -> f_VTs (F c) = Some Tc)).
  { intros c Hc. assert (Mc : member (p_ens p) c) by (rewrite ENS; simpl in Hc; intuition (subst; simpl; auto)). destruct (STF c) as (f & m & Tc & f' & Z1 & Z2 & Z3 & Z4 & Z5); [rewrite EE; exact Mc|]. rewrite OO in Z5. rewrite (HF c Mc) in Z4. injection Z4 as <-. exists m, Tc, f. auto. }
  destruct (STF' Ca) as (na0 & Ta & fa & A1 & A2 & A3 & A4); [simpl; auto|]. destruct (STF' Cb) as (nb0 & Tb & fb & B1 & B2 & B3 & B4); [simpl; auto|].
  set (n0 := fun c => match c with Ca => na0 | _ => nb0 end). set (T := fun c => match c with Ca => Ta | _ => Tb end).
  assert (K5 : p_T q2 "Ep_kin"%string = Some (SC (T0 - share ess F [Ca; Cb] T)) /\ p_x q2 = p_x q1 /\ p_c q2 = p_c q1).
  { destruct Hk as [Hk|Hk]; rewrite Hk in *.
    - assert (K4 : epk_none q1 = Ok (r1, (Tm, tm, Tf, tf))) by (destruct K3 as [[? _]|[[[?|?] _]|[[? _]|[[_ ?]|[? _]]]]]; try discriminate; auto). unfold epk_none in K4. injection K4 as <- <- <- <- <-.
      assert (Z : forall m t, kinetic_int g w p0 m t -> t = 0) by (intros m t [(_ & Z)|(Z & _)]; [exact Z|rewrite OO, Hk in Z; discriminate]).
      split; [|split; unfold ep_kinetic in N2; rewrite R1, S1, Hk in N2; cbn in N2; injection N2 as <-; reflexivity]. rewrite K1. unfold share. cbn [lsum]. unfold T. rewrite (Z _ _ KI0), (Z _ _ A3), (Z _ _ B3). destruct ess; cbn [sv_op]; do 2 f_equal; ring.
    - assert (K4 : epk_libxc q1 = Ok (r1, (Tm, tm, Tf, tf))) by (destruct K3 as [[? _]|[[_ ?]|[[? _]|[[? _]|[? _]]]]]; try discriminate; auto).
      assert (KX : p_x q2 = p_x q1 /\ p_c q2 = p_c q1).
      { unfold ep_kinetic in N2. rewrite R1, S1, Hk in N2. cbn [String.eqb Ascii.eqb Bool.eqb orb] in N2. rewrite K4 in N2. cbn [bind] in N2. injection N2 as <-. unfold epk_libxc in K4. dm K4. injection K4 as <- _ _ _ _. split; reflexivity. }
      split; [|exact KX]. destruct (ST0 ltac:(rewrite OO; exact Hk)) as (t0 & PK). specialize (A4 eq_refl). specialize (B4 eq_refl).
      assert (FA : p_f q1 Ca = Some (F Ca)) by (rewrite Q4, M5; apply HF; rewrite ENS; exact Logic.I). assert (FB : p_f q1 Cb = Some (F Cb)) by (rewrite Q4, M5; apply HF; rewrite ENS; exact Logic.I).
      unfold epk_libxc in K4. rewrite QK, X3, PK in K4. cbn [have bind] in K4. rewrite R7, S7, ENS in K4. cbn [comps comps_a comps_b forL] in K4. unfold get_f in K4. rewrite FA in K4. cbn [have bind] in K4. rewrite A4 in K4. cbn [have bind] in K4.
      destruct (getQ (F Ca)); [|discriminate]. cbn [bind] in K4. destruct (attr (f_V (F Ca)) "ts"); [|discriminate]. cbn [bind] in K4. rewrite FB in K4. cbn [have bind] in K4. rewrite B4 in K4. cbn [have bind] in K4.
      destruct (getQ (F Cb)); [|discriminate]. cbn [bind] in K4. destruct (attr (f_V (F Cb)) "ts"); [|discriminate]. cbn [bind fst] in K4. injection K4 as <- <- _ <- _.
      rewrite K1. unfold share. cbn [lsum]. unfold T. destruct ess; cbn [sv_op]; do 2 f_equal; ring. }
  destruct K5 as (K5 & KX1 & KX2). destruct KS as (U1 & U2 & _ & _ & _ & _ & U7 & _ & _ & U10 & U11 & U12 & _).
  unfold ep_hxc in N3. destruct (ep_dft g w q2) as [d1|] eqn:D1; [|discriminate]. cbn [bind] in N3. cbv zeta in N3.
  rewrite U1, R1, S1, Hh in N3. change (String.eqb "exact" "exact") with true in N3. cbv iota in N3.
  destruct (ep_dft_inv g w q2 d1 D1) as (nf' & vh & Eh0 & eh0 & x & Ex0 & ex0 & c & Ec0 & ec0 & V1 & V2 & V3 & _ & V5 & V6 & _ & V8 & V9 & _ & W1 & W2 & W3 & _); [rewrite U1, R1, S1; exact Hi|].
  pose proof (ep_dft_ekeep g w q2 d1 D1) as (_ & DT & DP).
  assert (nf' = nf). { rewrite U12, R12, S12 in V1. destruct HP as (_ & _ & Z & _). rewrite Z in V1. injection V1 as <-. reflexivity. } subst nf'.
  rewrite KE, Q5 in V3, V6, V9 by discriminate. rewrite PH in V3. rewrite PX in V6. rewrite PC in V9. injection V3 as <-. injection V6 as <-. injection V9 as <-.
  rewrite U2, R2, S2 in V2, W1.
  unfold attr in N3. rewrite W1, W2, W3 in N3. cbn [have bind] in N3. injection N3 as <-.
  cbn [set_E p_E p_T] in M1. unfold attr in M1. rewrite aset_other in M1 by discriminate. rewrite aset_same in M1. rewrite DP, KE, Y1, DT, K5 in M1. cbn [have bind sv_op] in M1.
  injection M1 as <-.
  exists nf0, T0, n0, T, vh, x, c. split; [exact NF0|]. split; [exact KI0|]. split; [intros d Hd; destruct d; try discriminate Hd; [exists fa|exists fb]; auto|].
  split; [exact V2|]. split; [rewrite <- X1, <- Q2, <- KX1; exact V5|]. split; [rewrite <- X2, <- Q3, <- KX2; exact V8|].
  rewrite P2. cbn [set_T p_T] in P1. rewrite aset_same in P1. injection P1 as <-. cbn [sv_op]. do 2 f_equal. rewrite TE, <- Y2, !TH. unfold share. cbn [lsum]. ring.
Qed.

(** * Runs *)
(** A partition object whose components belong to it and carry the initial weights: a new one, or one after some passes. *)
Definition made (g : grid) (Za Zb : R) (pol : nat) (nua nub : R) (p : part) (F : comp -> frag) : Prop := frags p F /\ belongs p F /\ at_nuclei p F /\
  (forall c, member (p_ens p) c -> f_scale (F c) = weight (p_ens p) (po_ess (p_opt p)) nua nub c) /\ p_pol p = pol /\ p_Za p = Za /\ p_Zb p = Zb /\ p_va p = coulomb g Za 0 /\ p_vb p = coulomb g 0 Zb.
Lemma init_made : forall g Za Zb pol spec nua nub opt p, partition_init g Za Zb pol spec nua nub opt = Ok p -> (pol <= 2)%nat -> po_sym (p_opt p) = false -> exists F, made g Za Zb pol nua nub p F.
Proof.
  intros g Za Zb pol spec nua nub opt p IN HP SY. destruct (init_new _ _ _ _ _ _ _ _ _ IN) as (F0 & HF0 & HB & W0 & HN & _). specialize (HN SY HP). pose proof (init_inv _ _ _ _ _ _ _ _ _ IN) as (dd & _ & _ & _ & PP & ZA & ZB & _ & _ & _ & VA & VB & _).
  exists F0. split; [exact HF0|]. split; [exact HB|]. split; [exact HN|]. split; [intros c Hc; apply (W0 c Hc)|]. auto.
Qed.
Lemma run_made : forall g w sched d p o n l s Za Zb pol nua nub F, passes g w sched d p o n l s -> made g Za Zb pol nua nub p F -> exists F', made g Za Zb pol nua nub (q_p s) F'.
Proof.
  intros g w sched d p o n l s Za Zb pol nua nub F H (HF & HB & HN & W & PP & ZA & ZB & VA & VB). destruct (run_static _ _ _ _ _ _ _ _ _ H) as (Q1 & Q2 & Q3 & Q4 & _ & _ & Q7 & Q8 & Q9 & _ & QF).
  exists (fun c => match p_f (q_p s) c with Some f => f | None => F c end).
  assert (X : forall c, member (p_ens p) c -> exists f, p_f (q_p s) c = Some f /\ frame (f_ks (F c)) (f_ks f) /\ f_scale f = f_scale (F c)) by (intros c Hc; destruct (QF c Hc) as (f & f' & X1 & X2 & X3 & X4 & _); rewrite (HF c Hc) in X1; injection X1 as <-; exists f'; auto).
  split; [intros c Hc; rewrite Q7 in Hc; destruct (X c Hc) as (f & Y & _); rewrite Y; reflexivity|]. split.
  - intros c Hc. rewrite Q7 in Hc. destruct (X c Hc) as (f & -> & (V1 & V2 & V3 & V4 & _) & _). rewrite V1, V2, V3, V4, Q1, Q2. apply HB. exact Hc.
  - split; [intros c Hc k x Hx; rewrite Q7 in Hc; rewrite Q2 in Hx; destruct (X c Hc) as (f & -> & (_ & _ & _ & _ & _ & _ & V & _) & _); rewrite V, Q8, Q9; apply HN; auto|].
    split; [intros c Hc; rewrite Q7 in Hc |- *; rewrite Q1; destruct (X c Hc) as (f & -> & _ & ->); auto|]. repeat split; congruence.
Qed.
(** After every pass the total energy is the kinetic energy of the fragments, corrected with the functional of the density and of the fragment densities the pass
    started from, plus the attraction and repulsion of the new density and the exchange and correlation of the old one. *)
Theorem run_explicit_from : forall g w Za Zb pol nua nub p F0 sched d o n l s0 s, made g Za Zb pol nua nub p F0 ->
  po_kin (p_opt p) = "none"%string \/ po_kin (p_opt p) = "libxcke"%string -> po_hxc (p_opt p) = "exact"%string -> po_int (p_opt p) = "dft"%string -> po_iso (p_opt p) = false -> po_ab (p_opt p) = false -> p_ens p = false ->
  passes g w sched d p o n l s0 -> psc_test o s0 = Ok true -> psc_body g w o (sched (q_iter s0)) s0 = Ok s -> ps_target o = false ->
  exists nf0 nf T0 n0 T e vh x c, p_nf (q_p s0) = Some nf0 /\ p_nf (q_p s) = Some nf /\ kinetic_int g (pe_env w) p nf0 T0 /\
    (forall c, c = Ca \/ c = Cb -> exists f f', p_f (q_p s0) c = Some f /\ k_n (f_ks f) = Some (n0 c) /\ kinetic_int g (pe_env w) p (n0 c) (T c) /\ p_f (q_p s) c = Some f' /\ k_E (f_ks f') = Some (e c)) /\
    v_hartree g (e_spL (pe_env w)) (e_spU (pe_env w)) (A1 (fun k => sumR pol (fun s => nf k s))) = Ok vh /\
    get_xc g (e_lib (pe_env w)) (po_fam (p_opt p)) (po_xid (p_opt p)) pol nf0 = Ok x /\ get_xc g (e_lib (pe_env w)) (po_fam (p_opt p)) (po_cid (p_opt p)) pol nf0 = Ok c /\
    p_T (q_p s) "E"%string = Some (SC (to_R (E_Ts (e Ca)) + to_R (E_Ts (e Cb)) + (T0 - T Ca - T Cb) +
      integrate1 g (fun k => sumR pol (fun s => nf k s) * (coulomb g Za 0 k + coulomb g 0 Zb k)) + 1 / 2 * integrate1 g (fun k => sumR pol (fun s => nf k s) * entry vh k 0) + fst (fst x) + fst (fst c) + Za * Zb / (2 * ga g))).
Proof.
  intros g w Za Zb pol nua nub p F0 sched d o n l s0 s (HF0 & HB & HN & W0 & PP & ZA & ZB & VA & VB) Hk Hh Hi Hs AB ENS H TT B HT.
  pose proof (pass_step _ _ _ _ _ _ _ _ _ _ H TT B) as H1. destruct (pass_ready _ _ _ _ _ _ _ _ _ H1) as (p5 & F & e & E1 & E2 & E3 & E4 & E5). destruct (E5 HT) as (m & na & nb & nf & q & ST & NF). clear E5.
  destruct (PartitionFinal.ready_frame _ _ _ _ _ _ _ _ _ _ _ _ H1 E2 (proj1 E3) HF0) as (G1 & G2 & G3 & G4 & G7 & G8 & G9 & GF).
  destruct (run_static _ _ _ _ _ _ _ _ _ H) as (Q1 & Q2 & _ & _ & _ & _ & Q7 & _).
  assert (KS5 : kinetic_stored g (pe_env w) (q_p s0) p5).
  { pose proof (pass_kinetic _ _ _ _ _ _ B) as K. rewrite Q1 in K. specialize (K Hk Hs AB). apply energy_tk in E1. destruct E1 as (K1 & K2). destruct K as (nf0 & T & N & KI & S & FF).
    exists nf0, T. split; auto. split; auto. split; [intros L; destruct (S L) as (t & Z); exists t; congruence|]. intros c Hc. destruct (FF c Hc) as (f & n0 & Tc & f' & F1 & F2 & F3 & F4 & F5). specialize (K2 c). rewrite F4 in K2. destruct (p_f p5 c) as [f5|] eqn:P5; [|destruct K2]. simpl in K2.
    exists f, n0, Tc, f5. repeat (split; [solve [auto]|]). intros L. rewrite <- K2. auto. }
  assert (X : exists nf0 x c, p_nf (q_p s0) = Some nf0 /\ get_xc g (e_lib (pe_env w)) (po_fam (p_opt p)) (po_xid (p_opt p)) (p_pol p) nf0 = Ok x /\ get_xc g (e_lib (pe_env w)) (po_fam (p_opt p)) (po_cid (p_opt p)) (p_pol p) nf0 = Ok c /\ p_x p5 = Some (fst x) /\ p_c p5 = Some (fst c)).
  { apply PartitionLoop.body_inv in B. destruct B as (p' & r & fl & W & _ & ->). assert (Q : q_p (psc_next o s0 p' r fl) = p') by (destruct r as [[? ?] ?]; reflexivity). rewrite Q in *. destruct (work_frag _ _ _ _ _ _ _ W) as (p3 & pv & vp & X1 & X2 & X3 & _ & X5 & X6 & _).
    assert (O3 : p_opt p3 = p_opt p) by (rewrite (proj1 X2); exact Q1). assert (PL : p_pol p3 = p_pol p) by (destruct X2 as (_ & -> & _); exact Q2).
    unfold psc_vp in X1. rewrite O3, Hs in X1. unfold partition_potential in X1. destruct (String.eqb (po_vp (p_opt p3)) "component").
    - destruct (vp_component g w p3) as [q3|] eqn:V; [|discriminate]. cbn [bind] in X1. destruct (attr (p_V q3) "vp"); [|discriminate]. cbn [bind] in X1. injection X1 as -> _.
      destruct (component_x _ _ _ _ V) as (nf0 & x & c & Y1 & Y2 & Y3 & Y4 & Y5); [rewrite O3; exact Hi|]. rewrite O3, PL in *. exists nf0, x, c. split; [congruence|]. split; auto. split; auto.
      pose proof (energy_yk _ _ _ _ E1) as (Z1 & Z2 & _). rewrite <- Z1, <- Z2, X5, X6. auto.
    - exfalso. destruct (vp_inversion p3) eqn:V; [|discriminate]. eapply vp_inversion_never; eauto. }
  destruct X as (nf0 & x & c & X1 & X2 & X3 & X4 & X5).
  destruct ST as (SD & SP & _ & _).
  destruct (explicit_energy g (pe_env w) p5 F m na nb nf e (q_p s) (q_p s0)) as (nf0' & T0 & n0 & T & vh & x' & c' & Y1 & Y2 & Y3 & Y4 & Y5 & Y6 & Y7); auto; try congruence; try (rewrite G1; assumption).
  - intros c0 Hc k s1 Hs1. rewrite G7 in Hc. rewrite G2 in Hs1. destruct (GF c0 Hc) as ((_ & _ & _ & _ & _ & _ & V & _) & _). rewrite V, G8, G9. apply HN; auto.
  - intros c0 Hc. rewrite G7 in Hc. destruct (GF c0 Hc) as ((V1 & V2 & V3 & V4 & _) & _). rewrite V1, V2, V3, V4, G1, G2. apply HB. auto.
  - intros c0 Hc. apply E4. apply computed_in. exact Hc.
  - rewrite X1 in Y1. injection Y1 as <-. rewrite X4 in Y5. injection Y5 as <-. rewrite X5 in Y6. injection Y6 as <-.
    assert (KI : forall m t, kinetic_int g (pe_env w) (q_p s0) m t -> kinetic_int g (pe_env w) p m t) by (intros m0 t; unfold kinetic_int; rewrite Q1, Q2; auto).
    exists nf0, nf, T0, n0, T, e, vh, x, c. split; [exact X1|]. split; [exact NF|]. split; [auto|]. split.
    { intros c0 Hc. assert (Mf : member false c0) by (destruct Hc as [-> | ->]; exact Logic.I). assert (Mp : member (p_ens p5) c0) by (rewrite G7, ENS; exact Mf). destruct (Y3 c0 Mf) as (f & Z1 & Z2 & Z3).
      destruct E2 as (_ & _ & _ & _ & _ & _ & _ & _ & _ & _ & _ & _ & _ & S14). specialize (S14 c0). rewrite (proj1 E3 c0 Mp) in S14. destruct (p_f (q_p s) c0) as [f'|]; [|destruct S14]. destruct S14 as (Z & _).
      exists f, f'. split; [exact Z1|]. split; [exact Z2|]. split; [auto|]. split; [reflexivity|]. rewrite Z. apply (proj2 E3 c0 Mp). }
    rewrite G2, PP in Y4, Y7. rewrite PP in X2, X3. split; [exact Y4|]. split; [exact X2|]. split; [exact X3|].
    pose proof (energy_parts _ _ _ _ _ _ E3 E1) as EP. cbv zeta in EP. destruct EP as (_ & _ & _ & _ & _ & _ & _ & _ & _ & _ & _ & _ & Ep & _ & P14 & P15). rewrite Y7 in P14. match type of P14 with Some ?a = Some ?b => assert (P16 : b = a) by congruence end. rewrite P16 in P15. cbn [sv_op] in P15. rewrite P15. do 2 f_equal. rewrite G3, G4, ZA, ZB.
    f_equal. do 3 f_equal.
    unfold nuclear_total. rewrite G2, PP, G8, G9, VA, VB. f_equal. unfold share. cbn [lsum]. rewrite G1.
    destruct (GF Ca Logic.I) as (_ & SA & _). destruct (GF Cb Logic.I) as (_ & SB & _). rewrite SA, SB. rewrite (W0 Ca Logic.I), (W0 Cb Logic.I). unfold weight. rewrite ENS. destruct (po_ess (p_opt p)); field.
Qed.
Theorem run_explicit : forall g w Za Zb pol spec nua nub opt p sched d o n l s0 s, partition_init g Za Zb pol spec nua nub opt = Ok p -> (pol <= 2)%nat -> po_sym (p_opt p) = false ->
  po_kin (p_opt p) = "none"%string \/ po_kin (p_opt p) = "libxcke"%string -> po_hxc (p_opt p) = "exact"%string -> po_int (p_opt p) = "dft"%string -> po_iso (p_opt p) = false -> po_ab (p_opt p) = false -> p_ens p = false ->
  passes g w sched d p o n l s0 -> psc_test o s0 = Ok true -> psc_body g w o (sched (q_iter s0)) s0 = Ok s -> ps_target o = false ->
  exists nf0 nf T0 n0 T e vh x c, p_nf (q_p s0) = Some nf0 /\ p_nf (q_p s) = Some nf /\ kinetic_int g (pe_env w) p nf0 T0 /\
    (forall c, c = Ca \/ c = Cb -> exists f f', p_f (q_p s0) c = Some f /\ k_n (f_ks f) = Some (n0 c) /\ kinetic_int g (pe_env w) p (n0 c) (T c) /\ p_f (q_p s) c = Some f' /\ k_E (f_ks f') = Some (e c)) /\
    v_hartree g (e_spL (pe_env w)) (e_spU (pe_env w)) (A1 (fun k => sumR pol (fun s => nf k s))) = Ok vh /\
    get_xc g (e_lib (pe_env w)) (po_fam (p_opt p)) (po_xid (p_opt p)) pol nf0 = Ok x /\ get_xc g (e_lib (pe_env w)) (po_fam (p_opt p)) (po_cid (p_opt p)) pol nf0 = Ok c /\
    p_T (q_p s) "E"%string = Some (SC (to_R (E_Ts (e Ca)) + to_R (E_Ts (e Cb)) + (T0 - T Ca - T Cb) +
      integrate1 g (fun k => sumR pol (fun s => nf k s) * (coulomb g Za 0 k + coulomb g 0 Zb k)) + 1 / 2 * integrate1 g (fun k => sumR pol (fun s => nf k s) * entry vh k 0) + fst (fst x) + fst (fst c) + Za * Zb / (2 * ga g))).
Proof.
  intros g w Za Zb pol spec nua nub opt p sched d o n l s0 s IN HP SY Hk Hh Hi Hs AB ENS H TT B HT. destruct (init_made _ _ _ _ _ _ _ _ _ IN HP SY) as (F0 & M). eapply run_explicit_from; eauto.
Qed.
