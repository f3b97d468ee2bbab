(** Partition: energies. *)
From Coq Require Import Reals List Arith Lia Lra ZArith Bool String.
From Verif Require Import Base BaseLemmas GridModel GridSpec GridProofs HartreeModel SolverModel SolverSpec LibxcModel OptionsModel KSModel KSSpec KSProofs KSLoop KSEnergy
  InverterModel PartitionModel PartitionSpec PartitionBase PartitionDens PartitionFrame.
Import ListNotations.
Local Open Scope R_scope.

(** * what partition_energy leaves alone *)
Definition ep_names : list string := ["Ep_pot"; "Ep_hxc"; "Ep_h"; "Ep_x"; "Ep_c"; "S"; "F"; "Ehcor"]%string.
Definition ekeep (p p' : part) : Prop :=
  (forall nm, ~ In nm ep_names -> p_E p' nm = p_E p nm) /\ (forall nm, nm <> "Ep"%string -> nm <> "Ep_kin"%string -> p_T p' nm = p_T p nm) /\
  p_Eks p' = p_Eks p /\ p_x p' = p_x p /\ p_c p' = p_c p /\ p_k p' = p_k p.
Lemma ekeep_refl : forall p, ekeep p p. Proof. intros. unfold ekeep. auto 10. Qed.
Lemma ekeep_trans : forall a b c, ekeep a b -> ekeep b c -> ekeep a c.
Proof.
  unfold ekeep. intros a b c (A1 & A2 & A3 & A4 & A5 & A6) (B1 & B2 & B3 & B4 & B5 & B6). split; [intros; rewrite B1, A1; auto|]. split; [intros; rewrite B2, A2; auto|].
  repeat split; congruence.
Qed.
Lemma aset_other : forall A (d : attrs A) k x nm, nm <> k -> aset d k x nm = d nm.
Proof. intros. unfold aset. destruct (String.eqb_spec nm k); congruence. Qed.
Lemma aset_same : forall A (d : attrs A) k x, aset d k x k = Some x.
Proof. intros. unfold aset. rewrite String.eqb_refl. reflexivity. Qed.
Lemma ekeep_E : forall p k x, In k ep_names -> ekeep p (set_E p k x).
Proof. intros p k x H. unfold ekeep. split; [|auto 10]. intros nm Hn. simpl. apply aset_other. intros ->. contradiction. Qed.
Lemma ekeep_V : forall p k x, ekeep p (set_V p k x). Proof. intros. unfold ekeep. auto 10. Qed.
Lemma ekeep_inv : forall p x, ekeep p (set_inv p x). Proof. intros. unfold ekeep. auto 10. Qed.
Lemma ekeep_epk : forall p x, ekeep p (set_epk p x). Proof. intros. unfold ekeep. auto 10. Qed.
Lemma ekeep_frag : forall p c x, ekeep p (set_frag p c x). Proof. intros. unfold ekeep. auto 10. Qed.
Lemma ekeep_T : forall p k x, k = "Ep"%string \/ k = "Ep_kin"%string -> ekeep p (set_T p k x).
Proof. intros p k x H. unfold ekeep. split; auto. split; [|auto]. intros. simpl. apply aset_other. destruct H; congruence. Qed.
Lemma forL_ekeep : forall X (l : list X) body, (forall x p p', In x l -> body x p = Ok p' -> ekeep p p') -> forall p p', forL l body p = Ok p' -> ekeep p p'.
Proof.
  induction l as [|x l IH]; intros body H p p' E; simpl in E.
  - injection E as <-. apply ekeep_refl.
  - destruct (body x p) as [q|] eqn:B; [|discriminate]. cbn [bind] in E. eapply ekeep_trans; [eapply H; [left; reflexivity|exact B]|].
    eapply IH; [|exact E]. intros; eapply H; [right|]; eauto.
Qed.
Ltac inlist := simpl; tauto.
Lemma vp_overlap_ekeep : forall g p p', vp_overlap g p = Ok p' -> ekeep p p'.
Proof.
  intros g p p' H. unfold vp_overlap in H.
  destruct (axis1 (p_na p)) as [na|]; [|discriminate]. cbn [bind] in H. destruct (have (p_nb p)) as [nb|]; [|discriminate]. cbn [bind] in H.
  destruct (overlap_S _ _ _ _) as [S|]; [|discriminate]. cbn [bind] in H. cbv zeta in H.
  match type of H with bind ?m _ = _ => destruct m as [p1|] eqn:E1; [|discriminate] end. cbn [bind] in H.
  eapply ekeep_trans; [|eapply ekeep_trans].
  2: { eapply forL_ekeep; [|exact E1]. intros c q q' _ E. cbv beta in E. dm E. injection E as <-. apply ekeep_frag. }
  - eapply ekeep_trans; apply ekeep_E; inlist.
  - eapply forL_ekeep; [|exact H]. intros c q q' _ E. cbv beta in E. dm E. injection E as <-. apply ekeep_frag.
Qed.
Lemma EnsCorHar_ekeep : forall g p p', EnsCorHar g p = Ok p' -> ekeep p p'.
Proof.
  intros g p p' H. unfold EnsCorHar in H. destruct (negb (p_ens p)); [discriminate|].
  match type of H with bind ?m _ = _ => destruct m as [p1|] eqn:E1; [|discriminate] end. cbn [bind] in H.
  match type of H with bind ?m _ = _ => destruct m as [p2|] eqn:E2; [|discriminate] end. cbn [bind] in H.
  match type of H with bind ?m _ = _ => destruct m as [e|] eqn:E3; [|discriminate] end. cbn [bind] in H. injection H as <-.
  eapply ekeep_trans; [|eapply ekeep_trans; [|apply ekeep_E; inlist]].
  - eapply forL_ekeep; [|exact E1]. intros c q q' _ E. cbv beta in E. dm E. injection E as <-. apply ekeep_frag.
  - eapply forL_ekeep; [|exact E2]. intros c q q' _ E. cbv beta in E. dm E. injection E as <-. apply ekeep_frag.
Qed.
(** ep_kinetic: the number (or array) that is stored. *)
Lemma ep_kinetic_K : forall g p p', ep_kinetic g p = Ok p' -> ekeep p p' /\ p_E p' = p_E p /\ exists K, p_T p' "Ep_kin"%string = Some K.
Proof.
  intros g p p' H. unfold ep_kinetic in H. cbv zeta in H. match type of H with bind ?m _ = _ => destruct m as [[p1 [[[Tm tm] Tf] tf]]|] eqn:E1; [|discriminate] end. cbn [bind] in H.
  injection H as <-.
  assert (X : ekeep p p1 /\ p_E p1 = p_E p).
  { destruct (String.eqb _ "vonweiz"); [unfold epk_vonweiz in E1; dm E1; injection E1 as <- _ _ _ _; split; [apply ekeep_refl|reflexivity]|].
    destruct (String.eqb _ "libxcke" || _); [unfold epk_libxc in E1; dm E1; injection E1 as <- _ _ _ _; split; [apply ekeep_refl|reflexivity]|].
    destruct (String.eqb _ "inversion"); [unfold epk_inversion in E1; dm E1; injection E1 as <- _ _ _ _; split; [apply ekeep_inv|reflexivity]|].
    destruct (String.eqb _ "none"); [unfold epk_none in E1; injection E1 as <- _ _ _ _; split; [apply ekeep_refl|reflexivity]|].
    destruct (String.eqb _ "twoorbital"); [|discriminate]. unfold epk_two in E1. dm E1; injection E1 as <- _ _ _ _; split; [eapply ekeep_trans; apply ekeep_V|reflexivity]. }
  destruct X as (X1 & X2). split; [eapply ekeep_trans; [exact X1|]; eapply ekeep_trans; [apply ekeep_T; right; reflexivity|apply ekeep_epk]|].
  split; [exact X2|]. eexists. cbn [set_epk set_T p_T]. apply aset_same.
Qed.
Lemma ep_dft_ekeep : forall g w p p', ep_dft g w p = Ok p' -> ekeep p p' /\ p_T p' = p_T p /\ p_E p' "Ep_pot"%string = p_E p "Ep_pot"%string.
Proof.
  intros g w p p' H. unfold ep_dft in H. destruct (String.eqb _ "dft").
  - dm H; injection H as <-. split; [|split; reflexivity]. do 3 (eapply ekeep_trans; [|apply ekeep_V]). do 2 (eapply ekeep_trans; [|apply ekeep_E; inlist]). apply ekeep_E; inlist.
  - injection H as <-. split; [|split; reflexivity]. do 2 (eapply ekeep_trans; [|apply ekeep_E; inlist]). apply ekeep_E; inlist.
Qed.
Lemma ep_hxc_ekeep : forall g w p p', ep_hxc g w p = Ok p' -> ekeep p p' .
Proof.
  intros g w p p' H. unfold ep_hxc in H. destruct (ep_dft g w p) as [p1|] eqn:E1; [|discriminate]. cbn [bind] in H. cbv zeta in H. eapply ekeep_trans; [eapply ep_dft_ekeep; eauto|].
  destruct (String.eqb _ "exact"); [dm H; injection H as <-; apply ekeep_E; inlist|].
  destruct (String.eqb _ "hartree"); [dm H; injection H as <-; apply ekeep_E; inlist|].
  destruct (String.eqb _ "overlap_xc").
  { destruct (vp_overlap g p1) as [p2|] eqn:E2; [|discriminate]. cbn [bind] in H. dm H; injection H as <-. eapply ekeep_trans; [eapply vp_overlap_ekeep; eauto|apply ekeep_E; inlist]. }
  destruct (String.eqb _ "overlap_hxc" || _); [|discriminate].
  destruct (vp_overlap g p1) as [p2|] eqn:E2; [|discriminate]. cbn [bind] in H. destruct (EnsCorHar g p2) as [p3|] eqn:E3; [|discriminate]. cbn [bind] in H. dm H; injection H as <-.
  eapply ekeep_trans; [eapply vp_overlap_ekeep; eauto|]. eapply ekeep_trans; [eapply EnsCorHar_ekeep; eauto|apply ekeep_E; inlist].
Qed.
Lemma partition_energy_ekeep : forall g w p p', partition_energy g w p = Ok p' -> ekeep p p'.
Proof.
  intros g w p p' H. unfold partition_energy in H. destruct (po_iso (p_opt p)).
  - injection H as <-. eapply ekeep_trans; [|apply ekeep_E; inlist]. eapply ekeep_trans; [|apply ekeep_T; tauto]. eapply ekeep_trans; [|apply ekeep_E; inlist]. apply ekeep_T; tauto.
  - destruct (ep_nuclear g p) as [p1|] eqn:E1; [|discriminate]. cbn [bind] in H. destruct (ep_kinetic g p1) as [p2|] eqn:E2; [|discriminate]. cbn [bind] in H.
    destruct (ep_hxc g w p2) as [p3|] eqn:E3; [|discriminate]. cbn [bind] in H. dm H; injection H as <-.
    assert (X : ekeep p p1) by (unfold ep_nuclear in E1; dm E1; injection E1 as <-; apply ekeep_E; inlist).
    eapply ekeep_trans; [exact X|]. eapply ekeep_trans; [eapply ep_kinetic_K; eauto|]. eapply ekeep_trans; [eapply ep_hxc_ekeep; eauto|apply ekeep_T; tauto].
Qed.

(** * sums over components *)
Lemma es_sum : forall dft p F e l a a', (forall c, In c l -> p_f p c = Some (F c) /\ k_E (f_ks (F c)) = Some (e c)) ->
  forL l (es_step dft p) a = Ok a' ->
  (forall c, In c l -> E_E (e c) = Fin (to_R (E_E (e c))) /\ E_Ts (e c) = Fin (to_R (E_Ts (e c)))) /\
  es_E a' = es_E a + lsum l (fun c => f_scale (F c) * to_R (E_E (e c))) /\
  es_Ts a' = es_Ts a + lsum l (fun c => f_scale (F c) * to_R (E_Ts (e c))) /\
  (forall s, es_Eks a' s = es_Eks a s + lsum l (fun c => f_scale (F c) * E_Eks (e c) s)) /\
  es_Enuc a' = es_Enuc a + lsum l (fun c => f_scale (F c) * E_Enuc (e c)) /\
  es_Ex a' = es_Ex a + lsum l (fun c => f_scale (F c) * (if dft then E_Ex (e c) else 0)) /\
  es_Ec a' = es_Ec a + lsum l (fun c => f_scale (F c) * (if dft then E_Ec (e c) else 0)) /\
  es_Eh a' = es_Eh a + lsum l (fun c => f_scale (F c) * (if dft then val (E_Eh (e c)) else 0)) /\
  es_Vhxc a' = es_Vhxc a + lsum l (fun c => f_scale (F c) * (if dft then val (E_Vhxc (e c)) else 0)).
Proof.
  intros dft p F e l. induction l as [|c l IH]; intros a a' H E; cbn [forL lsum] in *.
  - injection E as <-. split; [intros c []|]. repeat split; intros; ring.
  - destruct (es_step dft p c a) as [b|] eqn:S; [|discriminate]. cbn [bind] in E.
    destruct (H c (or_introl eq_refl)) as (H1 & H2). specialize (IH b a' (fun d Hd => H d (or_intror Hd)) E).
    destruct IH as (I0 & I1 & I2 & I3 & I4 & I5 & I6 & I7 & I8).
    unfold es_step in S. unfold get_f in S. rewrite H1 in S. cbn [have bind] in S. rewrite H2 in S. cbn [have bind] in S. cbv zeta in S.
    destruct (fin (E_E (e c))) as [x|] eqn:X; [|discriminate]. cbn [bind] in S. destruct (fin (E_Ts (e c))) as [t|] eqn:T; [|discriminate]. cbn [bind] in S.
    apply fin_ok in X, T. rewrite X, T in *. cbn [to_R] in *.
    destruct dft.
    + destruct (E_Eh (e c)) as [eh|]; [|discriminate]. destruct (E_Vhxc (e c)) as [vh|]; [|discriminate]. cbn [have bind] in S. injection S as <-. cbn [es_E es_Ts es_Eks es_Enuc es_Ex es_Ec es_Eh es_Vhxc val] in *.
      split; [intros d [<-|Hd]; [rewrite X, T; auto|auto]|]. rewrite I1, I2, I4, I5, I6, I7, I8. split; [ring|]. split; [ring|]. split; [intros; rewrite I3; ring|]. repeat split; ring.
    + injection S as <-. cbn [es_E es_Ts es_Eks es_Enuc es_Ex es_Ec es_Eh es_Vhxc] in *.
      split; [intros d [<-|Hd]; [rewrite X, T; auto|auto]|]. rewrite I1, I2, I4, I5, I6, I7, I8. split; [ring|]. split; [ring|]. split; [intros; rewrite I3; ring|]. repeat split; ring.
Qed.
(** the components that enter the sums of fragment B *)
Definition b_list (ens : bool) : list comp := if ens then [CB; CB] else [Cb].
Definition of_B (ab ess : bool) (ens : bool) (F : comp -> frag) (h : comp -> R) : R :=
  if ab then share ess F (if ens then [Ca; CA] else [Ca]) h else share ess F (b_list ens) h.
Definition of_A (ess ens : bool) (F : comp -> frag) (h : comp -> R) : R := share ess F (if ens then [Ca; CA] else [Ca]) h.
Definition tot (ab ess ens : bool) F h := of_A ess ens F h + of_B ab ess ens F h.
Lemma es_of : forall dft p F e l a, (forall c, In c l -> p_f p c = Some (F c) /\ k_E (f_ks (F c)) = Some (e c)) ->
  forL l (es_step dft p) es0 = Ok a ->
  let h := if po_ess (p_opt p) then es_double a else a in
  let sh := share (po_ess (p_opt p)) F l in
  es_E h = sh (fun c => to_R (E_E (e c))) /\ es_Ts h = sh (fun c => to_R (E_Ts (e c))) /\ (forall s, es_Eks h s = sh (fun c => E_Eks (e c) s)) /\
  es_Enuc h = sh (fun c => E_Enuc (e c)) /\ es_Ex h = sh (fun c => if dft then E_Ex (e c) else 0) /\ es_Ec h = sh (fun c => if dft then E_Ec (e c) else 0) /\
  es_Eh h = sh (fun c => if dft then val (E_Eh (e c)) else 0) /\ es_Vhxc h = sh (fun c => if dft then val (E_Vhxc (e c)) else 0).
Proof.
  intros dft p F e l a H E. apply (es_sum dft p F e l es0 a H) in E. destruct E as (_ & I1 & I2 & I3 & I4 & I5 & I6 & I7 & I8).
  cbn [es0 es_E es_Ts es_Eks es_Enuc es_Ex es_Ec es_Eh es_Vhxc] in *. cbv zeta. unfold share. destruct (po_ess (p_opt p)); cbn [es_double es_E es_Ts es_Eks es_Enuc es_Ex es_Ec es_Eh es_Vhxc].
  - rewrite I1, I2, I4, I5, I6, I7, I8. split; [ring|]. split; [ring|]. split; [intros; rewrite I3; ring|]. repeat split; ring.
  - rewrite I1, I2, I4, I5, I6, I7, I8. split; [ring|]. split; [ring|]. split; [intros; rewrite I3; ring|]. repeat split; ring.
Qed.
Lemma set_E_p_E : forall p k x, p_E (set_E p k x) = aset (p_E p) k x. Proof. reflexivity. Qed.
Lemma set_E_p_T : forall p k x, p_T (set_E p k x) = p_T p. Proof. reflexivity. Qed.
Lemma set_E_p_Eks : forall p k x, p_Eks (set_E p k x) = p_Eks p. Proof. reflexivity. Qed.
Lemma set_E_p_ev : forall p k x, p_ev (set_E p k x) = p_ev p. Proof. reflexivity. Qed.
Lemma set_E_p_f : forall p k x, p_f (set_E p k x) = p_f p. Proof. reflexivity. Qed.
Lemma set_E_p_opt : forall p k x, p_opt (set_E p k x) = p_opt p. Proof. reflexivity. Qed.
Lemma set_E_p_ens : forall p k x, p_ens (set_E p k x) = p_ens p. Proof. reflexivity. Qed.
Lemma set_T_p_E : forall p k x, p_E (set_T p k x) = p_E p. Proof. reflexivity. Qed.
Lemma set_T_p_T : forall p k x, p_T (set_T p k x) = aset (p_T p) k x. Proof. reflexivity. Qed.
Lemma set_T_p_Eks : forall p k x, p_Eks (set_T p k x) = p_Eks p. Proof. reflexivity. Qed.
Lemma set_T_p_ev : forall p k x, p_ev (set_T p k x) = p_ev p. Proof. reflexivity. Qed.
Lemma set_T_p_f : forall p k x, p_f (set_T p k x) = p_f p. Proof. reflexivity. Qed.
Lemma set_T_p_opt : forall p k x, p_opt (set_T p k x) = p_opt p. Proof. reflexivity. Qed.
Lemma set_T_p_ens : forall p k x, p_ens (set_T p k x) = p_ens p. Proof. reflexivity. Qed.
Lemma set_eks_p_E : forall p x, p_E (set_eks p x) = p_E p. Proof. reflexivity. Qed.
Lemma set_eks_p_T : forall p x, p_T (set_eks p x) = p_T p. Proof. reflexivity. Qed.
Lemma set_eks_p_Eks : forall p x, p_Eks (set_eks p x) = x. Proof. reflexivity. Qed.
Lemma set_eks_p_ev : forall p x, p_ev (set_eks p x) = p_ev p. Proof. reflexivity. Qed.
Lemma set_eks_p_f : forall p x, p_f (set_eks p x) = p_f p. Proof. reflexivity. Qed.
Lemma set_eks_p_opt : forall p x, p_opt (set_eks p x) = p_opt p. Proof. reflexivity. Qed.
Lemma set_eks_p_ens : forall p x, p_ens (set_eks p x) = p_ens p. Proof. reflexivity. Qed.
Lemma set_evals_p_E : forall p x, p_E (set_evals p x) = p_E p. Proof. reflexivity. Qed.
Lemma set_evals_p_T : forall p x, p_T (set_evals p x) = p_T p. Proof. reflexivity. Qed.
Lemma set_evals_p_Eks : forall p x, p_Eks (set_evals p x) = p_Eks p. Proof. reflexivity. Qed.
Lemma set_evals_p_ev : forall p x, p_ev (set_evals p x) = x. Proof. reflexivity. Qed.
Lemma set_evals_p_f : forall p x, p_f (set_evals p x) = p_f p. Proof. reflexivity. Qed.
Lemma set_evals_p_opt : forall p x, p_opt (set_evals p x) = p_opt p. Proof. reflexivity. Qed.
Lemma set_evals_p_ens : forall p x, p_ens (set_evals p x) = p_ens p. Proof. reflexivity. Qed.
#[local] Hint Rewrite set_E_p_E set_E_p_T set_E_p_Eks set_E_p_ev set_E_p_f set_E_p_opt set_E_p_ens set_T_p_E set_T_p_T set_T_p_Eks set_T_p_ev set_T_p_f set_T_p_opt set_T_p_ens set_eks_p_E set_eks_p_T set_eks_p_Eks set_eks_p_ev set_eks_p_f set_eks_p_opt set_eks_p_ens set_evals_p_E set_evals_p_T set_evals_p_Eks set_evals_p_ev set_evals_p_f set_evals_p_opt set_evals_p_ens : fld.
#[local] Opaque set_E set_T set_eks set_evals.
Lemma energy_parts : forall g w p F e p', energies p F e -> energy g w p = Ok p' ->
  let dft := String.eqb (po_int (p_opt p)) "dft" in
  let ab := po_ab (p_opt p) in let ess := po_ess (p_opt p) in let ens := p_ens p in
  p_E p' "Ea"%string = Some (of_A ess ens F (fun c => to_R (E_E (e c)))) /\
  p_E p' "Eb"%string = Some (of_B ab ess ens F (fun c => to_R (E_E (e c)))) /\
  p_E p' "Ef"%string = Some (tot ab ess ens F (fun c => to_R (E_E (e c)))) /\
  p_E p' "Tsf"%string = Some (tot ab ess ens F (fun c => to_R (E_Ts (e c)))) /\
  p_E p' "Enucf"%string = Some (tot ab ess ens F (fun c => E_Enuc (e c))) /\
  p_E p' "Exf"%string = Some (tot ab ess ens F (fun c => if dft then E_Ex (e c) else 0)) /\
  p_E p' "Ecf"%string = Some (tot ab ess ens F (fun c => if dft then E_Ec (e c) else 0)) /\
  p_E p' "Ehf"%string = Some (tot ab ess ens F (fun c => if dft then val (E_Eh (e c)) else 0)) /\
  p_E p' "Vhxcf"%string = Some (tot ab ess ens F (fun c => if dft then val (E_Vhxc (e c)) else 0)) /\
  (forall s, p_Eks p' s = tot ab ess ens F (fun c => E_Eks (e c) s)) /\
  p_E p' "Vnn"%string = Some (p_Za p * p_Zb p / (2 * ga g)) /\
  p_ev p' = (flat_map (fun c => E_evals (e c)) (if ens then [Ca; CA] else [Ca]),
             flat_map (fun c => E_evals (e c)) (if ab then (if ens then [Ca; CA] else [Ca]) else (if ens then [Cb; CB] else [Cb]))) /\
  exists Ep, p_T p' "Ep"%string = Some Ep /\
    p_T p' "Et"%string = Some (sv_op Rplus (SC (tot ab ess ens F (fun c => to_R (E_E (e c))))) Ep) /\
    p_T p' "E"%string = Some (sv_op Rplus (sv_op Rplus (SC (tot ab ess ens F (fun c => to_R (E_E (e c))))) Ep) (SC (p_Za p * p_Zb p / (2 * ga g)))).
Proof.
  intros g w p F e p' (HF & HE) H. unfold energy in H. cbv zeta in *.
  match type of H with bind ?m _ = _ => destruct m as [a|] eqn:E1; [|discriminate] end. cbn [bind] in H.
  match type of H with bind ?m _ = _ => destruct m as [b|] eqn:E2; [|discriminate] end. cbn [bind] in H.
  set (ha := (if po_ess (p_opt p) then es_double else fun x => x) a) in H. set (hb := (if po_ess (p_opt p) then es_double else fun x => x) b) in H.
  assert (A : forall c, In c (comps_a (p_ens p)) -> p_f p c = Some (F c) /\ k_E (f_ks (F c)) = Some (e c)).
  { intros c Hc. apply in_comps_a in Hc. split; [apply HF|apply HE]; tauto. }
  assert (B : forall c, In c (b_list (p_ens p)) -> p_f p c = Some (F c) /\ k_E (f_ks (F c)) = Some (e c)).
  { intros c Hc. assert (member (p_ens p) c) by (destruct (p_ens p), c; simpl in *; intuition congruence). split; [apply HF|apply HE]; auto. }
  pose proof (es_of _ p F e _ a A E1) as (A1 & A2 & A3 & A4 & A5 & A6 & A7 & A8).
  replace (if po_ess (p_opt p) then es_double a else a) with ha in * by (unfold ha; destruct (po_ess (p_opt p)); reflexivity).
  assert (BB : es_E hb = of_B (po_ab (p_opt p)) (po_ess (p_opt p)) (p_ens p) F (fun c => to_R (E_E (e c))) /\
    es_Ts hb = of_B (po_ab (p_opt p)) (po_ess (p_opt p)) (p_ens p) F (fun c => to_R (E_Ts (e c))) /\
    (forall s, es_Eks hb s = of_B (po_ab (p_opt p)) (po_ess (p_opt p)) (p_ens p) F (fun c => E_Eks (e c) s)) /\
    es_Enuc hb = of_B (po_ab (p_opt p)) (po_ess (p_opt p)) (p_ens p) F (fun c => E_Enuc (e c)) /\
    es_Ex hb = of_B (po_ab (p_opt p)) (po_ess (p_opt p)) (p_ens p) F (fun c => if String.eqb (po_int (p_opt p)) "dft" then E_Ex (e c) else 0) /\
    es_Ec hb = of_B (po_ab (p_opt p)) (po_ess (p_opt p)) (p_ens p) F (fun c => if String.eqb (po_int (p_opt p)) "dft" then E_Ec (e c) else 0) /\
    es_Eh hb = of_B (po_ab (p_opt p)) (po_ess (p_opt p)) (p_ens p) F (fun c => if String.eqb (po_int (p_opt p)) "dft" then val (E_Eh (e c)) else 0) /\
    es_Vhxc hb = of_B (po_ab (p_opt p)) (po_ess (p_opt p)) (p_ens p) F (fun c => if String.eqb (po_int (p_opt p)) "dft" then val (E_Vhxc (e c)) else 0)).
  { unfold of_B. destruct (po_ab (p_opt p)).
    - injection E2 as <-. replace hb with ha by reflexivity. auto 10.
    - pose proof (es_of _ p F e (b_list (p_ens p)) b B E2) as Q. cbv zeta in Q.
      replace (if po_ess (p_opt p) then es_double b else b) with hb in Q by (unfold hb; destruct (po_ess (p_opt p)); reflexivity). exact Q. }
  clearbody ha hb. destruct BB as (B1 & B2 & B3 & B4 & B5 & B6 & B7 & B8).
  match type of H with bind (partition_energy _ _ ?q) _ = _ => set (p2 := q) in H; assert (P2 : psame p p2) end.
  { unfold p2. eapply psame_trans; [|apply psame_eks]. do 8 (eapply psame_trans; [|apply psame_E]). apply psame_E. }
  assert (Q : p_E p2 "Ea"%string = Some (es_E ha) /\ p_E p2 "Eb"%string = Some (es_E hb) /\ p_E p2 "Ef"%string = Some (es_E ha + es_E hb) /\
    p_E p2 "Tsf"%string = Some (es_Ts ha + es_Ts hb) /\ p_E p2 "Enucf"%string = Some (es_Enuc ha + es_Enuc hb) /\
    p_E p2 "Exf"%string = Some (es_Ex ha + es_Ex hb) /\ p_E p2 "Ecf"%string = Some (es_Ec ha + es_Ec hb) /\ p_E p2 "Ehf"%string = Some (es_Eh ha + es_Eh hb) /\
    p_E p2 "Vhxcf"%string = Some (es_Vhxc ha + es_Vhxc hb) /\ (forall s, p_Eks p2 s = es_Eks ha s + es_Eks hb s)) by (unfold p2; autorewrite with fld; repeat split; intros; autorewrite with fld; reflexivity).
  clearbody p2. destruct Q as (Q1 & Q2 & Q3 & Q4 & Q5 & Q6 & Q7 & Q8 & Q9 & Q10).
  destruct (partition_energy g w p2) as [p3|] eqn:E3; [|discriminate]. cbn [bind] in H. pose proof (partition_energy_ekeep _ _ _ _ E3) as (K1 & K2 & K3 & _).
  destruct (attr (p_T p3) "Ep") as [Ep|] eqn:E4; [|discriminate]. cbn [bind] in H. apply have_some in E4.
  match type of H with bind (evals_of ?q _) _ = _ => set (p4 := q) in H end.
  assert (R4 : p_E p4 "Vnn"%string = Some (p_Za p * p_Zb p / (2 * ga g)) /\ (forall nm, nm <> "Vnn"%string -> p_E p4 nm = p_E p3 nm) /\ p_Eks p4 = p_Eks p3 /\
    p_T p4 "Ep"%string = Some Ep /\ p_T p4 "Et"%string = Some (sv_op Rplus (SC (es_E ha + es_E hb)) Ep) /\
    p_T p4 "E"%string = Some (sv_op Rplus (sv_op Rplus (SC (es_E ha + es_E hb)) Ep) (SC (p_Za p * p_Zb p / (2 * ga g))))).
  { unfold p4. autorewrite with fld. split; [reflexivity|]. split; [intros nm Hn; autorewrite with fld; apply aset_other; auto|]. split; [reflexivity|]. split; [exact E4|]. split; reflexivity. }
  assert (P4 : psame p p4).
  { eapply psame_trans; [exact P2|]. eapply psame_trans; [eapply partition_energy_same; eauto|]. unfold p4. eapply psame_trans; [|apply psame_T]. eapply psame_trans; [apply psame_T|apply psame_E]. }
  clearbody p4. destruct R4 as (R1 & R2 & R3 & R5 & R6 & R7).
  assert (EV : forall l a1, (forall c, In c l -> member (p_ens p) c) -> evals_of p4 l = Ok a1 -> a1 = flat_map (fun c => E_evals (e c)) l).
  { intros l a1 Hl Q. unfold evals_of in Q.
    assert (G : forall l acc a1, (forall c, In c l -> member (p_ens p) c) ->
      forL l (fun c acc => do f <- get_f p4 c; do e <- have (k_E (f_ks f)); Ok (acc ++ E_evals e)%list) acc = Ok a1 -> a1 = (acc ++ flat_map (fun c => E_evals (e c)) l)%list).
    { clear l a1 Hl Q. induction l as [|c l IH]; intros acc a1 Hl Q; cbn [forL flat_map] in *; [injection Q as <-; rewrite app_nil_r; reflexivity|].
      destruct P4 as (_ & _ & _ & _ & _ & _ & _ & _ & _ & _ & _ & _ & _ & P4). specialize (P4 c). pose proof (Hl c (or_introl eq_refl)) as M. unfold get_f in Q at 1. rewrite (HF c M) in P4.
      destruct (p_f p4 c) as [f|]; [|destruct P4]. cbn [have bind] in Q. destruct P4 as (P4 & _). rewrite P4, (HE c M) in Q. cbn [have bind] in Q.
      apply IH in Q; [|intros; apply Hl; right; auto]. rewrite Q, app_assoc. reflexivity. }
    apply G in Q; auto. }
  destruct (evals_of p4 _) as [ea|] eqn:V1; [|discriminate]. cbn [bind] in H. match type of H with bind ?m _ = _ => destruct m as [eb|] eqn:V2; [|discriminate] end. cbn [bind] in H. injection H as <-.
  assert (W1 : ea = flat_map (fun c => E_evals (e c)) (if p_ens p then [Ca; CA] else [Ca])).
  { apply (EV (comps_a (p_ens p))); auto. intros c Hc. apply in_comps_a in Hc. tauto. }
  assert (W2 : eb = flat_map (fun c => E_evals (e c)) (if po_ab (p_opt p) then (if p_ens p then [Ca; CA] else [Ca]) else (if p_ens p then [Cb; CB] else [Cb]))).
  { destruct (po_ab (p_opt p)); [injection V2 as <-; exact W1|]. apply (EV (comps_b (p_ens p))); auto. intros c Hc. destruct (p_ens p), c; simpl in *; intuition congruence. }
  autorewrite with fld. unfold tot.
  repeat (split; [rewrite R2 by discriminate; rewrite K1 by (simpl; intuition discriminate); first [rewrite Q1|rewrite Q2|rewrite Q3|rewrite Q4|rewrite Q5|rewrite Q6|rewrite Q7|rewrite Q8|rewrite Q9]; rewrite ?A1, ?A2, ?A4, ?A5, ?A6, ?A7, ?A8, ?B1, ?B2, ?B4, ?B5, ?B6, ?B7, ?B8; reflexivity|]).
  split; [intros s; autorewrite with fld; rewrite R3, K3, Q10, A3, B3; reflexivity|]. split; [exact R1|]. split; [rewrite W1, W2; reflexivity|]. exists Ep. split; [exact R5|]. rewrite R6, R7, A1, B1. split; reflexivity.
Qed.
