(** Partition: tools for the loops over the Kohn-Sham objects. *)
From Coq Require Import Reals List Arith Lia Lra ZArith Bool String.
From Verif Require Import Base BaseLemmas GridModel GridSpec GridProofs HartreeModel SolverModel SolverSpec LibxcModel OptionsModel KSModel KSSpec KSProofs KSLoop
  InverterModel PartitionModel PartitionSpec.
Import ListNotations.
Local Open Scope R_scope.

Definition with_f (p : part) (F : comp -> option frag) : part :=
  mkP (p_opt p) (p_pol p) (p_Za p) (p_Zb p) (p_nua p) (p_nub p) (p_ens p) (p_va p) (p_vb p) F
    (p_na p) (p_nb p) (p_nf p) (p_V p) (p_vt p) (p_E p) (p_T p) (p_Eks p) (p_ev p) (p_x p) (p_c p) (p_k p) (p_inv p) (p_info p) (p_epk p).
Lemma with_f_id : forall p, with_f p (p_f p) = p. Proof. destruct p; reflexivity. Qed.
Lemma set_frag_with : forall p c f, set_frag p c f = with_f p (fun d => if comp_eqb d c then Some f else p_f p d). Proof. reflexivity. Qed.
Lemma comp_eqb_refl : forall c, comp_eqb c c = true. Proof. destruct c; reflexivity. Qed.
Lemma comp_eqb_spec : forall c d, Bool.reflect (c = d) (comp_eqb c d). Proof. destruct c, d; constructor; congruence. Qed.
Lemma set_frag_same : forall p c f, p_f (set_frag p c f) c = Some f. Proof. intros. simpl. rewrite comp_eqb_refl. reflexivity. Qed.
Lemma set_frag_other : forall p c d f, d <> c -> p_f (set_frag p c f) d = p_f p d.
Proof. intros. simpl. destruct (comp_eqb_spec d c); congruence. Qed.
Lemma have_some : forall (A : Type) (o : option A) a, have o = Ok a -> o = Some a.
Proof. intros A [x|] a H; simpl in H; congruence. Qed.
Lemma axis1_some : forall (A : Type) (o : option A) a, axis1 o = Ok a -> o = Some a.
Proof. intros A [x|] a H; simpl in H; congruence. Qed.
Lemma get_f_some : forall p c f, get_f p c = Ok f -> p_f p c = Some f. Proof. intros. apply have_some. exact H. Qed.
Lemma fin_ok : forall x r, fin x = Ok r -> x = Fin r. Proof. intros x r H. destruct x; simpl in H; congruence. Qed.
Lemma getQ_some : forall f q, getQ f = Ok q -> f_Q f = Some q. Proof. intros f q. unfold getQ. destruct (f_Q f); congruence. Qed.

Lemma forL_app : forall (X S : Type) (l r : list X) f (s : S), forL (l ++ r) f s = (do s' <- forL l f s; forL r f s').
Proof. induction l as [|x l IH]; intros; simpl; [reflexivity|]. destruct (f x s); simpl; auto. Qed.
Lemma forL_ext : forall (X S : Type) (l : list X) f h (s : S), (forall x s, In x l -> f x s = h x s) -> forL l f s = forL l h s.
Proof. induction l as [|x l IH]; intros f h s H; simpl; [reflexivity|]. rewrite H by (left; auto). destruct (h x s); simpl; auto. apply IH. intros; apply H; right; auto. Qed.

Definition ignores_f (h : comp -> part -> frag -> res frag) : Prop := forall c p F f, h c (with_f p F) f = h c p f.
Lemma forL_frags : forall (h : comp -> part -> frag -> res frag) l p p', ignores_f h -> NoDup l ->
  forL l (fun c p => do f <- get_f p c; do f' <- h c p f; Ok (set_frag p c f')) p = Ok p' ->
  p' = with_f p (p_f p') /\
  (forall c, In c l -> exists f f', p_f p c = Some f /\ h c p f = Ok f' /\ p_f p' c = Some f') /\
  (forall c, ~ In c l -> p_f p' c = p_f p c).
Proof.
  intros h l. induction l as [|x l IH]; intros p p' I N H; simpl in H.
  - injection H as <-. rewrite with_f_id. split; auto. split; [intros c []|auto].
  - inversion N as [|? ? N1 N2]; subst. destruct (get_f p x) as [f|] eqn:E1; [|discriminate]. cbn [bind] in H.
    destruct (h x p f) as [f'|] eqn:E2; [|discriminate]. cbn [bind] in H. apply get_f_some in E1.
    destruct (IH _ _ I N2 H) as (A1 & A2 & A3). split; [|split].
    + rewrite A1. reflexivity.
    + intros c [<-|Hc].
      * exists f, f'. rewrite A3 by auto. rewrite set_frag_same. auto.
      * destruct (A2 c Hc) as (f1 & f2 & B1 & B2 & B3). exists f1, f2. rewrite set_frag_other in B1 by (intros ->; contradiction).
        rewrite set_frag_with, I in B2. auto.
    + intros c Hc. rewrite A3 by (intros Q; apply Hc; right; auto). apply set_frag_other. intros ->; apply Hc; left; auto.
Qed.
Lemma forL_frags_total : forall (h : comp -> part -> frag -> res frag) l p, ignores_f h -> NoDup l ->
  (forall c, In c l -> exists f f', p_f p c = Some f /\ h c p f = Ok f') ->
  exists p', forL l (fun c p => do f <- get_f p c; do f' <- h c p f; Ok (set_frag p c f')) p = Ok p'.
Proof.
  intros h l. induction l as [|x l IH]; intros p I N H; simpl; [eauto|]. inversion N as [|? ? N1 N2]; subst.
  destruct (H x (or_introl eq_refl)) as (f & f' & E1 & E2). unfold get_f. rewrite E1. cbn [have bind]. rewrite E2. cbn [bind].
  apply IH; auto. intros c Hc. destruct (H c (or_intror Hc)) as (f1 & f2 & B1 & B2). exists f1, f2.
  rewrite set_frag_other by (intros ->; contradiction). rewrite set_frag_with, I. auto.
Qed.
Lemma comps_nodup : forall e, NoDup (comps e).
Proof. destruct e; repeat constructor; simpl; intuition congruence. Qed.
Lemma comps_a_nodup : forall e, NoDup (comps_a e).
Proof. destruct e; repeat constructor; simpl; intuition congruence. Qed.
Lemma comps_b_nodup : forall e, NoDup (comps_b e).
Proof. destruct e; repeat constructor; simpl; intuition congruence. Qed.
Lemma comps_ab_nodup : forall p, NoDup (comps_ab p).
Proof. intros p. unfold comps_ab. destruct (po_ab (p_opt p)); [apply comps_a_nodup|apply comps_nodup]. Qed.
Lemma in_comps : forall e c, In c (comps e) <-> member e c.
Proof. intros [] []; simpl; intuition congruence. Qed.
Lemma in_comps_a : forall e c, In c (comps_a e) <-> member e c /\ of_a c.
Proof. unfold of_a. intros [] []; simpl; intuition congruence. Qed.
Lemma in_comps_ab : forall p c, In c (comps_ab p) <-> member (p_ens p) c /\ (po_ab (p_opt p) = true -> of_a c).
Proof.
  intros p c. unfold comps_ab. destruct (po_ab (p_opt p)).
  - rewrite in_comps_a. intuition.
  - rewrite in_comps. intuition congruence.
Qed.
Lemma lsum_ext : forall l h k, (forall c, In c l -> h c = k c) -> lsum l h = lsum l k.
Proof. induction l; simpl; intros; auto. rewrite H by auto. rewrite (IHl h k); auto. Qed.
