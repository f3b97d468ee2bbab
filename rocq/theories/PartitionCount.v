(** Partition: electron numbers, sign and symmetry of the component densities in every pass of Partition.scf. *)
From Coq Require Import Reals List Arith Lia Lra ZArith Bool String.
From Verif Require Import Base BaseLemmas GridModel GridSpec GridProofs HartreeModel SolverModel SolverSpec SolverProofs LibxcModel OptionsModel KSModel KSSpec KSProofs KSThms KSLoop KSEnergy KSTotal
  InverterModel PartitionModel PartitionSpec PartitionBase PartitionConstr PartitionDens PartitionFrame PartitionEnergy PartitionLoop PartitionStep PartitionKeep PartitionPass PartitionScf PartitionRun PartitionNew.
Import ListNotations.
Local Open Scope R_scope.

(** Independent vocabulary: the electrons asked for in spin column j of component c, as given to the constructor. *)
Definition asked (spec : comp -> fspec) (c : comp) (j : nat) : R := sumR (fs_lv (spec c)) (fun i => fs_N (spec c) i j).
(** The solvers of the components that are computed have sensible occupations. *)
Definition occupied (p : part) : Prop := forall c f i j, computed p c -> p_f p c = Some f -> place (f_ks f) i j -> placed (k_sol (f_ks f) i j).
(** The quadrature does not see the mirror whenever mirror images are formed. *)
Definition mirror_safe (g : grid) (p : part) : Prop := po_ab (p_opt p) = true \/ (exists c f, computed p c /\ p_f p c = Some f /\ o_sym (k_opt (f_ks f)) = true) -> mirror_invariant g.

(** * Any property of densities that is kept by mixing *)
Lemma run_density : forall g w sched d p o n l s, passes g w sched d p o n l s -> forall c f0 (P : mat -> Prop), computed p c -> p_f p c = Some f0 ->
  (ps_cont o = true -> forall m, k_n (f_ks f0) = Some m -> P m) ->
  (forall k1 k2 it dif sc m, frame (f_ks f0) k1 -> ks_density g (pe_env w) it dif sc k1 = Ok (k2, m) -> P m) ->
  (forall al a b, step_size (ps_alpha o) c = Some al -> P a -> P b -> P (fun x j => (1 - al) * a x j + al * b x j)) ->
  exists f m, p_f (q_p s) c = Some f /\ k_n (f_ks f) = Some m /\ P m.
Proof.
  intros g w sched d p o n l s H c f0 P Hc F0 HC HD HX. induction H as [p0 nf O S N|n l s s' HP IH T B].
  - cbn [q_p]. destruct (start_frag _ _ _ _ _ _ S c Hc) as (f & fi & f1 & f' & X1 & X2 & X3 & X4 & X5). rewrite F0 in X1. injection X1 as <-.
    apply guess_frag_inv in X3. destruct X3 as (_ & m & N1 & X3). exists f', m. split; auto. rewrite X5. split; auto.
    destruct (ps_cont o) eqn:E; [subst f1; rewrite X2 in N1; auto|]. destruct X3 as (k1 & k2 & A1 & A2 & _). rewrite X2 in A1. eauto.
  - destruct IH as (f & m & I1 & I2 & I3). pose proof (run_static _ _ _ _ _ _ _ _ _ HP) as (R1 & _ & _ & _ & _ & _ & R7 & _ & _ & _ & R).
    assert (Hc' : computed (q_p s) c) by (unfold computed; rewrite R1, R7; exact Hc).
    destruct (R c (proj1 Hc)) as (f0' & ff & Y1 & Y2 & Y3 & _ & Y5 & _). rewrite F0 in Y1. injection Y1 as <-. rewrite I1 in Y2. injection Y2 as <-.
    apply pass_vext in B. destruct B as (vp & _ & _ & B). destruct (B c Hc') as (f2 & f' & m2 & nout & k1 & k2 & ve & vh & Z1 & Z2 & Z3 & Z4 & Z5 & _ & _ & _ & Z9 & _).
    rewrite I1 in Z1. injection Z1 as <-. rewrite I2 in Z3. injection Z3 as <-. exists f', (fun x j => (1 - f_alpha f) * m x j + f_alpha f * nout x j). split; auto. split; auto.
    apply HX; auto. eapply HD; [|exact Z4]. eapply frame_trans; eauto.
Qed.

(** * Electrons *)
Theorem run_electrons : forall g w sched d p o n l s, passes g w sched d p o n l s -> worker_ok g (pe_env w) -> occupied p -> mirror_safe g p ->
  (ps_cont o = true -> forall c f m j, computed p c -> p_f p c = Some f -> k_n (f_ks f) = Some m -> (j < k_cols (f_ks f))%nat -> integrate1 g (fun x => m x j) = electrons (f_ks f) j) ->
  forall c f0, member (p_ens p) c -> p_f p (source p c) = Some f0 ->
  exists f m, p_f (q_p s) c = Some f /\ k_n (f_ks f) = Some m /\ forall j, (j < k_cols (f_ks f0))%nat -> integrate1 g (fun x => m x j) = electrons (f_ks f0) j.
Proof.
  intros g w sched d p o n l s H HW HO HM HC.
  assert (A : forall c f0, computed p c -> p_f p c = Some f0 -> exists f m, p_f (q_p s) c = Some f /\ k_n (f_ks f) = Some m /\ forall j, (j < k_cols (f_ks f0))%nat -> integrate1 g (fun x => m x j) = electrons (f_ks f0) j).
  { intros c f0 Hc F0. apply (run_density _ _ _ _ _ _ _ _ _ H c f0 (fun m => forall j, (j < k_cols (f_ks f0))%nat -> integrate1 g (fun x => m x j) = electrons (f_ks f0) j)); auto.
    - intros E m N j Hj. eapply HC; eauto.
    - intros k1 k2 it dif sc m F D j Hj. eapply out_count; eauto.
      intros Q. apply HM. right. eauto.
    - intros al a b _ Ha Hb j Hj. rewrite integrate1_plus, !integrate1_scal, (Ha j Hj), (Hb j Hj). ring. }
  intros c f0 Hc F0. destruct (po_ab (p_opt p)) eqn:AB; unfold source in F0; rewrite AB in F0.
  - assert (X : of_a c \/ exists a, of_a a /\ c = twin a /\ member (p_ens p) a /\ match c with Ca | Cb => Ca | _ => CA end = a).
    { unfold of_a. destruct c; auto; right; [exists Ca|exists CA]; simpl; auto. }
    destruct X as [X|(a & Xa & -> & Ma & Xs)].
    + apply A; [split; auto|]. destruct X as [-> | ->]; exact F0.
    + rewrite Xs in F0. destruct (run_twins _ _ _ _ _ _ _ _ _ H AB a Ma Xa) as (fa & fb & T1 & T2 & ((m & m' & T3 & T4 & T5) & _)).
      destruct (A a f0) as (f & m1 & B1 & B2 & B3); [split; auto|auto|]. rewrite T1 in B1. injection B1 as <-. rewrite T3 in B2. injection B2 as <-.
      exists fb, m'. split; auto. split; auto. intros j Hj. rewrite <- (B3 j Hj). assert (MI : mirror_invariant g) by (apply HM; auto). rewrite <- (MI (fun x => m x j)).
      apply integrate1_ext. intros x Hx. destruct (pos_surj g x Hx) as (ia & ir & Hp & ->). rewrite mirror1_pos by auto. apply T5; auto.
  - apply A; auto. split; auto. congruence.
Qed.

(** * Sign *)
Theorem run_nonneg : forall g w sched d p o n l s, passes g w sched d p o n l s -> worker_ok g (pe_env w) -> occupied p -> Forall (fun a => 0 <= a <= 1) (ps_alpha o) ->
  (ps_cont o = true -> forall c f m x j, computed p c -> p_f p c = Some f -> k_n (f_ks f) = Some m -> (x < Nelem g)%nat -> 0 <= m x j) ->
  forall c, member (p_ens p) c -> exists f m, p_f (q_p s) c = Some f /\ k_n (f_ks f) = Some m /\ forall x j, (x < Nelem g)%nat -> 0 <= m x j.
Proof.
  intros g w sched d p o n l s H HW HO HA HC.
  assert (A : forall c, computed p c -> exists f m, p_f (q_p s) c = Some f /\ k_n (f_ks f) = Some m /\ forall x j, (x < Nelem g)%nat -> 0 <= m x j).
  { intros c Hc. pose proof (run_static _ _ _ _ _ _ _ _ _ H) as (_ & _ & _ & _ & _ & _ & _ & _ & _ & _ & R). destruct (R c (proj1 Hc)) as (f0 & _ & F0 & _).
    apply (run_density _ _ _ _ _ _ _ _ _ H c f0 (fun m => forall x j, (x < Nelem g)%nat -> 0 <= m x j)); auto.
    - intros E m N x j Hx. eapply HC; eauto.
    - intros k1 k2 it dif sc m F D x j Hx. eapply density_nonneg_all; [exact HW| |exact D|exact Hx]. eapply placed_frame; [exact F|]. intros i' j' Hp. eapply HO; eauto.
    - intros al a b E Ha Hb x j Hx. assert (AL : 0 <= al <= 1).
      { unfold step_size in E. destruct (ps_alpha o) as [|a1 [|a2 [|? ?]]]; try discriminate.
        - injection E as <-. inversion HA; auto.
        - inversion HA as [|? ? H1 H2]; subst. inversion H2; subst. destruct c; injection E as <-; auto. }
      pose proof (Ha x j Hx). pose proof (Hb x j Hx). assert (0 <= (1 - al) * a x j) by (apply Rmult_le_pos; lra). assert (0 <= al * b x j) by (apply Rmult_le_pos; lra). lra. }
  intros c Hc. destruct (po_ab (p_opt p)) eqn:AB.
  - assert (X : of_a c \/ exists a, of_a a /\ c = twin a /\ member (p_ens p) a).
    { unfold of_a. destruct c; auto; right; [exists Ca|exists CA]; simpl; auto. }
    destruct X as [X|(a & Xa & -> & Ma)]; [apply A; split; auto|].
    destruct (run_twins _ _ _ _ _ _ _ _ _ H AB a Ma Xa) as (fa & fb & T1 & T2 & ((m & m' & T3 & T4 & T5) & _)).
    destruct (A a) as (f & m1 & B1 & B2 & B3); [split; auto|]. rewrite T1 in B1. injection B1 as <-. rewrite T3 in B2. injection B2 as <-.
    exists fb, m'. split; auto. split; auto. intros x j Hx. destruct (pos_surj g x Hx) as (ia & ir & Hp & ->). rewrite T5 by auto. apply B3. apply pos_lt. apply mirror_point. auto.
  - apply A. split; auto. congruence.
Qed.

(** * Mirror symmetry of components built with the option sym *)
Theorem run_component_symmetric : forall g w sched d p o n l s, passes g w sched d p o n l s -> forall c f0, computed p c -> p_f p c = Some f0 -> o_sym (k_opt (f_ks f0)) = true ->
  (ps_cont o = true -> forall m, k_n (f_ks f0) = Some m -> forall cols, symmetric g cols m) ->
  exists f m, p_f (q_p s) c = Some f /\ k_n (f_ks f) = Some m /\ forall cols, symmetric g cols m.
Proof.
  intros g w sched d p o n l s H c f0 Hc F0 SY HC. apply (run_density _ _ _ _ _ _ _ _ _ H c f0 (fun m => forall cols, symmetric g cols m)); auto.
  - intros k1 k2 it dif sc m (FO & _) D cols. apply density_inv in D. destruct D as (sol & n0 & _ & _ & _ & _ & ->). rewrite FO, SY. apply sym_avgR_sym.
  - intros al a b _ Ha Hb cols x j Hx Hj. specialize (Ha cols x j Hx Hj). specialize (Hb cols x j Hx Hj). destruct (pos_surj g x Hx) as (ia & ir & Hp & ->). rewrite !mirror1_pos in * by auto. rewrite Ha, Hb. reflexivity.
Qed.

(** * The whole system, for constructed objects *)
Lemma source_member : forall p c, member (p_ens p) c -> member (p_ens p) (source p c).
Proof. intros p c H. unfold source. destruct (po_ab (p_opt p)); auto. destruct c; auto. Qed.
Lemma asked_electrons : forall g Za Zb pol spec nua nub opt p, constructed g Za Zb pol spec nua nub opt p -> forall c, member (p_ens p) c ->
  exists f, p_f p c = Some f /\ k_n (f_ks f) = None /\ k_cols (f_ks f) = fs_cols (spec c) /\ forall j, (j < fs_cols (spec c))%nat -> electrons (f_ks f) j = asked spec c j.
Proof.
  intros g Za Zb pol spec nua nub opt p H c Hc. destruct (constructed_inv _ _ _ _ _ _ _ _ _ H) as (p0 & i & H0 & ->). destruct (init_inv _ _ _ _ _ _ _ _ _ H0) as (d & _ & _ & _ & _ & _ & _ & _ & _ & _ & _ & _ & _ & _ & B).
  cbn [set_inv p_ens p_f] in *. destruct (B c Hc) as (f & B1 & B2). destruct (frag_init_inv _ _ _ _ _ _ _ B1) as (k & -> & _ & _ & _ & K1 & K2 & K3 & _ & _ & _ & _ & _ & _ & _ & _ & _ & _ & _ & K4).
  eexists. split; [exact B2|]. cbn [fscale new_frag f_ks]. split; auto. split; auto. intros j Hj. unfold electrons, asked. rewrite K1. apply sumR_ext. intros x Hx. apply K4. split; [rewrite K1|rewrite K2]; auto.
Qed.
Lemma lsum_ext : forall l h k, (forall c, In c l -> h c = k c) -> lsum l h = lsum l k.
Proof. induction l as [|a l IH]; intros h k H; simpl; auto. rewrite (H a), (IH h k); simpl; auto. intros c Hc. apply H. simpl. auto. Qed.
Lemma group_integral : forall g ess pol F n l j, integrate1 g (fun x => group ess pol F n l x j) =
  lsum l (fun c => f_scale (F c) * (integrate1 g (fun x => n c x j) + (if ess then integrate1 g (fun x => n c x (pol - 1 - j)%nat) else 0))).
Proof.
  intros g ess pol F n l j. unfold group. induction l as [|a l IH]; cbn [lsum].
  - apply integrate1_zero.
  - rewrite integrate1_plus, IH, integrate1_scal. f_equal. f_equal. destruct ess; [rewrite integrate1_plus; reflexivity|]. rewrite Rplus_0_r. apply integrate1_ext. intros. ring.
Qed.
Lemma whole_group : forall p F n na nb nf, protomolecule p F n na nb nf -> forall x j,
  nf x j = group (po_ess (p_opt p)) (p_pol p) F n (if p_ens p then [Ca; CA; Cb; CB] else [Ca; Cb]) x j.
Proof. intros p F n na nb nf (_ & _ & _ & A & B & C) x j. rewrite C, A, B. unfold group. destruct (p_ens p); cbn [lsum]; ring. Qed.
Lemma listed_member : forall (e : bool) (c : comp), In c (if e then [Ca; CA; Cb; CB] else [Ca; Cb]) -> member e c.
Proof. intros [] c H; simpl in H; intuition; subst; simpl; auto. Qed.

Theorem new_run_count : forall g Za Zb pol spec nua nub opt p w sched d o n l s, constructed g Za Zb pol spec nua nub opt p -> passes g w sched d p o n l s -> ps_target o = false ->
  worker_ok g (pe_env w) -> occupied p -> mirror_safe g p ->
  (forall c, member (p_ens p) c -> (pol <= fs_cols (spec (source p c)))%nat) ->
  exists nf, p_nf (q_p s) = Some nf /\ forall j, (j < pol)%nat ->
    integrate1 g (fun x => nf x j) = lsum (if p_ens p then [Ca; CA; Cb; CB] else [Ca; Cb]) (fun c => weight (p_ens p) (po_ess (p_opt p)) nua nub c *
      (asked spec (source p c) j + (if po_ess (p_opt p) then asked spec (source p c) (pol - 1 - j) else 0))).
Proof.
  intros g Za Zb pol spec nua nub opt p w sched d o n l s H PS TA HW HO HM HC.
  destruct (run_settled _ _ _ _ _ _ _ _ _ PS TA) as (F & m & na & nb & nf & q & ((D1 & D2) & PM & _) & _). pose proof (run_static _ _ _ _ _ _ _ _ _ PS) as (R1 & R2 & _ & _ & _ & _ & R7 & _ & _ & _ & R).
  exists nf. split; [apply PM|]. intros j Hj. destruct (constructed_static _ _ _ _ _ _ _ _ _ H) as (PP & _). destruct (constructed_new _ _ _ _ _ _ _ _ _ H) as (F0 & N1 & _ & N3 & _).
  rewrite (integrate1_ext g _ _ (fun x (_ : (x < Nelem g)%nat) => whole_group _ _ _ _ _ _ PM x j)), group_integral, R1, R2, R7, PP. apply lsum_ext. intros c Hc. apply listed_member in Hc.
  unfold frags in D1. rewrite R7 in D1, D2. destruct (R c Hc) as (f & f' & X1 & X2 & _ & X4 & _). rewrite (D1 c Hc) in X2. injection X2 as <-. rewrite (N1 c Hc) in X1. injection X1 as <-. rewrite X4. destruct (N3 c Hc) as (_ & _ & _ & _ & ->). f_equal.
  destruct (asked_electrons _ _ _ _ _ _ _ _ _ H (source p c) (source_member p c Hc)) as (fs & Y1 & Y2 & Y3 & Y4).
  destruct (run_electrons _ _ _ _ _ _ _ _ _ PS HW HO HM) with (c := c) (f0 := fs) as (f & m' & Z1 & Z2 & Z3); auto.
  { intros _ c' f m' j' Hc' F' N'. exfalso. rewrite (N1 c' (proj1 Hc')) in F'. injection F' as <-. destruct (N3 c' (proj1 Hc')) as (_ & Z & _). congruence. }
  rewrite (D1 c Hc) in Z1. injection Z1 as <-. rewrite (D2 c Hc) in Z2. injection Z2 as <-. pose proof (HC c Hc).
  rewrite (Z3 j), (Y4 j) by lia. destruct (po_ess (p_opt p)); auto. rewrite (Z3 (pol - 1 - j)%nat), (Y4 (pol - 1 - j)%nat) by lia. reflexivity.
Qed.
(** all spins together, each fragment holding the weighted mean of its members *)
Theorem new_run_nonneg : forall g Za Zb pol spec nua nub opt p w sched d o n l s, constructed g Za Zb pol spec nua nub opt p -> passes g w sched d p o n l s -> ps_target o = false ->
  worker_ok g (pe_env w) -> occupied p -> Forall (fun a => 0 <= a <= 1) (ps_alpha o) -> 0 <= nua <= 1 -> 0 <= nub <= 1 ->
  exists F m na nb nf q, settled g (q_p s) F m na nb nf q /\ forall x j, (x < Nelem g)%nat -> 0 <= na x j /\ 0 <= nb x j /\ 0 <= nf x j /\
    forall c, member (p_ens p) c -> 0 <= m c x j /\ 0 <= q c x j <= 1.
Proof.
  intros g Za Zb pol spec nua nub opt p w sched d o n l s H PS TA HW HO HA HNa HNb.
  destruct (run_settled _ _ _ _ _ _ _ _ _ PS TA) as (F & m & na & nb & nf & q & ST & _). exists F, m, na, nb, nf, q. split; auto.
  destruct ST as ((D1 & D2) & PM & QQ & _). pose proof (run_static _ _ _ _ _ _ _ _ _ PS) as (R1 & R2 & _ & _ & _ & _ & R7 & _ & _ & _ & R).
  destruct (constructed_static _ _ _ _ _ _ _ _ _ H) as (PP & _). destruct (constructed_new _ _ _ _ _ _ _ _ _ H) as (F0 & N1 & _ & N3 & _).
  unfold frags in D1. rewrite R7 in D1, D2, QQ.
  assert (SC : forall c, member (p_ens p) c -> 0 <= f_scale (F c)).
  { intros c Hc. destruct (R c Hc) as (f & f' & X1 & X2 & _ & X4 & _). rewrite (D1 c Hc) in X2. injection X2 as <-. rewrite (N1 c Hc) in X1. injection X1 as <-. rewrite X4. destruct (N3 c Hc) as (_ & _ & _ & _ & ->).
    unfold weight. destruct (p_ens p), (po_ess (p_opt p)), c; lra. }
  assert (NN : forall c x j, member (p_ens p) c -> (x < Nelem g)%nat -> 0 <= m c x j).
  { intros c x j Hc Hx. destruct (run_nonneg _ _ _ _ _ _ _ _ _ PS HW HO HA) with (c := c) as (f & m' & Z1 & Z2 & Z3); auto.
    { intros _ c' f m' x' j' Hc' F' N'. exfalso. rewrite (N1 c' (proj1 Hc')) in F'. injection F' as <-. destruct (N3 c' (proj1 Hc')) as (_ & Z & _). congruence. }
    rewrite (D1 c Hc) in Z1. injection Z1 as <-. rewrite (D2 c Hc) in Z2. injection Z2 as <-. auto. }
  assert (GG : forall li x j, (forall c, In c li -> member (p_ens p) c) -> (x < Nelem g)%nat -> 0 <= group (po_ess (p_opt p)) pol F m li x j).
  { intros li x j. unfold group. induction li as [|a li IH]; intros HL Hx; cbn [lsum]; [lra|].
    assert (0 <= f_scale (F a) * (m a x j + (if po_ess (p_opt p) then m a x (pol - 1 - j)%nat else 0))).
    { apply Rmult_le_pos; [apply SC, HL; simpl; auto|]. pose proof (NN a x j (HL a (or_introl eq_refl)) Hx). pose proof (NN a x (pol - 1 - j)%nat (HL a (or_introl eq_refl)) Hx). destruct (po_ess (p_opt p)); lra. }
    pose proof (IH (fun c Hc => HL c (or_intror Hc)) Hx). lra. }
  intros x j Hx. pose proof (whole_group _ _ _ _ _ _ PM x j) as WG. destruct PM as (_ & _ & _ & A & B & C). rewrite R1, R2, R7, PP in *.
  assert (0 <= na x j). { rewrite A. apply GG; auto. intros c Hc. apply listed_member. destruct (p_ens p); simpl in *; tauto. }
  assert (0 <= nb x j). { rewrite B. apply GG; auto. intros c Hc. apply listed_member. destruct (p_ens p); simpl in *; tauto. }
  split; auto. split; auto. rewrite C. split; [lra|]. intros c Hc. split; [auto|]. destruct (QQ c Hc) as (_ & Q). destruct (Q x j) as (Q1 & Q2).
  destruct (Req_dec (nf x j) 0) as [Z|Z]; [rewrite (Q2 Z); lra|]. assert (P : 0 < nf x j) by (rewrite C in *; lra). rewrite (Q1 Z).
  assert (S0 : 0 <= f_scale (F c) * m c x j) by (apply Rmult_le_pos; auto). split; [apply Rmult_le_pos; [auto|left; apply Rinv_0_lt_compat; auto]|].
  apply (Rmult_le_reg_r (nf x j)); auto. unfold Rdiv. rewrite Rmult_assoc, Rinv_l, Rmult_1_r, Rmult_1_l by auto. rewrite WG. unfold group.
  assert (TT : forall c', member (p_ens p) c' -> 0 <= f_scale (F c') * m c' x j <= f_scale (F c') * (m c' x j + (if po_ess (p_opt p) then m c' x (pol - 1 - j)%nat else 0))).
  { intros c' Hc'. split; [apply Rmult_le_pos; auto|]. apply Rmult_le_compat_l; auto. pose proof (NN c' x (pol - 1 - j)%nat Hc' Hx). destruct (po_ess (p_opt p)); lra. }
  pose proof (TT Ca Logic.I). pose proof (TT Cb Logic.I). destruct (p_ens p); cbn [lsum].
  - pose proof (TT CA eq_refl). pose proof (TT CB eq_refl). destruct c; lra.
  - destruct c; try lra; discriminate.
Qed.
