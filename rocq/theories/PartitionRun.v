(** Partition: energies, densities and electron numbers along a run of Partition.scf. *)
From Coq Require Import Reals List Arith Lia Lra ZArith Bool String.
From Verif Require Import Base BaseLemmas GridModel GridSpec GridProofs HartreeModel SolverModel SolverSpec LibxcModel OptionsModel KSModel KSSpec KSProofs KSThms KSLoop KSEnergy KSTotal
  InverterModel PartitionModel PartitionSpec PartitionBase PartitionDens PartitionFrame PartitionEnergy PartitionEp PartitionTotal PartitionLoop PartitionStep PartitionPass PartitionKeep PartitionScf.
Import ListNotations.
Local Open Scope R_scope.

Lemma next_p : forall o s p r fl, q_p (psc_next o s p r fl) = p. Proof. intros o s p [[? ?] ?] fl. reflexivity. Qed.
(** * AB symmetry *)
Lemma proto_twins : forall g o p p', psc_proto g o p = Ok p' -> po_ab (p_opt p) = true -> forall c, member (p_ens p) c -> of_a c ->
  exists a b, p_f p' c = Some a /\ p_f p' (twin c) = Some b /\ twins g a b.
Proof.
  intros g o p p' H A c Hc Ha. unfold psc_proto in H. rewrite A in H. destruct (mirrorAB g p) as [p1|] eqn:E1; [|discriminate]. cbn [bind] in H.
  match type of H with bind ?m _ = _ => destruct m as [p2|] eqn:E2; [|discriminate] end. cbn [bind] in H.
  assert (F2 : p_f p2 = p_f p1) by (destruct (ps_target o); [injection E2 as <-; auto|apply (proto_same_f _ _ E2)]).
  apply mirrorAB_inv in E1. destruct E1 as (_ & M & _). destruct (M c Hc Ha) as (M0 & a & b & b' & M1 & M2 & M3 & M4). apply mirror_frag_spec in M3.
  apply Q_stat in H. destruct H as (S & Q). destruct S as (_ & _ & _ & _ & _ & _ & _ & _ & _ & _ & S).
  assert (X : forall d f, p_f p2 d = Some f -> exists q, p_f p' d = Some (fQ f q)).
  { intros d f E. specialize (S d). rewrite E in S. destruct (p_f p' d) as [f'|] eqn:F; [|contradiction]. destruct (Q d f' F) as (f0 & q & Q1 & Q2). exists q. congruence. }
  rewrite <- F2 in M0, M4. destruct (X c a) as (qa & Xa); [congruence|]. destruct (X (twin c) b') as (qb & Xb); [congruence|]. exists (fQ a qa), (fQ b' qb). split; auto. split; auto.
  destruct M3 as (A1 & A2 & A3 & _ & _ & A6 & A7 & _ & A9 & A10 & A11 & A12 & A13 & A14 & _). unfold twins. cbn [fQ f_ks]. auto 15.
Qed.
Theorem run_twins : forall g w sched d p o n l s, passes g w sched d p o n l s -> po_ab (p_opt p) = true -> forall c, member (p_ens p) c -> of_a c ->
  exists a b, p_f (q_p s) c = Some a /\ p_f (q_p s) (twin c) = Some b /\ twins g a b.
Proof.
  intros g w sched d p o n l s H A c Hc Ha. pose proof H as H0. destruct H as [p0 nf O S N|n l s s' HP Te B].
  - unfold psc_start in S. destruct (psc_setup o p) as [p1|] eqn:E1; [|discriminate]. cbn [bind] in S. destruct (forL _ _ p1) as [p2|] eqn:E2; [|discriminate]. cbn [bind] in S. cbn [q_p].
    apply setup_inv in E1. destruct E1 as (A1 & _). assert (CE : comps_ab p1 = comps_ab p) by (rewrite A1; reflexivity). rewrite <- CE in E2. apply guess_stat in E2.
    assert (O2 : p_opt p2 = p_opt p) by (rewrite (proj1 E2), A1; reflexivity). assert (N2 : p_ens p2 = p_ens p) by (transitivity (p_ens p1); [apply E2|rewrite A1; reflexivity]).
    apply (proto_twins _ _ _ _ S); [rewrite O2|rewrite N2|]; auto.
  - destruct (run_static _ _ _ _ _ _ _ _ _ HP) as (R1 & _ & _ & _ & _ & _ & R2 & _). apply body_inv in B. destruct B as (p' & r & fl & W & _ & ->). rewrite next_p.
    apply work_inv in W. destruct W as (p1 & p2 & p3 & pv & p4 & p5 & W1 & W2 & W3 & W4 & W5 & W6 & W7 & _).
    pose proof (psame_pstat _ _ (avoid_stat _ _ _ W1)) as S1. pose proof (hxc_stat _ _ _ _ W2) as S2. destruct (mid_mirror _ _ _ W3) as (S3 & _). pose proof (psame_pstat _ _ (psc_vp_same _ _ _ _ W4)) as S4.
    pose proof (step_stat _ _ _ _ _ _ _ _ _ (comps_ab_nodup _) W5) as S5. assert (S : pstat (q_p s) p4) by eauto 10 using pstat_trans.
    destruct (proto_twins _ _ _ _ W6) with (c := c) as (a & b & X1 & X2 & X3); [rewrite (proj1 S), R1; auto| |auto|].
    { destruct S as (_ & _ & _ & _ & _ & _ & -> & _). rewrite R2. auto. }
    pose proof (energy_same _ _ _ _ W7) as E. destruct (psame_f' _ _ _ _ E X1) as (a' & Y1 & (Z1 & _)). destruct (psame_f' _ _ _ _ E X2) as (b' & Y2 & (Z2 & _)).
    exists a', b'. split; auto. split; auto. unfold twins in *. rewrite Z1, Z2. exact X3.
Qed.

(** * Electron numbers and signs *)
Section Electrons.
  Variables (g : grid) (w : penv) (sched : Z -> comp -> list (nat * nat)) (d : dict) (p : part) (o : psopt) (F : comp -> frag).
  Hypothesis HW : worker_ok g (pe_env w).
  Hypothesis HF : frags p F.
  Hypothesis HP : forall c, member (p_ens p) c -> forall i j, place (f_ks (F c)) i j -> placed (k_sol (f_ks (F c)) i j).
  (** density of a computed component: initial guess or continued density, then mixing *)
  Lemma run_dens : forall n l s, passes g w sched d p o n l s -> forall c, computed p c -> exists f m, p_f (q_p s) c = Some f /\ frame (f_ks (F c)) (f_ks f) /\ k_n (f_ks f) = Some m /\
    match n with
    | O => if ps_cont o then k_n (f_ks (F c)) = Some m else exists it dif l k1 k2, frame (f_ks (F c)) k1 /\ ks_density g (pe_env w) it dif l k1 = Ok (k2, m)
    | S n' => exists l0 s0 f0 m0, passes g w sched d p o n' l0 s0 /\ p_f (q_p s0) c = Some f0 /\ k_n (f_ks f0) = Some m0 /\ exists it dif l k1 k2 nout al, frame (f_ks (F c)) k1 /\ ks_density g (pe_env w) it dif l k1 = Ok (k2, nout) /\
        step_size (ps_alpha o) c = Some al /\ m = (fun x j => (1 - al) * m0 x j + al * nout x j)
    end.
  Proof.
    intros n l s H c Hc. destruct (run_static _ _ _ _ _ _ _ _ _ H) as (_ & _ & _ & _ & _ & _ & _ & _ & _ & _ & R). destruct (R c (proj1 Hc)) as (f & f' & R1 & R2 & R3 & _ & _ & _). rewrite (HF c (proj1 Hc)) in R1. injection R1 as <-.
    destruct n as [|n].
    - apply passes_0 in H. destruct H as (p0 & nf & _ & A2 & _ & _ & ->). cbn [q_p] in *. destruct (start_frag _ _ _ _ _ _ A2 c Hc) as (f0 & f1 & fg & fz & X1 & X2 & X3 & X4 & X5). rewrite R2 in X4. injection X4 as <-. rewrite (HF c (proj1 Hc)) in X1. injection X1 as <-.
      apply guess_frag_inv in X3. destruct X3 as (_ & m & Y1 & Y2). exists f', m. split; auto. split; auto. split; [congruence|]. destruct (ps_cont o).
      + subst fg. congruence.
      + destruct Y2 as (k1 & k2 & Y2 & Y3 & _). exists (ps_iter o), (Fin 0), (sched 0%Z c), k1, k2. split; [rewrite <- X2; auto|auto].
    - apply passes_S in H. destruct H as (l0 & s0 & A1 & _ & A3 & _). destruct (run_static _ _ _ _ _ _ _ _ _ A1) as (Q1 & _ & _ & _ & _ & _ & Q2 & _ & _ & _ & Q). destruct (Q c (proj1 Hc)) as (f0 & f1 & Q3 & Q4 & Q5 & _ & Q7 & _). rewrite (HF c (proj1 Hc)) in Q3. injection Q3 as <-.
      destruct (pass_vext _ _ _ _ _ _ A3) as (vp & _ & _ & V). destruct (V c) as (a & b & m & nout & k1 & k2 & ve & vh & V1 & V2 & V3 & V4 & V5 & _ & _ & _ & V8 & _); [unfold computed; rewrite Q1, Q2; exact Hc|].
      rewrite Q4 in V1. injection V1 as <-. rewrite R2 in V2. injection V2 as <-. eexists f', _. split; auto. split; auto. split; [exact V8|].
      exists l0, s0, f1, m. split; auto. split; auto. split; auto. exists (ps_iter o), (q_dif s0), (sched (q_iter s0) c), k1, k2, nout, (f_alpha f1). split; [eapply frame_trans; eauto|]. auto.
  Qed.
  Lemma run_count : (forall c, computed p c -> o_sym (k_opt (f_ks (F c))) = true -> mirror_invariant g) ->
    (ps_cont o = true -> forall c m j, computed p c -> k_n (f_ks (F c)) = Some m -> (j < k_cols (f_ks (F c)))%nat -> integrate1 g (fun x => m x j) = electrons (f_ks (F c)) j) ->
    forall n l s, passes g w sched d p o n l s -> forall c, computed p c -> exists f m, p_f (q_p s) c = Some f /\ k_n (f_ks f) = Some m /\
      forall j, (j < k_cols (f_ks (F c)))%nat -> integrate1 g (fun x => m x j) = electrons (f_ks (F c)) j.
  Proof.
    intros HM HC n. induction n as [|n IH]; intros l s H c Hc; destruct (run_dens _ _ _ H c Hc) as (f & m & A1 & A2 & A3 & A4); exists f, m; (split; [exact A1|split; [exact A3|]]); intros j Hj.
    - destruct (ps_cont o); [auto|]. destruct A4 as (it & dif & l0 & k1 & k2 & A4 & A5). eapply out_count; eauto. apply HP. apply Hc.
    - destruct A4 as (l0 & s0 & f0 & m0 & B1 & B2 & B3 & it & dif & l1 & k1 & k2 & nout & al & B4 & B5 & _ & ->). destruct (IH _ _ B1 c Hc) as (f1 & m1 & C1 & C2 & C3). rewrite B2 in C1. injection C1 as <-. rewrite B3 in C2. injection C2 as <-.
      cbv beta. rewrite integrate1_lin, integrate1_scal, C3 by auto.
      assert (X : integrate1 g (fun x => nout x j) = electrons (f_ks (F c)) j) by (eapply out_count; eauto; apply HP; apply Hc). rewrite X. ring.
  Qed.
  Lemma run_nonneg : (forall c al, computed p c -> step_size (ps_alpha o) c = Some al -> 0 <= al <= 1) ->
    (ps_cont o = true -> forall c m x j, computed p c -> k_n (f_ks (F c)) = Some m -> (x < Nelem g)%nat -> 0 <= m x j) ->
    forall n l s, passes g w sched d p o n l s -> forall c, computed p c -> exists f m, p_f (q_p s) c = Some f /\ k_n (f_ks f) = Some m /\ forall x j, (x < Nelem g)%nat -> 0 <= m x j.
  Proof.
    intros HA HC n. induction n as [|n IH]; intros l s H c Hc; destruct (run_dens _ _ _ H c Hc) as (f & m & A1 & A2 & A3 & A4); exists f, m; (split; [exact A1|split; [exact A3|]]); intros x j Hx.
    - destruct (ps_cont o); [eauto|]. destruct A4 as (it & dif & l0 & k1 & k2 & A4 & A5). apply (density_nonneg_all g (pe_env w) _ _ _ k1 k2 m HW (placed_frame _ _ A4 (HP c (proj1 Hc))) A5); auto.
    - destruct A4 as (l0 & s0 & f0 & m0 & B1 & B2 & B3 & it & dif & l1 & k1 & k2 & nout & al & B4 & B5 & B6 & ->). destruct (IH _ _ B1 c Hc) as (f1 & m1 & C1 & C2 & C3). rewrite B2 in C1. injection C1 as <-. rewrite B3 in C2. injection C2 as <-.
      assert (0 <= nout x j) by (apply (density_nonneg_all g (pe_env w) _ _ _ k1 k2 nout HW (placed_frame _ _ B4 (HP c (proj1 Hc))) B5); auto).
      pose proof (HA c al Hc B6). pose proof (C3 x j Hx). cbv beta. assert (0 <= (1 - al) * m0 x j) by (apply Rmult_le_pos; lra). assert (0 <= al * nout x j) by (apply Rmult_le_pos; lra). lra.
  Qed.
  Lemma mirrored_integral : forall a b j, mirror_invariant g -> mirrored g a b -> integrate1 g (fun x => b x j) = integrate1 g (fun x => a x j).
  Proof.
    intros a b j HM H. rewrite <- (HM (fun x => a x j)). apply integrate1_ext. intros k Hk. destruct (pos_surj g k Hk) as (ia & ir & Hp & ->). rewrite mirror1_pos by auto. apply H. auto.
  Qed.
  Lemma source_computed : forall c, member (p_ens p) c -> computed p (source p c) /\ (source p c = c \/ po_ab (p_opt p) = true /\ c = twin (source p c) /\ of_a (source p c)).
  Proof.
    intros c Hc. unfold source, computed, of_a. destruct (po_ab (p_opt p)) eqn:A; [|split; [split; [auto|discriminate]|auto]].
    destruct c; simpl in *; auto 10.
  Qed.
  (** every component, fragment B included *)
  Theorem electrons_kept : (forall c, computed p c -> o_sym (k_opt (f_ks (F c))) = true -> mirror_invariant g) -> (po_ab (p_opt p) = true -> mirror_invariant g) ->
    (ps_cont o = true -> forall c m j, computed p c -> k_n (f_ks (F c)) = Some m -> (j < k_cols (f_ks (F c)))%nat -> integrate1 g (fun x => m x j) = electrons (f_ks (F c)) j) ->
    forall n l s, passes g w sched d p o n l s -> forall c, member (p_ens p) c -> exists f m, p_f (q_p s) c = Some f /\ k_n (f_ks f) = Some m /\
      forall j, (j < k_cols (f_ks (F (source p c))))%nat -> integrate1 g (fun x => m x j) = electrons (f_ks (F (source p c))) j.
  Proof.
    intros HM HA HC n l s H c Hc. destruct (source_computed c Hc) as (S1 & S2). destruct (run_count HM HC _ _ _ H _ S1) as (f & m & A1 & A2 & A3). destruct S2 as [S2|(AB & S2 & S3)]; [rewrite S2 in *; eauto|].
    destruct (run_twins _ _ _ _ _ _ _ _ _ H AB _ (proj1 S1) S3) as (a & b & B1 & B2 & ((x & y & X1 & X2 & X3) & _)). rewrite <- S2 in B2. rewrite A1 in B1. injection B1 as <-. rewrite A2 in X1. injection X1 as <-.
    exists b, y. split; auto. split; auto. intros j Hj. rewrite (mirrored_integral m y) by auto. auto.
  Qed.
  (** the protomolecular density *)
  Theorem protomolecule_electrons : (forall c, computed p c -> o_sym (k_opt (f_ks (F c))) = true -> mirror_invariant g) -> (po_ab (p_opt p) = true -> mirror_invariant g) ->
    (ps_cont o = true -> forall c m j, computed p c -> k_n (f_ks (F c)) = Some m -> (j < k_cols (f_ks (F c)))%nat -> integrate1 g (fun x => m x j) = electrons (f_ks (F c)) j) ->
    ps_target o = false -> (forall c, member (p_ens p) c -> k_cols (f_ks (F c)) = p_pol p) ->
    forall n l s nf j, passes g w sched d p o n l s -> p_nf (q_p s) = Some nf -> (j < p_pol p)%nat ->
      integrate1 g (fun x => nf x j) = lsum (if p_ens p then [Ca; CA; Cb; CB] else [Ca; Cb]) (fun c => f_scale (F c) *
        (electrons (f_ks (F (source p c))) j + (if po_ess (p_opt p) then electrons (f_ks (F (source p c))) (p_pol p - 1 - j)%nat else 0))).
  Proof.
    intros HM HA HC T HL n l s nf j H N Hj. destruct (run_settled _ _ _ _ _ _ _ _ _ H T) as (F' & m & na & nb & nf' & q & ((D1 & D2) & (P1 & P2 & P3 & P4 & P5 & P6) & _) & _). rewrite N in P3. injection P3 as <-.
    destruct (run_static _ _ _ _ _ _ _ _ _ H) as (R1 & R2 & _ & _ & _ & _ & R7 & _ & _ & _ & R). unfold frags in D1. rewrite R7 in *. rewrite R1, R2 in *.
    assert (V : forall k, nf k j = group (po_ess (p_opt p)) (p_pol p) F' m (comps (p_ens p)) k j).
    { intros k. rewrite P6, P4, P5. unfold group. symmetry. apply (comps_split (p_ens p)). }
    rewrite (integrate1_ext g _ _ (fun k _ => V k)). unfold group. rewrite lsum_integrate. change (if p_ens p then [Ca; CA; Cb; CB] else [Ca; Cb]) with (comps (p_ens p)). apply lsum_ext. intros c Hc. apply in_comps in Hc.
    rewrite integrate1_scal. destruct (R c Hc) as (f0 & f1 & E1 & E2 & _ & E4 & _). rewrite (HF c Hc) in E1. injection E1 as <-. rewrite (D1 c Hc) in E2. injection E2 as <-. rewrite E4. f_equal.
    destruct (electrons_kept HM HA HC _ _ _ H c Hc) as (f2 & m2 & G1 & G2 & G3). rewrite (D1 c Hc) in G1. injection G1 as <-. rewrite (D2 c Hc) in G2. injection G2 as <-.
    assert (CL : k_cols (f_ks (F (source p c))) = p_pol p) by (apply HL; apply (proj1 (source_computed c Hc))). rewrite CL in G3. destruct (po_ess (p_opt p)).
    - rewrite integrate1_plus, !G3 by lia. reflexivity.
    - rewrite Rplus_0_r, <- G3 by lia. apply integrate1_ext. intros. lra.
  Qed.
  Theorem densities_nonneg : (forall c al, computed p c -> step_size (ps_alpha o) c = Some al -> 0 <= al <= 1) ->
    (ps_cont o = true -> forall c m x j, computed p c -> k_n (f_ks (F c)) = Some m -> (x < Nelem g)%nat -> 0 <= m x j) ->
    forall n l s, passes g w sched d p o n l s -> forall c, member (p_ens p) c -> exists f m, p_f (q_p s) c = Some f /\ k_n (f_ks f) = Some m /\ forall x j, (x < Nelem g)%nat -> 0 <= m x j.
  Proof.
    intros HA HC n l s H c Hc. destruct (source_computed c Hc) as (S1 & S2). destruct (run_nonneg HA HC _ _ _ H _ S1) as (f & m & A1 & A2 & A3). destruct S2 as [S2|(AB & S2 & S3)]; [rewrite S2 in *; eauto|].
    destruct (run_twins _ _ _ _ _ _ _ _ _ H AB _ (proj1 S1) S3) as (a & b & B1 & B2 & ((x & y & X1 & X2 & X3) & _)). rewrite <- S2 in B2. rewrite A1 in B1. injection B1 as <-. rewrite A2 in X1. injection X1 as <-.
    exists b, y. split; auto. split; auto. intros k j Hk. destruct (pos_surj g k Hk) as (ia & ir & Hp & ->). rewrite (X3 ia ir j Hp). apply A3. apply pos_lt. apply mirror_point. auto.
  Qed.
End Electrons.
(** with ab_sym and equal weights the protomolecular density is mirror symmetric *)
Theorem run_symmetric : forall g w sched d p o n l s nf, passes g w sched d p o n l s -> ps_target o = false -> po_ab (p_opt p) = true ->
  (forall c fa fb, member (p_ens p) c -> of_a c -> p_f p c = Some fa -> p_f p (twin c) = Some fb -> f_scale fb = f_scale fa) ->
  p_nf (q_p s) = Some nf -> mirrored g nf nf.
Proof.
  intros g w sched d p o n l s nf H T A HS N ia ir j Hp. destruct (run_settled _ _ _ _ _ _ _ _ _ H T) as (F & m & na & nb & nf' & q & ((D1 & D2) & (P1 & P2 & P3 & P4 & P5 & P6) & _ & M) & _). rewrite N in P3. injection P3 as <-.
  destruct (run_static _ _ _ _ _ _ _ _ _ H) as (R1 & R2 & _ & _ & _ & _ & R7 & _ & _ & _ & R). unfold frags in D1. rewrite R7 in *. rewrite R1, R2 in *.
  assert (S : forall c, member (p_ens p) c -> of_a c -> f_scale (F (twin c)) = f_scale (F c)).
  { intros c Hc Ha. assert (Ht : member (p_ens p) (twin c)) by (destruct Ha as [-> | ->]; simpl; auto). destruct (R c Hc) as (fa & fa' & X1 & X2 & _ & X4 & _). destruct (R _ Ht) as (fb & fb' & Y1 & Y2 & _ & Y4 & _).
    rewrite (D1 c Hc) in X2. injection X2 as <-. rewrite (D1 _ Ht) in Y2. injection Y2 as <-. rewrite X4, Y4. eauto. }
  specialize (M A). pose proof (mirror_point g ia ir Hp) as Hp'. assert (B : (Na g - 1 - (Na g - 1 - ia) = ia)%nat) by (destruct Hp; lia).
  assert (K : forall c, member (p_ens p) c -> of_a c -> forall s, m (twin c) (pos g ia ir) s = m c (pos g (Na g - 1 - ia) ir) s /\ m (twin c) (pos g (Na g - 1 - ia) ir) s = m c (pos g ia ir) s).
  { intros c Hc Ha t. pose proof (M c Hc Ha) as X. rewrite (X ia ir t Hp), (X (Na g - 1 - ia)%nat ir t Hp'), B. auto. }
  rewrite !P6, !P4, !P5. unfold group. destruct (p_ens p) eqn:En; simpl.
  - pose proof (S Ca Logic.I (or_introl eq_refl)) as S1. pose proof (S CA eq_refl (or_intror eq_refl)) as S2. simpl in S1, S2. rewrite S1, S2.
    pose proof (K Ca Logic.I (or_introl eq_refl)) as K1. pose proof (K CA eq_refl (or_intror eq_refl)) as K2. simpl in K1, K2.
    destruct (K1 j) as (-> & ->), (K2 j) as (-> & ->), (K1 (p_pol p - 1 - j)%nat) as (-> & ->), (K2 (p_pol p - 1 - j)%nat) as (-> & ->). ring.
  - pose proof (S Ca Logic.I (or_introl eq_refl)) as S1. simpl in S1. rewrite S1. pose proof (K Ca Logic.I (or_introl eq_refl)) as K1. simpl in K1.
    destruct (K1 j) as (-> & ->), (K1 (p_pol p - 1 - j)%nat) as (-> & ->). ring.
Qed.

(** * The failure counter (C61) *)
Definition watched (p : part) : Prop := (po_kin (p_opt p) = "inversion"%string \/ po_vp (p_opt p) = "potential_inversion"%string) /\ po_iso (p_opt p) = false.
Lemma watching_of : forall p p', p_opt p' = p_opt p -> watched p -> watching p' = true.
Proof. intros p p' E (A & B). unfold watching. rewrite E, B. destruct A as [-> | ->]; [reflexivity|]. rewrite orb_true_r. reflexivity. Qed.
Theorem counter_run : forall g w sched d p o n l s, passes g w sched d p o n l s -> watched p -> ~ two_failures l.
Proof.
  intros g w sched d p o n l s H HW. apply (counter_history _ _ _ _ _ _ _ _ _ H). intros n' l' s' H' _. apply (watching_of p); auto. destruct (run_static _ _ _ _ _ _ _ _ _ H') as (R & _). exact R.
Qed.
Theorem counter_exit : forall g w sched d p o n l s p' r, passes g w sched d p o n l s -> watched p -> psc_test o s = Ok true -> psc_work g w o (sched (q_iter s)) s = Ok (p', r) -> filled p' ->
  (two_failures (l ++ reports p') -> partition_scf g w sched d p = Err SystemExit) /\
  (~ two_failures (l ++ reports p') -> exists s', passes g w sched d p o (S n) (l ++ reports p') s' /\ q_p s' = p').
Proof.
  intros g w sched d p o n l s p' r H HW T W HF.
  assert (HC : ~ two_failures l /\ q_fail s = last_bad l).
  { apply (counter_history _ _ _ _ _ _ _ _ _ H). intros n' l' s' H' _. apply (watching_of p); auto. destruct (run_static _ _ _ _ _ _ _ _ _ H') as (R & _). exact R. }
  destruct HC as (HC1 & HC2). assert (WP : watching p' = true). { apply (watching_of p); auto. destruct (run_static _ _ _ _ _ _ _ _ _ H) as (R & _). rewrite (proj1 (pass_static _ _ _ _ _ _ _ W)). exact R. }
  assert (LB : (last_bad l <= 1)%nat) by (unfold last_bad; destruct (rev l); [lia|destruct (gtb n0 (Fin 1)); lia]).
  destruct (count_spec (reports p') (last_bad l) LB) as (A & C).
  assert (E : psc_body g w o (sched (q_iter s)) s = do fl <- count (last_bad l) (reports p'); Ok (psc_next o s p' r fl)).
  { rewrite body_work, W. cbn [bind fst snd]. rewrite WP, (fail_filled _ _ HF), HC2. reflexivity. }
  rewrite (two_tail l _ HC1). split; intros X.
  - rewrite (A X) in E. cbn [bind] in E. eapply pscf_raises; eauto.
  - rewrite (C X) in E. cbn [bind] in E. pose proof (pass_step _ _ _ _ _ _ _ _ _ _ H T E) as P. rewrite next_p in P. eexists. split; [exact P|apply next_p].
Qed.
