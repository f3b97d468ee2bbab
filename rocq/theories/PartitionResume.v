(** Partition.scf(continuing=True) after a call that has returned. *)
From Coq Require Import Reals List Arith Lia Lra ZArith Bool String FunctionalExtensionality.
From Verif Require Import Base BaseLemmas GridModel GridSpec GridProofs HartreeModel SolverModel SolverSpec SolverProofs LibxcModel OptionsModel KSModel KSSpec KSProofs KSThms KSLoop KSEnergy KSTotal
  InverterModel InverterTotal InverterThms PartitionModel PartitionSpec PartitionBase PartitionConstr PartitionDens PartitionFrame PartitionEnergy PartitionLoop PartitionStep PartitionKeep PartitionPass PartitionScf PartitionRun PartitionNew PartitionGood.
Import ListNotations.
Local Open Scope R_scope.

Lemma forL_still : forall (A B : Type) (body : A -> B -> res B) l p, (forall c, In c l -> body c p = Ok p) -> forL l body p = Ok p.
Proof. intros A B body l p. induction l as [|a l IH]; intros H; [reflexivity|]. cbn [forL]. rewrite (H a) by (left; reflexivity). cbn [bind]. apply IH. intros. apply H. right. assumption. Qed.

(** Lines 107-126 with continuing=True. *)
Lemma start_again : forall g w o sched lv p, ps_target o = false -> ps_cont o = true -> List.length (ps_alpha o) = 1%nat \/ List.length (ps_alpha o) = 2%nat -> standing g w sched lv p ->
  exists p', psc_start g w o (sched 0%Z) p = Ok p' /\ standing g w sched lv p' /\ p_inv p' = p_inv p.
Proof.
  intros g w o sched lv p TG CO AL (EQ & NF0). unfold psc_start. destruct (setup_total o p AL) as (p1 & E1); [eapply stage_all; [exact EQ|auto]|]. rewrite E1. cbn [bind]. apply setup_inv in E1. destruct E1 as (W1 & M1 & _).
  replace (comps_ab p) with (comps_ab p1) by (rewrite W1; reflexivity). assert (O1 : p_opt p1 = p_opt p) by (rewrite W1; reflexivity). assert (N1 : p_ens p1 = p_ens p) by (rewrite W1; reflexivity).
  set (P := fun c f => ready g w sched (po_int (p_opt p)) (want lv p) c (f_ks f)).
  assert (S2 : stage (fun c f => P c f /\ some (k_n (f_ks f)) /\ has_potentials (f_ks f)) (fun f => some (k_n (f_ks f))) p1).
  { intros c Hc. rewrite N1 in Hc. destruct (M1 c Hc) as (f & al & F & _ & F'). destruct (EQ c Hc) as (f0 & F0 & (Y0 & _) & Y). rewrite F in F0. injection F0 as <-. eexists. split; [exact F'|]. split; [exact Y0|]. intros T. assert (T' : computed p c) by (unfold computed in *; rewrite N1, O1 in T; exact T). destruct (Y T') as (Y1 & Y2). split; [exact Y1|]. split; [exact Y0|exact Y2]. }
  rewrite forL_still.
  2:{ intros c Hc. apply computed_in in Hc. destruct (S2 c (proj1 Hc)) as (f & F & (n & N) & _). unfold psc_guess, get_f. rewrite F. cbn [have bind]. rewrite CO, N. reflexivity. }
  cbn [bind].
  destruct (proto_stage 0 g o p1 (fun c f => P c f /\ some (k_n (f_ks f)) /\ has_potentials (f_ks f)) (fun f => some (k_n (f_ks f))) (fun f => some (k_n (f_ks f)))) as (p3 & E3 & S3 & _ & _ & NF & _ & _ & _ & KI & _).
  { exact TG. } { exact S2. } { intros c a (_ & N & V1 & _ & V3 & _) _. auto. } { intros c a (_ & N & _) _. exact N. }
  { intros c a b b' (_ & N & V1 & _ & V3 & _) _ _ M. destruct (mirror_frag_total g a b N V3 V1) as (b2 & M2 & X1 & _). rewrite M in M2. injection M2 as <-. exact X1. }
  { auto. } { auto. } { auto. }
  exists p3. split; auto. split; [split; auto|rewrite KI, W1; reflexivity]. assert (O3 : p_opt p3 = p_opt p /\ p_pol p3 = p_pol p). { apply psc_proto_stat in E3. destruct E3 as ((E3 & E4 & _) & _). rewrite E3, E4, W1. auto. }
  destruct O3 as (O3 & P3). replace (want lv p3) with (want lv p) by (unfold want, inverting; rewrite O3, P3; reflexivity). rewrite O3. eapply stage_mono; [exact S3| |auto]. intros c f (X & _ & Y) _. split; auto.
Qed.

(** Everything scf needs between two passes. *)
Definition running (x : nat) (g : grid) (w : penv) (sched : Z -> comp -> list (nat * nat)) (lv : nat) (p : part) : Prop :=
  (1 <= p_pol p)%nat /\ workable g w p /\ (po_iso (p_opt p) = false -> some (p_V p "vext"%string)) /\ standing g (pe_env w) sched lv p /\ inv_live x w p /\ (inverting p = true -> lsq_converges (pe_inv w)).
(** A new partition object for which scf can be started. *)
Definition launchable (x : nat) (g : grid) (w : penv) (sched : Z -> comp -> list (nat * nat)) (lv : nat) (p : part) : Prop :=
  (1 <= p_pol p)%nat /\ workable g w p /\ (po_iso (p_opt p) = false -> some (p_V p "vext"%string)) /\ equipped g (pe_env w) sched lv p /\ inv_live x w p /\ (inverting p = true -> lsq_converges (pe_inv w)).
Lemma begin_running : forall x g w sched lv o p p0, psc_start g (pe_env w) o (sched 0%Z) p = Ok p0 -> (1 <= p_pol p)%nat -> workable g w p -> (po_iso (p_opt p) = false -> some (p_V p "vext"%string)) -> inv_live x w p -> (inverting p = true -> lsq_converges (pe_inv w)) ->
  standing g (pe_env w) sched lv p0 -> p_inv p0 = p_inv p -> running x g w sched lv p0.
Proof.
  intros x g w sched lv o p p0 E0 HP WK VX LV CV S0 I0. destruct (start_stat _ _ _ _ _ _ E0) as (p1 & E1 & (A1 & A2 & _ & _ & _ & _ & _ & _ & _ & A10 & _)). apply setup_inv in E1. destruct E1 as (W1 & _). rewrite W1 in A1, A2, A10. cbn [with_f p_opt p_pol p_V] in A1, A2, A10.
  split; [rewrite A2; exact HP|]. split; [unfold workable, kin_available, int_available; rewrite A1, A2; exact WK|]. split; [rewrite A1, A10; exact VX|]. split; [exact S0|]. split; [unfold inv_live, inverting; rewrite A1, I0; exact LV|unfold inverting; rewrite A1; exact CV].
Qed.
Lemma body_running : forall x g w o sched lv s s', (0 < Nelem g)%nat -> ps_target o = false -> running x g w sched lv (q_p s) -> psc_body g w o (sched (q_iter s)) s = Ok s' -> running x g w sched lv (q_p s').
Proof.
  intros x g w o sched lv s s' HN TG (HP & WK & VX & ST & LV & CV) B. destruct (pass_total x g w o sched lv s HN TG HP WK VX ST LV) as (p' & r & E & W & S' & D'). apply PartitionLoop.body_inv in B. destruct B as (pa & ra & fl & WA & _ & ->). rewrite E in WA. injection WA as <- <-.
  assert (Q : q_p (psc_next o s p' r fl) = p') by (destruct r as [[? ?] ?]; reflexivity). rewrite Q. pose proof (pass_static _ _ _ _ _ _ _ E) as (A1 & A2 & _ & _ & _ & _ & _ & _ & _ & A10 & _).
  split; [rewrite A2; exact HP|]. split; [unfold workable, kin_available, int_available; rewrite A1, A2; exact WK|]. split; [rewrite A1, A10; exact VX|]. split; [exact S'|]. split; [apply done_live; exact D'|unfold inverting; rewrite A1; exact CV].
Qed.
Theorem run_running : forall x g w sched lv d p o n l s, (0 < Nelem g)%nat -> ps_target o = false -> launchable x g w sched lv p /\ ps_cont o = false \/ running x g w sched lv p /\ ps_cont o = true ->
  List.length (ps_alpha o) = 1%nat \/ List.length (ps_alpha o) = 2%nat -> passes g w sched d p o n l s -> running x g w sched lv (q_p s).
Proof.
  intros x g w sched lv d p o n l s HN TG ST AL P. induction P as [p0 nf O S N|n l s s' P IH T B]; [|eapply body_running; eauto]. cbn [q_p]. destruct ST as [((HP & WK & VX & EQ & LV & CV) & CO)|((HP & WK & VX & EQ & LV & CV) & CO)].
  - destruct (start_total x g (pe_env w) o sched lv p HN TG CO AL EQ) as (p1 & E1 & S1 & I1). rewrite S in E1. injection E1 as <-. eapply begin_running; eauto.
  - destruct (start_again g (pe_env w) o sched lv p TG CO AL EQ) as (p1 & E1 & S1 & I1). rewrite S in E1. injection E1 as <-. eapply begin_running; eauto.
Qed.
(** scf(continuing=True) returns as well. *)
Theorem scf_resumes : forall x g w sched lv d d' p o o' n l s, (0 < Nelem g)%nat -> launchable x g w sched lv p -> ps_target o = false -> ps_cont o = false -> List.length (ps_alpha o) = 1%nat \/ List.length (ps_alpha o) = 2%nat -> passes g w sched d p o n l s ->
  psc_options (q_p s) d' = Ok o' -> ps_target o' = false -> ps_cont o' = true -> ps_auto o' = false -> List.length (ps_alpha o') = 1%nat \/ List.length (ps_alpha o') = 2%nat -> exists s', partition_scf g w sched d' (q_p s) = Ok s'.
Proof.
  intros x g w sched lv d d' p o o' n l s HN LA TG CO AL P O' TG' CO' AU' AL'. pose proof (run_running x g w sched lv d p o n l s HN TG (or_introl (conj LA CO)) AL P) as RU. pose proof RU as (HP & WK & VX & ST & LV & CV).
  unfold partition_scf. rewrite O'. cbn [bind]. destruct (start_again g (pe_env w) o' sched lv (q_p s) TG' CO' AL' ST) as (p0 & E0 & S0 & I0). rewrite E0. cbn [bind]. destruct (begin_running x g w sched lv o' (q_p s) p0 E0 HP WK VX LV CV S0 I0) as (HP0 & WK0 & VX0 & _ & LV0 & CV0).
  pose proof S0 as (_ & NF). destruct (have_total _ _ NF) as (nf & ->). cbn [bind]. apply (loop_total x g w o' sched lv); auto.
Qed.
(** A new object has no densities to continue from. *)
Theorem new_cannot_continue : forall g w sched Za Zb pol spec nua nub opt d p o, partition_init g Za Zb pol spec nua nub opt = Ok p -> psc_options p d = Ok o -> ps_cont o = true -> List.length (ps_alpha o) = 1%nat \/ List.length (ps_alpha o) = 2%nat -> partition_scf g w sched d p = Err AssertionError.
Proof.
  intros g w sched Za Zb pol spec nua nub opt d p o IN O CO AL. destruct (init_new _ _ _ _ _ _ _ _ _ IN) as (F & HF & _ & W & _). unfold partition_scf. rewrite O. cbn [bind]. unfold psc_start.
  destruct (setup_total o p AL) as (p1 & E1); [intros c Hc; exists (F c); split; [apply HF; exact Hc|auto]|]. rewrite E1. cbn [bind]. apply setup_inv in E1. destruct E1 as (W1 & M1 & _).
  assert (MC : member (p_ens p) Ca) by (destruct (p_ens p); exact Logic.I). destruct (M1 Ca MC) as (f & al & F1 & _ & F2). rewrite (HF Ca MC) in F1. injection F1 as <-. destruct (W Ca MC) as (_ & N & _).
  assert (X : exists r, comps_ab p = Ca :: r) by (unfold comps_ab, comps; destruct (po_ab (p_opt p)), (p_ens p); eexists; reflexivity). destruct X as (r & ->). cbn [forL]. unfold psc_guess at 1, get_f. rewrite F2. cbn [have bind falpha ffrozen f_ks]. rewrite CO, N. reflexivity.
Qed.
