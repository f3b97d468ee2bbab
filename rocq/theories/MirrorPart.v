(** Isolated fragments of two partitions that differ by the exchange of the two nuclei. *)
From Coq Require Import Reals List Arith Lia Lra ZArith Bool String FunctionalExtensionality.
From Verif Require Import Base BaseLemmas GridModel GridSpec GridProofs GridMore HartreeModel HartreeSpec HartreeProofs LinAlg HartreeThms SolverModel SolverSpec SolverProofs SolverResp FDProofs LibxcModel LibxcSpec OptionsModel KSModel KSSpec KSProofs KSThms KSLoop KSEnergy KSTotal
  InverterModel PartitionModel PartitionSpec PartitionBase PartitionConstr PartitionDens PartitionFrame PartitionEnergy PartitionLoop PartitionStep PartitionKeep PartitionPass PartitionScf PartitionRun PartitionFinal PartitionMain PartitionCount
  SelfConsistent NonInteracting Isolated Transport MirrorRun.
Import ListNotations.
Local Open Scope R_scope.

(** * Specification *)
(** The component in the same role at the other nucleus. *)
Definition partner (c : comp) : comp := match c with Ca => Cb | CA => CB | Cb => Ca | CB => CA end.
(** n' is the mirror image of n in the first pol columns. *)
Definition reflected (g : grid) (pol : nat) (n n' : mat) : Prop := forall x s, (x < Nelem g)%nat -> (s < pol)%nat -> n' x s = mirror1 g (fun y => n y s) x.
(** The functionals of p work point by point. *)
Definition local_partition (w : env) (p : part) : Prop := forall id, id = po_xid (p_opt p) \/ id = po_cid (p_opt p) -> exists F, e_lib w id (p_pol p) = Ok F /\ pointwise (p_pol p) (2 * p_pol p - 1) F.

Lemma partner_member : forall e c, member e c -> member e (partner c).
Proof. intros e [] H; exact H. Qed.
Lemma partner_weight : forall e s a b c, weight e s b a (partner c) = weight e s a b c.
Proof. intros e s a b []; reflexivity. Qed.

(** * Construction *)
Lemma exchanged : forall g Za Zb pol spec nua nub opt p p', partition_init g Za Zb pol spec nua nub opt = Ok p -> partition_init g Zb Za pol (fun c => spec (partner c)) nub nua opt = Ok p' ->
  p_opt p' = p_opt p /\ p_pol p' = pol /\ p_pol p = pol /\ p_ens p' = p_ens p /\ forall c, member (p_ens p) c -> exists f f', p_f p c = Some f /\ p_f p' (partner c) = Some f' /\
    f_scale f' = f_scale f /\ image_object g (across g) same (f_ks f) (f_ks f') /\ k_pol (f_ks f) = pol /\ o_xid (k_opt (f_ks f)) = po_xid (p_opt p) /\ o_cid (k_opt (f_ks f)) = po_cid (p_opt p).
Proof.
  intros g Za Zb pol spec nua nub opt p p' H H'. apply init_inv in H. destruct H as (d & C & O & _ & P & _ & _ & _ & _ & _ & _ & _ & _ & EN & FR). apply init_inv in H'. destruct H' as (d' & C' & O' & _ & P' & _ & _ & _ & _ & _ & _ & _ & _ & EN' & FR').
  rewrite C in C'. injection C' as <-. assert (OO : p_opt p' = p_opt p) by congruence. split; auto. split; auto. split; auto. assert (E : p_ens p' = p_ens p) by (destruct EN as [(X1 & X2 & -> & _)|(X1 & X2 & ->)]; destruct EN' as [(Y1 & Y2 & -> & _)|(Y1 & Y2 & ->)]; congruence). split; auto.
  intros c Hc. destruct (FR c Hc) as (f & FI & F). assert (Hc' : member (p_ens p') (partner c)) by (rewrite E; apply partner_member, Hc). destruct (FR' _ Hc') as (f' & FI' & F').
  eexists _, _. split; [exact F|]. split; [exact F'|]. cbn [fscale f_scale f_ks]. split; [rewrite E, OO; apply partner_weight|].
  assert (PP : partner (partner c) = c) by (destruct c; reflexivity). rewrite PP, OO in FI'.
  pose proof (frag_init_inv _ _ _ _ _ _ _ FI) as (k & -> & _ & _ & K3 & _ & _ & _ & _ & _ & _ & _ & _ & _ & _ & _ & K14 & K15 & _). cbn [new_frag f_ks]. split; [|auto].
  unfold frag_init in FI, FI'. destruct (ks_init g _ _ pol _ _ _ _ _ _ _) as [k0|] eqn:E0 in FI; [|discriminate]. cbn [bind] in FI. injection FI as <-.
  destruct (ks_init g _ _ pol _ _ _ _ _ _ _) as [k1|] eqn:E1 in FI'; [|discriminate]. cbn [bind] in FI'. injection FI' as <-. cbn [new_frag f_ks].
  eapply object_across; [exact E0|]. rewrite <- E1. destruct c; reflexivity.
Qed.

(** * Runs *)
Theorem exchanged_runs : forall g w Za Zb pol spec nua nub opt p p' sched sched' d d' o o' n l l' s s', mirror_setting g (pe_env w) -> equivariant g (pe_env w) (across g) -> (pol = 1 \/ pol = 2)%nat ->
  partition_init g Za Zb pol spec nua nub opt = Ok p -> partition_init g Zb Za pol (fun c => spec (partner c)) nub nua opt = Ok p' -> local_partition (pe_env w) p ->
  po_iso (p_opt p) = true -> po_ab (p_opt p) = false -> passes g w sched d p o n l s -> passes g w sched' d' p' o' n l' s' ->
  ps_cont o = false -> ps_cont o' = false -> ps_target o = false -> ps_target o' = false -> (forall c, member (p_ens p) c -> step_size (ps_alpha o') (partner c) = step_size (ps_alpha o) c) ->
  (forall c, member (p_ens p) c -> exists f f' m m', p_f (q_p s) c = Some f /\ p_f (q_p s') (partner c) = Some f' /\ k_n (f_ks f) = Some m /\ k_n (f_ks f') = Some m' /\ reflected g pol m m' /\
     ((0 < n)%nat -> exists E E', k_E (f_ks f) = Some E /\ k_E (f_ks f') = Some E' /\ E_E E' = E_E E)) /\
  exists nf nf', p_nf (q_p s) = Some nf /\ p_nf (q_p s') = Some nf' /\ reflected g pol nf nf'.
Proof.
  intros g w Za Zb pol spec nua nub opt p p' sched sched' d d' o o' n l l' s s' MS EQ HP H H' LF IS AB P P' HC HC' HT HT' HA.
  destruct (exchanged _ _ _ _ _ _ _ _ _ _ H H') as (OO & PP' & PP & EE & X).
  pose proof (run_static _ _ _ _ _ _ _ _ _ P) as (R1 & R2 & _ & _ & _ & _ & R7 & _ & _ & _ & RF). pose proof (run_static _ _ _ _ _ _ _ _ _ P') as (R1' & R2' & _ & _ & _ & _ & R7' & _ & _ & _ & RF').
  assert (W : forall c, member (p_ens p) c -> exists f f' m m', p_f (q_p s) c = Some f /\ p_f (q_p s') (partner c) = Some f' /\ k_n (f_ks f) = Some m /\ k_n (f_ks f') = Some m' /\ reflected g pol m m' /\ f_scale f' = f_scale f /\
     ((0 < n)%nat -> exists E E', k_E (f_ks f) = Some E /\ k_E (f_ks f') = Some E' /\ E_E E' = E_E E)).
  { intros c Hc. pose proof (partner_member _ _ Hc) as Hc'. assert (Hc2 : member (p_ens p') (partner c)) by (rewrite EE; exact Hc').
    destruct (X c Hc) as (f0 & f0' & F0 & F0' & SC & OB & KP & KX & KC).
    destruct (RF c Hc) as (g0 & f & G1 & F & _ & SC1 & AL & _). rewrite F0 in G1. injection G1 as <-. destruct (RF' _ Hc2) as (g0' & f' & G1' & F' & _ & SC1' & AL' & _). rewrite F0' in G1'. injection G1' as <-.
    assert (CM : computed p c) by (split; [exact Hc|congruence]). assert (CM' : computed p' (partner c)) by (split; [exact Hc2|rewrite OO; congruence]). pose proof (HA c Hc) as HAc. rewrite AL, AL' in HAc. injection HAc as HAc. rewrite HAc in AL'.
    destruct (part_iterates _ _ _ _ _ _ _ _ _ P IS HC c f0 _ CM F0 AL) as (f1 & m & e & A1 & A2 & _ & A4 & A5). rewrite F in A1. injection A1 as <-.
    assert (IS' : po_iso (p_opt p') = true) by (rewrite OO; exact IS).
    destruct (part_iterates _ _ _ _ _ _ _ _ _ P' IS' HC' (partner c) f0' _ CM' F0' AL') as (f1' & m' & e' & B1 & B2 & _ & B4 & B5). rewrite F' in B1. injection B1 as <-.
    assert (HP' : (k_pol (f_ks f0) = 1 \/ k_pol (f_ks f0) = 2)%nat) by (rewrite KP; exact HP). assert (LK : local_functionals (pe_env w) (f_ks f0)) by (intros id Hid; rewrite KX, KC in Hid; destruct (LF id Hid) as (Fx & L1 & L2); rewrite PP in L1, L2; rewrite KP; exists Fx; auto).
    assert (V0 : image g (across g) same (k_pol (f_ks f0)) (fun _ _ => 0) (fun _ _ => 0)) by (intros x j _ _; reflexivity).
    destruct (iterate_image g (pe_env w) (across g) same (f_ks f0) (f_ks f0') (across_map g _ MS) (same_map _ _) EQ OB (hxc_across g _ _ MS LK HP') (sym_across g _) _ _ _ _ _ _ _ _ V0 A4 B4) as (IM & E2).
    exists f, f', m, m'. split; auto. split; auto. split; auto. split; auto. split. { intros x t Hx Ht. rewrite IM by (rewrite ?KP; assumption). apply (across_at g (fun y => m y t)), Hx. }
    split; [congruence|]. intros Hn. destruct (A5 Hn) as (E & E3 & E4). destruct (B5 Hn) as (E' & E5 & E6). exists E, E'. split; auto. split; auto. congruence. }
  split. { intros c Hc. destruct (W c Hc) as (f & f' & m & m' & W1 & W2 & W3 & W4 & W5 & _ & W7). exists f, f', m, m'. auto 10. }
  destruct (run_settled _ _ _ _ _ _ _ _ _ P HT) as (F & nc & na & nb & nf & q & ((D1 & D2) & PM & _) & _). destruct (run_settled _ _ _ _ _ _ _ _ _ P' HT') as (F' & nc' & na' & nb' & nf' & q' & ((D1' & D2') & PM' & _) & _).
  exists nf, nf'. split; [apply PM|]. split; [apply PM'|]. intros x j Hx Hj. rewrite <- (across_at g (fun y => nf y j) x Hx). rewrite (whole_group _ _ _ _ _ _ PM' x j), (whole_group _ _ _ _ _ _ PM (across g x) j), R1, R1', R2, R2', R7, R7', OO, EE, PP, PP'.
  assert (G : forall c, member (p_ens p) c -> forall t, (t < pol)%nat -> f_scale (F' (partner c)) = f_scale (F c) /\ nc' (partner c) x t = nc c (across g x) t).
  { intros c Hc t Ht. assert (Hc1 : member (p_ens (q_p s)) c) by (rewrite R7; exact Hc). assert (Hc2 : member (p_ens (q_p s')) (partner c)) by (rewrite R7', EE; apply partner_member, Hc).
    destruct (W c Hc) as (f & f' & m & m' & W1 & W2 & W3 & W4 & W5 & W6 & _). rewrite (D1 c Hc1) in W1. injection W1 as <-. rewrite (D1' _ Hc2) in W2. injection W2 as <-. rewrite (D2 c Hc1) in W3. injection W3 as <-. rewrite (D2' _ Hc2) in W4. injection W4 as <-.
    split; [exact W6|]. rewrite W5 by assumption. symmetry. apply (across_at g (fun y => nc c y t)), Hx. }
  assert (G2 : forall c, member (p_ens p) c -> f_scale (F' (partner c)) * (nc' (partner c) x j + (if po_ess (p_opt p) then nc' (partner c) x (pol - 1 - j)%nat else 0)) = f_scale (F c) * (nc c (across g x) j + (if po_ess (p_opt p) then nc c (across g x) (pol - 1 - j)%nat else 0))).
  { intros c Hc. destruct (G c Hc j Hj) as (-> & ->). destruct (po_ess (p_opt p)); [|reflexivity]. destruct (G c Hc (pol - 1 - j)%nat) as (_ & ->); [lia|reflexivity]. }
  unfold group. destruct (p_ens p) eqn:EN; cbn [lsum].
  - pose proof (G2 Ca Logic.I) as Q1. pose proof (G2 CA eq_refl) as Q2. pose proof (G2 Cb Logic.I) as Q3. pose proof (G2 CB eq_refl) as Q4. cbn [partner] in *. lra.
  - pose proof (G2 Ca Logic.I) as Q1. pose proof (G2 Cb Logic.I) as Q3. cbn [partner] in *. lra.
Qed.

(** Two identical fragments. *)
Theorem identical_fragments : forall g w Z pol spec nu opt p sched d o n l s, mirror_setting g (pe_env w) -> equivariant g (pe_env w) (across g) -> (pol = 1 \/ pol = 2)%nat ->
  partition_init g Z Z pol spec nu nu opt = Ok p -> spec Cb = spec Ca -> spec CB = spec CA -> local_partition (pe_env w) p -> po_iso (p_opt p) = true -> po_ab (p_opt p) = false ->
  passes g w sched d p o n l s -> ps_cont o = false -> ps_target o = false -> step_size (ps_alpha o) Cb = step_size (ps_alpha o) Ca -> (p_ens p = true -> step_size (ps_alpha o) CB = step_size (ps_alpha o) CA) ->
  (forall c, member (p_ens p) c -> exists f f' m m', p_f (q_p s) c = Some f /\ p_f (q_p s) (partner c) = Some f' /\ k_n (f_ks f) = Some m /\ k_n (f_ks f') = Some m' /\ reflected g pol m m' /\
     ((0 < n)%nat -> exists E E', k_E (f_ks f) = Some E /\ k_E (f_ks f') = Some E' /\ E_E E' = E_E E)) /\
  exists nf, p_nf (q_p s) = Some nf /\ reflected g pol nf nf.
Proof.
  intros g w Z pol spec nu opt p sched d o n l s MS EQ HP H S1 S2 LF IS AB P HC HT A1 A2.
  assert (SP : (fun c => spec (partner c)) = spec) by (apply functional_extensionality; intros []; cbn [partner]; congruence). pose proof H as H'. rewrite <- SP in H'.
  assert (HA : forall c, member (p_ens p) c -> step_size (ps_alpha o) (partner c) = step_size (ps_alpha o) c) by (intros [] Hc; cbn [partner]; simpl in Hc; auto; symmetry; auto).
  destruct (exchanged_runs _ _ _ _ _ _ _ _ _ _ _ _ _ _ _ _ _ _ _ _ _ _ MS EQ HP H H' LF IS AB P P HC HC HT HT HA) as (R1 & nf & nf' & N1 & N2 & R2). split; auto. exists nf. split; auto. assert (nf' = nf) by congruence. subst nf'. exact R2.
Qed.

(** * Mirrored Kohn-Sham equations *)
Theorem mirror_eigenpair : forall g b m v e p, grid_ok g -> fd_ok g b -> (b <= Na g)%nat -> eigenpair g (hamiltonian g m) v e p -> eigenpair g (hamiltonian g m) (mirror1 g v) e (mirror1 g p).
Proof.
  intros g b m v e p Hg Hb Hn H k Hk. pose proof (hamiltonian_mirror g b m p k Hg Hb Hn Hk) as Q. change (gapply g (hamiltonian g m) (mirror1 g p) k + gw g k * mirror1 g v k * mirror1 g p k = e * gw g k * mirror1 g p k). rewrite Q.
  rewrite <- (across_at g (gapply g (hamiltonian g m) p) k Hk), <- (across_at g v k Hk), <- (across_at g p k Hk). rewrite <- (gw_mirror g k Hk), <- (across_at g (gw g) k Hk). apply (H (across g k)). apply across_lt, Hk.
Qed.
