(** Concrete partition calculations, continued: the densities, and single functions. *)
From Coq Require Import Reals List Arith Lia Lra ZArith Bool String.
From Verif Require Import Base BaseLemmas GridModel GridSpec GridProofs GridWitness GridMore HartreeModel SolverModel SolverSpec SolverProofs SolverThms SolverWitness SolverCases LibxcModel OptionsModel OptionsProofs KSModel KSSpec KSProofs KSThms KSLoop KSEnergy KSTotal KSWit
  InverterModel InverterWit PartitionModel PartitionSpec PartitionBase PartitionConstr PartitionDens PartitionFrame PartitionEnergy PartitionEp PartitionTotal PartitionLoop PartitionStep PartitionPass PartitionScf PartitionRun PartitionFinal PartitionOverlap PartitionModes PartitionNew PartitionGood PartitionWit.
Import ListNotations.
Local Open Scope R_scope.
Local Opaque sinh cosh.

(** The density of one electron in a constant orbital. *)
Definition w_den : R := / integrate1 g22 (fun _ => 1).
Lemma w_den_pos : 0 < w_den.
Proof. unfold w_den. apply Rinv_0_lt_compat. apply g22_int_pos. intros; lra. Qed.
Definition w_like (k : ks) : Prop := k_lv k = 1%nat /\ k_cols k = 2%nat /\ o_sym (k_opt k) = false /\ forall i j, place k i j -> s_m (k_sol k i j) = 0%Z /\ s_pol (k_sol k i j) = 2%nat /\ s_N (k_sol k i j) = 1.
Lemma w_out : forall k it dif l k' n, w_like k -> ks_density g22 ex_env it dif l k = Ok (k', n) -> forall x j, (j < 2)%nat -> n x j = w_den.
Proof.
  intros k it dif l k' n (L & C & S & P) H x j Hj. apply density_inv in H. destruct H as (sol & n0 & _ & A & _ & D & ->). rewrite S. apply sum_dens_spec in D. destruct D as (D1 & D2). rewrite D2, C, L.
  destruct (Nat.ltb_spec j 2); [|lia]. cbn [sumR]. assert (PL : place k 0 j) by (unfold place; rewrite L, C; lia). destruct (D1 _ _ PL) as (_ & DD). destruct (A _ _ PL) as (r & R1 & R2). injection R1 as <-.
  destruct (P _ _ PL) as (P1 & P2 & P3). assert (SS : shell_size 0 2 = 1) by (unfold shell_size; simpl; lra).
  destruct (calc_density_ok g22 (sol 0%nat j) 1 (fun _ _ => 1)) as (d & E & F).
  { rewrite R2. cbn. rewrite P3. lra. } { rewrite R2. reflexivity. }
  { intros i. unfold filling. rewrite R2. cbn [set_result s_frac s_N s_m s_pol]. rewrite P1, P2, P3, SS. unfold aufbau. destruct i; [lia|]. rewrite S_INR. pose proof (pos_INR i). destruct (s_frac _).
    - intros X. exfalso. revert X. unfold Rmin, Rmax. repeat destruct (Rle_dec _ _); lra.
    - destruct (Rle_dec _ _); lra. }
  rewrite DD in E. injection E as E. rewrite E, F. unfold textbook_density. cbn [sumR]. rewrite R2. unfold filling. cbn [set_result s_frac s_N s_m s_pol]. rewrite P1, P2, P3, SS.
  assert (A1 : aufbau (s_frac (k_sol k 0%nat j)) (1 / 1) 0 = 1). { unfold aufbau. simpl INR. destruct (s_frac _); [unfold Rmin, Rmax; repeat destruct (Rle_dec _ _); lra|destruct (Rle_dec _ _); lra]. }
  rewrite A1. unfold w_den. replace (integrate1 g22 (fun _ => 1 ^ 2)) with (integrate1 g22 (fun _ => 1)) by (apply integrate1_ext; intros; ring). unfold Rdiv. ring.
Qed.
Lemma w_place : forall Za Zb nua nub opt p c f, partition_init g22 Za Zb 2 w_spec nua nub opt = Ok p -> po_sym (p_opt p) = false -> member (p_ens p) c -> p_f p c = Some f -> w_like (f_ks f) /\ k_pol (f_ks f) = 2%nat /\ k_n (f_ks f) = None /\ f_scale f = weight (p_ens p) (po_ess (p_opt p)) nua nub c.
Proof.
  intros Za Zb nua nub opt p c f H SY Hc F. apply init_inv in H. destruct H as (d & _ & _ & _ & _ & _ & _ & _ & _ & _ & _ & _ & _ & _ & H). destruct (H c Hc) as (f0 & FI & F0). rewrite F in F0. injection F0 as ->.
  pose proof FI as FI0. apply frag_init_inv in FI. destruct FI as (k & -> & _ & _ & P & L & C & KN & _ & _ & _ & _ & _ & I & SY' & _ & _ & _ & FM & S). cbn [fscale new_frag f_ks f_scale].
  split; [|auto]. split; [exact L|]. split; [exact C|]. split; [congruence|].
  intros i j Hp. unfold frag_init in FI0. destruct (ks_init _ _ _ _ _ _ _ _ _ _ _) as [k'|] eqn:E; [|discriminate]. cbn [bind] in FI0. injection FI0 as <-. apply init_spec in E.
  destruct E as (o & _ & _ & _ & _ & _ & _ & _ & _ & _ & _ & _ & _ & _ & _ & _ & _ & _ & _ & _ & _ & W). destruct (W i j Hp) as (_ & S1 & S2 & S3 & _ & S4 & _). split; [|split; auto]. rewrite S1. destruct Hp as (Hi & _). rewrite L in Hi. cbn in Hi. replace i with 0%nat by lia. reflexivity.
Qed.
Lemma w_like_frame : forall k k', w_like k -> frame k k' -> w_like k'.
Proof.
  intros k k' (A & B & C & D) (F1 & _ & _ & F4 & F5 & F6 & F7 & F8). split; [congruence|]. split; [congruence|]. split; [congruence|]. intros i j Hp. assert (Hp' : place k i j) by (unfold place in *; rewrite F5, F6 in Hp; exact Hp). destruct (F8 i j) as (S1 & S2 & S3 & _). rewrite S1, S2, S3. apply D. exact Hp'.
Qed.
(** The density of every component in every pass. *)
Lemma w_densities : forall Za Zb nua nub opt p w sched d o n l s, partition_init g22 Za Zb 2 w_spec nua nub opt = Ok p -> po_sym (p_opt p) = false -> pe_env w = ex_env -> ps_cont o = false ->
  passes g22 w sched d p o n l s -> forall c, member (p_ens p) c -> exists f m, p_f (q_p s) c = Some f /\ k_n (f_ks f) = Some m /\ forall x j, (x < Nelem g22)%nat -> (j < 2)%nat -> m x j = w_den.
Proof.
  intros Za Zb nua nub opt p w sched d o n l s H SY WE CO PS. destruct (init_new _ _ _ _ _ _ _ _ _ H) as (F & HF & _).
  assert (X : forall n l s, passes g22 w sched d p o n l s -> forall c, computed p c -> exists f m, p_f (q_p s) c = Some f /\ k_n (f_ks f) = Some m /\ forall x j, (x < Nelem g22)%nat -> (j < 2)%nat -> m x j = w_den).
  { clear n l s PS. induction n as [|n IH]; intros l s PS c Hc; destruct (run_dens g22 w sched d p o F HF _ _ _ PS c Hc) as (f & m & A1 & A2 & A3 & A4); exists f, m; (split; [exact A1|split; [exact A3|]]); intros x j Hx Hj;
      destruct (w_place _ _ _ _ _ _ c (F c) H SY (proj1 Hc) (HF c (proj1 Hc))) as (WL & _).
    - rewrite CO in A4. destruct A4 as (it & dif & l0 & k1 & k2 & A4 & A5). rewrite WE in A5. eapply w_out; [|exact A5|exact Hj]. eapply w_like_frame; eauto.
    - destruct A4 as (l0 & s0 & f0 & m0 & B1 & B2 & B3 & it & dif & l1 & k1 & k2 & nout & al & B4 & B5 & B6 & ->). destruct (IH _ _ B1 c Hc) as (f1 & m1 & C1 & C2 & C3). rewrite B2 in C1. injection C1 as <-. rewrite B3 in C2. injection C2 as <-.
      rewrite WE in B5. cbv beta. rewrite C3 by auto. rewrite (w_out k1 _ _ _ _ _ (w_like_frame _ _ WL B4) B5) by auto. ring. }
  intros c Hc. destruct (source_computed p c Hc) as (S1 & S2). destruct (X _ _ _ PS _ S1) as (f & m & A1 & A2 & A3). destruct S2 as [S2|(AB & S2 & S3)]; [rewrite S2 in *; eauto|].
  destruct (run_twins _ _ _ _ _ _ _ _ _ PS AB _ (proj1 S1) S3) as (a & b & B1 & B2 & ((x & y & X1 & X2 & X3) & _)). rewrite <- S2 in B2. rewrite A1 in B1. injection B1 as <-. rewrite A2 in X1. injection X1 as <-.
  exists b, y. split; auto. split; auto. intros z j Hz Hj. destruct (pos_surj g22 z Hz) as (ia & ir & Hp & ->). rewrite X3 by auto. apply A3; auto. apply pos_lt. unfold is_point in *. lia.
Qed.
(** The state with which the loop starts. *)
Lemma w_begin : forall Za Zb nua nub opt p, partition_init g22 Za Zb 2 w_spec nua nub opt = Ok p -> po_fam (p_opt p) = "lda"%string -> exists o s, passes g22 w_env w_sched [] p o 0 [] s /\ ps_target o = false /\ ps_cont o = false.
Proof.
  intros Za Zb nua nub opt p H F. assert (O : exists o, psc_options p [] = Ok o /\ ps_target o = false /\ ps_cont o = false /\ ps_alpha o = [82 / 100]).
  { unfold psc_options, configure_partition_scf. eexists. split; [reflexivity|]. repeat split. }
  destruct O as (o & O & T & C & AL). destruct (start_total 0 g22 ex_env o w_sched 1%nat p) as (p0 & E & (_ & (nf & N)) & _); auto.
  - rewrite g22_n. lia.
  - rewrite AL. auto.
  - eapply w_equipped; eauto.
  - exists o. eexists. split; [econstructor; eauto|auto].
Qed.
(** Fragment densities and protomolecular density. *)
Lemma w_settled : forall Za Zb nua nub opt p w sched d o n l s, partition_init g22 Za Zb 2 w_spec nua nub opt = Ok p -> po_sym (p_opt p) = false -> pe_env w = ex_env -> ps_cont o = false -> ps_target o = false ->
  passes g22 w sched d p o n l s -> exists F m na nb nf q, settled g22 (q_p s) F m na nb nf q /\ (forall c, member (p_ens p) c -> f_scale (F c) = weight (p_ens p) (po_ess (p_opt p)) nua nub c) /\
    forall x j, (x < Nelem g22)%nat -> (j < 2)%nat -> (forall c, member (p_ens p) c -> m c x j = w_den) /\ na x j = w_den /\ nb x j = w_den /\ nf x j = 2 * w_den.
Proof.
  intros Za Zb nua nub opt p w sched d o n l s H SY WE CO TA PS. destruct (run_settled _ _ _ _ _ _ _ _ _ PS TA) as (F & m & na & nb & nf & q & ST & _). pose proof (run_static _ _ _ _ _ _ _ _ _ PS) as (R1 & R2 & _ & _ & _ & _ & R7 & _ & _ & _ & R).
  assert (PP : p_pol p = 2%nat) by (apply init_inv in H; destruct H as (d0 & _ & _ & _ & P & _); exact P).
  exists F, m, na, nb, nf, q. split; auto. destruct ST as ((D1 & D2) & (_ & _ & _ & P4 & P5 & P6) & _). unfold frags in D1. rewrite R7 in *. rewrite R1, R2 in *.
  assert (SC : forall c, member (p_ens p) c -> f_scale (F c) = weight (p_ens p) (po_ess (p_opt p)) nua nub c).
  { intros c Hc. destruct (R c Hc) as (f & f' & A1 & A2 & _ & A4 & _). rewrite (D1 c Hc) in A2. injection A2 as <-. rewrite A4. eapply w_place; eauto. }
  split; auto. intros x j Hx Hj. rewrite PP in *.
  assert (M : forall c j, (j < 2)%nat -> member (p_ens p) c -> m c x j = w_den).
  { intros c j0 Hj0 Hc. destruct (w_densities _ _ _ _ _ _ _ _ _ _ _ _ _ H SY WE CO PS c Hc) as (f & m0 & A1 & A2 & A3). rewrite (D1 c Hc) in A1. injection A1 as <-. rewrite (D2 c Hc) in A2. injection A2 as <-. auto. }
  assert (NA : na x j = w_den).
  { rewrite P4. unfold group. unfold weight in SC. destruct (p_ens p) eqn:EN; cbn [lsum].
    - rewrite !SC by (cbn; auto). rewrite !M by first [lia|cbn; auto]. destruct (po_ess (p_opt p)); [field|ring].
    - rewrite !SC by (cbn; auto). rewrite !M by first [lia|cbn; auto]. destruct (po_ess (p_opt p)); [field|ring]. }
  assert (NB : nb x j = w_den).
  { rewrite P5. unfold group. unfold weight in SC. destruct (p_ens p) eqn:EN; cbn [lsum].
    - rewrite !SC by (cbn; auto). rewrite !M by first [lia|cbn; auto]. destruct (po_ess (p_opt p)); [field|ring].
    - rewrite !SC by (cbn; auto). rewrite !M by first [lia|cbn; auto]. destruct (po_ess (p_opt p)); [field|ring]. }
  split; [intros; apply M; auto|]. split; auto. split; auto. rewrite P6, NA, NB. ring.
Qed.
Lemma w_sqrt : forall n, (forall k, (k < Nelem g22)%nat -> 0 <= n k) -> exists r, np_sqrt1 (Nelem g22) n = Ok r.
Proof.
  intros n H. unfold np_sqrt1. destruct (np_sqrt (Nelem g22) 1 (fun k _ => n k)) as [f|e] eqn:E; cbn [bind]; [eauto|]. exfalso. unfold np_sqrt, finite in E.
  match type of E with (if ?b then _ else _) = _ => assert (B : b = true) end.
  { apply forallb_forall. intros k Hk. apply in_seq in Hk. apply forallb_forall. intros s _. cbv beta. destruct (Rlt_dec (n k) 0) as [X|X]; [|reflexivity]. exfalso. assert (0 <= n k) by (apply H; lia). lra. }
  rewrite B in E. discriminate.
Qed.
Definition w_default (Za Zb nua nub : R) (p : part) : Prop := partition_init g22 Za Zb 2 w_spec nua nub [] = Ok p.
Lemma w_default_ok : forall Za Zb nua nub, (nua = 1 <-> nub = 1) -> exists p, w_default Za Zb nua nub p.
Proof.
  intros Za Zb nua nub NU. assert (C : exists d, configure PartitionOptions [] = Ok d /\ exists k, configure KohnShamOptions (ks_dict d) = Ok k) by (eexists; (split; [reflexivity|]); eexists; reflexivity). destruct C as (d & C & k & C2).
  eapply (w_init Za Zb nua nub [] d k C C2); auto; injection C as <-; discriminate.
Qed.
Lemma w_default_opt : forall Za Zb nua nub p, w_default Za Zb nua nub p -> po_kin (p_opt p) = "vonweiz"%string /\ po_fam (p_opt p) = "lda"%string /\ po_sym (p_opt p) = false /\ po_iso (p_opt p) = false /\ po_ess (p_opt p) = false /\ p_pol p = 2%nat.
Proof.
  intros Za Zb nua nub p H. apply init_inv in H. destruct H as (d & C & O & _ & P & _). assert (C' : exists d, configure PartitionOptions [] = Ok d) by (eexists; reflexivity). 
  rewrite O. injection C as <-. repeat (split; [reflexivity|]). exact P.
Qed.
(** Default settings: the loop starts, and the von Weizsaecker expressions can be evaluated. *)
Lemma w_vonweiz : forall Za Zb nua nub, (nua = 1 <-> nub = 1) -> exists p0 o s F n nf p', w_default Za Zb nua nub p0 /\ passes g22 w_env w_sched [] p0 o 0 [] s /\ let p := q_p s in densities p F n /\ p_nf p = Some nf /\ po_kin (p_opt p) = "vonweiz"%string /\ ep_kinetic g22 p = Ok p' /\
  forall k, (k < Nelem g22)%nat -> 0 < sumR (p_pol p) (fun s => nf k s).
Proof.
  intros Za Zb nua nub NU. destruct (w_default_ok Za Zb nua nub NU) as (p0 & H). destruct (w_default_opt _ _ _ _ _ H) as (K & FM & SY & _ & _ & PP). destruct (w_begin _ _ _ _ _ _ H FM) as (o & s & PS & TA & CO).
  destruct (w_settled _ _ _ _ _ _ w_env _ _ _ _ _ _ H SY eq_refl CO TA PS) as (F & m & na & nb & nf & q & (DD & (P1 & P2 & P3 & _) & QQ & _) & _ & V). pose proof (run_static _ _ _ _ _ _ _ _ _ PS) as (R1 & R2 & _ & _ & _ & _ & R7 & _).
  exists p0, o, s, F, m, nf. pose proof w_den_pos as WP.
  assert (POS : forall k, (k < Nelem g22)%nat -> 0 < sumR (p_pol (q_p s)) (fun s => nf k s)).
  { intros k Hk. rewrite R2, PP. cbn [sumR]. destruct (V k 0%nat Hk) as (_ & _ & _ & ->); [lia|]. destruct (V k 1%nat Hk) as (_ & _ & _ & ->); [lia|]. lra. }
  assert (EX : exists p1 r, epk_vonweiz g22 (q_p s) = Ok (p1, r)).
  { unfold epk_vonweiz. rewrite P3. cbn [have bind]. destruct (w_sqrt (sum_cols (p_pol (q_p s)) nf)) as (r & ->). { intros k Hk. pose proof (POS k Hk). unfold sum_cols. lra. } cbn [bind].
    match goal with |- context [forL ?l ?h ?a] => destruct (forL_inv_total _ _ (fun _ => True) l h a Logic.I) as (acc & -> & _) end; [|cbn [bind]; eauto].
    intros c acc Hc _. apply in_comps in Hc. destruct DD as (D1 & D2). unfold get_f. rewrite (D1 c Hc). cbn [have bind]. rewrite (D2 c Hc). cbn [axis1 bind].
    destruct (w_sqrt (sum_cols (p_pol (q_p s)) (m c))) as (rf & ->). { intros k Hk. unfold sum_cols. rewrite R2, PP. cbn [sumR]. destruct (V k 0%nat Hk) as (X0 & _); [lia|]. destruct (V k 1%nat Hk) as (X1 & _); [lia|]. rewrite R7 in Hc. rewrite X0, X1 by auto. lra. }
    cbn [bind]. unfold getQ. destruct (QQ c Hc) as (-> & _). cbn [have bind]. eexists. split; [reflexivity|exact Logic.I]. }
  destruct EX as (p1 & (((Tm & tm) & Tf) & tf) & EX). 
  assert (EK : exists p', ep_kinetic g22 (q_p s) = Ok p').
  { unfold ep_kinetic. rewrite R1, K. cbn [String.eqb Ascii.eqb Bool.eqb]. rewrite EX. cbn [bind]. eauto. }
  destruct EK as (p' & EK). exists p'. split; auto. split; auto. split; auto. split; auto. split; [rewrite R1; exact K|]. auto.
Qed.
(** The overlap can be evaluated wherever the fragment densities are not negative. *)
Lemma overlap_total : forall g p na nb, all_f (fun _ => True) p -> p_na p = Some na -> p_nb p = Some nb -> (forall k, (k < Nelem g)%nat -> 0 <= sumR (p_pol p) (fun s => na k s) * sumR (p_pol p) (fun s => nb k s)) -> exists p', vp_overlap g p = Ok p'.
Proof.
  intros g p na nb A NA NB H. unfold vp_overlap. rewrite NA, NB. cbn [axis1 have bind]. rewrite overlap_S_total by exact H. cbn [bind]. cbv zeta. set (S := overlap g (p_pol p) na nb).
  destruct (forL_run (fun c q f => Ok (fV (fV f "dSdn" (dSdn (f_scale f) na nb)) "dFdn" (dFdn S (dSdn (f_scale f) na nb))))
    (fun c p => do f <- get_f p c; Ok (set_frag p c (fV (fV f "dSdn" (dSdn (f_scale f) na nb)) "dFdn" (dFdn S (dSdn (f_scale f) na nb))))) (comps_a (p_ens p)) (set_E (set_E p "S" S) "F" (erf (2 * S)))) as (p1 & E1 & W1 & _ & X1).
  { intros ? ? ? ?; reflexivity. } { destruct (p_ens p); repeat constructor; cbn; intuition discriminate. } { intros c q. destruct (get_f q c); reflexivity. }
  { intros c Hc. destruct (A c) as (f & F & _); [destruct (p_ens p) eqn:E; cbn in Hc; intuition subst; cbn; auto|]. exists f. eexists. split; [exact F|reflexivity]. }
  rewrite E1. cbn [bind].
  destruct (forL_run (fun c q f => Ok (fV (fV f "dSdn" (dSdn (f_scale f) nb na)) "dFdn" (dFdn S (dSdn (f_scale f) nb na))))
    (fun c p => do f <- get_f p c; Ok (set_frag p c (fV (fV f "dSdn" (dSdn (f_scale f) nb na)) "dFdn" (dFdn S (dSdn (f_scale f) nb na))))) (comps_b (p_ens p)) p1) as (p2 & E2 & _).
  { intros ? ? ? ?; reflexivity. } { destruct (p_ens p); repeat constructor; cbn; intuition discriminate. } { intros c q. destruct (get_f q c); reflexivity. }
  { intros c Hc. destruct (A c) as (f & F & _); [destruct (p_ens p) eqn:E; cbn in Hc; intuition subst; cbn; auto|]. exists f. eexists. split; [|reflexivity]. rewrite X1; [exact F|]. destruct (p_ens p); cbn in *; intuition subst; discriminate. }
  rewrite E2. eauto.
Qed.
(** A new object whose fragment densities have been set. *)
Definition one_spec : comp -> fspec := fun _ => mkFS 1 1 (fun _ _ => 1%nat) 1 1 (fun _ _ => 2).
Lemma w_overlap : forall pol nua nub na nb nf, (pol = 1 \/ pol = 2)%nat -> (nua = 1 <-> nub = 1) -> (forall k s, (k < Nelem g22)%nat -> (s < pol)%nat -> 0 <= na k s /\ 0 <= nb k s) ->
  exists p0 p', partition_init g22 1 1 pol (if (pol =? 1)%nat then one_spec else w_spec) nua nub [] = Ok p0 /\ let p := set_dens p0 na nb nf in p_pol p = pol /\ p_na p = Some na /\ p_nb p = Some nb /\ (p_ens p = false <-> nua = 1) /\ vp_overlap g22 p = Ok p'.
Proof.
  intros pol nua nub na nb nf HP NU H. assert (C : exists d, configure PartitionOptions [] = Ok d /\ exists k, configure KohnShamOptions (ks_dict d) = Ok k) by (eexists; (split; [reflexivity|]); eexists; reflexivity). destruct C as (d & C & k & C2).
  destruct (init_exists g22 pol (if (pol =? 1)%nat then one_spec else w_spec) 1 1 nua nub [] d k) as (p0 & I); auto.
  { intros c. destruct HP as [-> | ->]; cbn [Nat.eqb]; [exists 1%nat, 1%nat|exists 1%nat, 2%nat]; repeat (split; [reflexivity|]); intros; cbn; lra. } { lia. } { injection C as <-. discriminate. }
  destruct (init_new _ _ _ _ _ _ _ _ _ I) as (F & HF & _). pose proof (init_inv _ _ _ _ _ _ _ _ _ I) as (d' & _ & _ & _ & P & _ & _ & _ & _ & _ & _ & _ & _ & EN & _).
  destruct (overlap_total g22 (set_dens p0 na nb nf) na nb) as (p' & E).
  { intros c Hc. exists (F c). split; auto. apply HF. exact Hc. } { reflexivity. } { reflexivity. }
  { intros x Hx. cbn [set_dens p_pol]. rewrite P. apply Rmult_le_pos; (destruct HP as [-> | ->]; cbn [sumR]; [destruct (H x 0%nat Hx) as (A & B); [lia|lra]|destruct (H x 0%nat Hx) as (A & B); [lia|]; destruct (H x 1%nat Hx) as (A' & B'); [lia|lra]]). }
  exists p0, p'. split; auto. cbv zeta. split; [exact P|]. split; [reflexivity|]. split; [reflexivity|]. split; [|exact E]. cbn [set_dens p_ens]. destruct EN as [(E1 & _ & E2 & _)|(E1 & _ & E2)]; rewrite E2; split; intros; auto; congruence.
Qed.
(** Every pass evaluates the partition potential. *)
Lemma pass_component : forall g w sched d p o n l s, passes g w sched d p o (S n) l s -> po_iso (p_opt p) = false -> po_vp (p_opt p) = "component"%string ->
  exists p1 p2, vp_component g w p1 = Ok p2 /\ p_opt p1 = p_opt p /\ p_ens p1 = p_ens p /\ p_pol p1 = p_pol p.
Proof.
  intros g w sched d p o n l s H ISO COM. apply passes_S in H. destruct H as (l0 & s0 & HP & _ & B & _). destruct (run_static _ _ _ _ _ _ _ _ _ HP) as (R1 & R2 & _ & _ & _ & _ & R7 & _).
  apply body_inv in B. destruct B as (p' & r & fl & W & _). apply work_inv in W. destruct W as (p1 & p2 & p3 & pv & p4 & p5 & W1 & W2 & W3 & W4 & _).
  pose proof (psame_pstat _ _ (avoid_stat _ _ _ W1)) as S1. pose proof (hxc_stat _ _ _ _ W2) as S2. destruct (mid_mirror _ _ _ W3) as (S3 & _). assert (S : pstat (q_p s0) p3) by eauto 10 using pstat_trans.
  destruct S as (A1 & A2 & _ & _ & _ & _ & A7 & _). unfold psc_vp in W4. rewrite A1, R1, ISO in W4. unfold partition_potential in W4. rewrite A1, R1, COM in W4. cbn [String.eqb Ascii.eqb Bool.eqb] in W4.
  destruct (vp_component g w p3) as [q|] eqn:E; [|discriminate]. exists p3, q. split; auto. split; [congruence|]. split; congruence.
Qed.
Lemma forL_each : forall (X S : Type) (l : list X) (f : X -> S -> res S) s s', forL l f s = Ok s' -> forall x, In x l -> exists a b, f x a = Ok b.
Proof.
  intros X S l f. induction l as [|y l IH]; intros s s' H x Hx; [contradiction|]. cbn [forL] in H. destruct (f y s) as [s1|] eqn:E; [|discriminate]. cbn [bind] in H. destruct Hx as [-> | Hx]; eauto.
Qed.
(** Every pass of an interacting calculation evaluates the partition energy: the densities subtracted there. *)
Lemma pass_ep : forall g w sched d p o n l s, passes g w sched d p o (S n) l s -> po_iso (p_opt p) = false -> po_int (p_opt p) = "dft"%string -> po_ab (p_opt p) = false -> ps_fa o = false -> ps_fb o = false ->
  exists q q' F qf hh hx ah ax, ep_dft g (pe_env w) q = Ok q' /\ p_opt q = p_opt p /\ p_ens q = p_ens p /\ frags q F /\ has_Q q F qf /\ (forall c, member (p_ens q) c -> V_eh (k_V (f_ks (F c))) = Some (hh c)) /\ (forall c, member (p_ens q) c -> V_ex (k_V (f_ks (F c))) = Some (hx c)) /\
    forL (comps_ab q) (ehf_step g q) (fun _ => 0) = Ok ah /\ exf_sum g q V_ex = Ok ax.
Proof.
  intros g w sched d p o n l s H ISO DFT AB FA FB. pose proof (run_static _ _ _ _ _ _ _ _ _ H) as (R1 & R2 & _ & _ & _ & _ & R7 & _ & _ & _ & R).
  destruct (pass_ready _ _ _ _ _ _ _ _ _ H) as (p5 & _ & _ & E & PS & _). destruct (energy_mid _ _ _ _ E) as (p2 & p3 & M1 & M2 & _).
  assert (Q : psame p2 (q_p s) /\ p_opt p2 = p_opt p /\ p_ens p2 = p_ens p /\ p_pol p2 = p_pol p).
  { destruct M2 as (A1 & A2 & A3 & A4 & A5 & A6 & A7 & A8 & A9 & A10 & A11 & A12 & A13 & A14). destruct PS as (B1 & B2 & B3 & B4 & B5 & B6 & B7 & B8 & B9 & B10 & B11 & B12 & B13 & B14).
    split; [|split; [congruence|split; congruence]]. unfold psame. repeat (split; [congruence|]). intros c. specialize (A14 c). specialize (B14 c). destruct (p_f p5 c), (p_f p2 c), (p_f (q_p s) c); cbn in *; try tauto. unfold fsame in *. intuition congruence. }
  destruct Q as (Q & Q1 & Q2 & Q3). unfold partition_energy in M1. rewrite Q1, ISO in M1. destruct (ep_nuclear g p2) as [q1|] eqn:N1; [|discriminate]. cbn [bind] in M1. destruct (ep_kinetic g q1) as [q2|] eqn:N2; [|discriminate]. cbn [bind] in M1.
  destruct (ep_hxc g (pe_env w) q2) as [q3|] eqn:N3; [|discriminate]. unfold ep_hxc in N3. destruct (ep_dft g (pe_env w) q2) as [q4|] eqn:N4; [|discriminate]. clear N3 M1.
  pose proof (ep_nuclear_same _ _ _ N1) as S1. pose proof (ep_kinetic_same _ _ _ N2) as S2.
  assert (S3 : psame p2 q2) by (eapply psame_trans; eauto). destruct S3 as (T1 & T2 & _ & _ & _ & _ & T7 & _ & _ & _ & _ & _ & _ & T14).
  assert (DFT2 : po_int (p_opt q2) = "dft"%string) by congruence. destruct (ep_dft_inv _ _ _ _ N4 DFT2) as (nf & vh & Ehf & ah & x & Exf & ax & c0 & Ecf & ecf & _ & _ & _ & H1 & _ & _ & H2 & _ & _ & _).
  assert (CC : comps_ab q2 = comps (p_ens q2)) by (unfold comps_ab; rewrite T1, Q1, AB; reflexivity).
  assert (EACH : forall c, member (p_ens q2) c -> exists f qq hh hx, p_f q2 c = Some f /\ f_Q f = Some qq /\ V_eh (k_V (f_ks f)) = Some hh /\ V_ex (k_V (f_ks f)) = Some hx).
  { intros c Hc. assert (IC : In c (comps_ab q2)) by (rewrite CC; apply in_comps; exact Hc). destruct (forL_each _ _ _ _ _ _ H1 c IC) as (a1 & b1 & X1). unfold exf_sum in H2. match type of H2 with bind ?m _ = _ => destruct m as [ax0|] eqn:H3; [|discriminate] end.
    destruct (forL_each _ _ _ _ _ _ H3 c IC) as (a2 & b2 & X2). unfold ehf_step in X1. cbv beta in X2. destruct (get_f q2 c) as [f|] eqn:G; [|discriminate]. cbn [bind] in X1, X2. unfold get_f in G. destruct (p_f q2 c) as [f0|] eqn:P; [|discriminate]. injection G as ->.
    assert (AC : active f = true).
    { assert (Hc' : member (p_ens p) c) by (rewrite <- Q2, <- T7; exact Hc). destruct (R c Hc') as (fa & fb & _ & Z2 & _ & _ & _ & Z3). destruct Q as (_ & _ & _ & _ & _ & _ & _ & _ & _ & _ & _ & _ & _ & Q14). specialize (Q14 c). specialize (T14 c). rewrite P in T14. rewrite Z2 in Q14. destruct (p_f p2 c) as [fc|]; [|contradiction].
      destruct Q14 as (_ & _ & _ & _ & Z4 & _). destruct T14 as (_ & _ & _ & _ & Z5 & _). unfold active. rewrite Z5, <- Z4, Z3. destruct c; rewrite ?FA, ?FB; reflexivity. }
    rewrite AC in X1, X2. unfold getQ in *. destruct (f_Q f) as [qq|] eqn:FQ; [|discriminate]. cbn [have bind] in X1, X2. destruct (V_eh (k_V (f_ks f))) as [hh|] eqn:EH; [|discriminate]. destruct (V_ex (k_V (f_ks f))) as [hx|] eqn:EX; [|discriminate]. exists f, qq, hh, hx. auto. }
  destruct (EACH Ca Logic.I) as (f0 & _).
  exists q2, q4, (fun c => match p_f q2 c with Some f => f | None => f0 end), (fun c => match p_f q2 c with Some f => match f_Q f with Some x => x | None => fun _ _ => 0 end | None => fun _ _ => 0 end),
    (fun c => match p_f q2 c with Some f => match V_eh (k_V (f_ks f)) with Some x => x | None => fun _ => 0 end | None => fun _ => 0 end), (fun c => match p_f q2 c with Some f => match V_ex (k_V (f_ks f)) with Some x => x | None => fun _ => 0 end | None => fun _ => 0 end), ah, ax.
  split; auto. split; [congruence|]. split; [congruence|]. split; [|split; [|split; [|split; [|split; auto]]]]; intros c Hc; destruct (EACH c Hc) as (f & qq & hh & hx & E1 & E2 & E3 & E4); rewrite E1, ?E2, ?E3, ?E4; reflexivity.
Qed.
