(** Consequences of the partition lemmas in the form in which they are stated as properties, and concrete cases. *)
From Coq Require Import Reals List Arith Lia Lra ZArith Bool String.
From Verif Require Import Base BaseLemmas GridModel GridSpec GridProofs GridWitness GridMore HartreeModel SolverModel SolverSpec SolverProofs SolverThms SolverWitness SolverCases LibxcModel OptionsModel OptionsProofs KSModel KSSpec KSProofs KSThms KSLoop KSEnergy KSTotal KSWit
  InverterModel InverterWit PartitionModel PartitionSpec PartitionBase PartitionConstr PartitionDens PartitionFrame PartitionEnergy PartitionEp PartitionTotal PartitionLoop PartitionStep PartitionPass PartitionScf PartitionRun PartitionFinal PartitionKin PartitionPot PartitionChem PartitionOverlap PartitionModes PartitionNew PartitionGood PartitionWit PartitionWit2 PartitionRefute.
Import ListNotations.
Local Open Scope string_scope.
Local Open Scope R_scope.
Local Opaque sinh cosh.

(** The weights of the components of a fragment add up to one, to one half with ens_spin_sym. *)
Lemma weights_one : forall (ens ess : bool) (nua nub : R), lsum (if ens then [Ca; CA] else [Ca]) (weight ens ess nua nub) = (if ess then / 2 else 1) /\ lsum (if ens then [Cb; CB] else [Cb]) (weight ens ess nua nub) = (if ess then / 2 else 1).
Proof. intros [] [] nua nub; unfold weight; cbn [lsum]; lra. Qed.
(** A fragment of integer electron number alone: no second component. *)
Lemma new_weights : forall g Za Zb pol spec nua nub opt p, partition_init g Za Zb pol spec nua nub opt = Ok p -> exists F, frags p F /\
  (p_ens p = false <-> nua = 1) /\ (p_ens p = false <-> nub = 1) /\ (p_ens p = false -> p_f p CA = None /\ p_f p CB = None) /\
  (forall c, member (p_ens p) c -> f_scale (F c) = (if p_ens p then match c with Ca => 1 - nua | CA => nua | Cb => 1 - nub | CB => nub end else 1) * (if po_ess (p_opt p) then / 2 else 1)) /\
  lsum (if p_ens p then [Ca; CA] else [Ca]) (fun c => f_scale (F c)) = (if po_ess (p_opt p) then / 2 else 1) /\ lsum (if p_ens p then [Cb; CB] else [Cb]) (fun c => f_scale (F c)) = (if po_ess (p_opt p) then / 2 else 1).
Proof.
  intros g Za Zb pol spec nua nub opt p H. destruct (init_new _ _ _ _ _ _ _ _ _ H) as (F & HF & _ & W & _). pose proof (init_inv _ _ _ _ _ _ _ _ _ H) as (_ & _ & _ & _ & _ & _ & _ & _ & _ & _ & _ & _ & _ & EN & _).
  exists F. split; auto. assert (WW : forall c, member (p_ens p) c -> f_scale (F c) = weight (p_ens p) (po_ess (p_opt p)) nua nub c) by (intros c Hc; apply (W c Hc)).
  split; [destruct EN as [(A & B & -> & _)|(A & B & ->)]; split; intros; auto; congruence|]. split; [destruct EN as [(A & B & -> & _)|(A & B & ->)]; split; intros; auto; congruence|].
  split; [intros E; destruct EN as [(A & B & _ & X)|(A & B & X)]; [exact X|congruence]|]. split; [intros c Hc; rewrite (WW c Hc); reflexivity|].
  pose proof (weights_one (p_ens p) (po_ess (p_opt p)) nua nub) as (A & B). split; [rewrite <- A|rewrite <- B]; apply lsum_ext; intros c Hc; apply WW; destruct (p_ens p), c; cbn in *; intuition congruence.
Qed.

(** ** Energies *)
Lemma energy_sums : forall g w p F e p', energies p F e -> energy g w p = Ok p' ->
  let A := if p_ens p then [Ca; CA] else [Ca] in
  let B := if po_ab (p_opt p) then A else if p_ens p then [CB; CB] else [Cb] in
  let sum := fun h => share (po_ess (p_opt p)) F A h + share (po_ess (p_opt p)) F B h in
  let dft := fun (h : kse -> R) c => if String.eqb (po_int (p_opt p)) "dft" then h (e c) else 0 in
  p_E p' "Ea" = Some (share (po_ess (p_opt p)) F A (fun c => to_R (E_E (e c)))) /\ p_E p' "Eb" = Some (share (po_ess (p_opt p)) F B (fun c => to_R (E_E (e c)))) /\
  p_E p' "Ef" = Some (sum (fun c => to_R (E_E (e c)))) /\ p_E p' "Tsf" = Some (sum (fun c => to_R (E_Ts (e c)))) /\ p_E p' "Enucf" = Some (sum (fun c => E_Enuc (e c))) /\
  p_E p' "Exf" = Some (sum (dft E_Ex)) /\ p_E p' "Ecf" = Some (sum (dft E_Ec)) /\ p_E p' "Ehf" = Some (sum (dft (fun x => val (E_Eh x)))) /\ p_E p' "Vhxcf" = Some (sum (dft (fun x => val (E_Vhxc x)))) /\
  (forall s, p_Eks p' s = sum (fun c => E_Eks (e c) s)) /\ p_E p' "Vnn" = Some (p_Za p * p_Zb p / (2 * ga g)) /\
  p_ev p' = (flat_map (fun c => E_evals (e c)) A, flat_map (fun c => E_evals (e c)) (if po_ab (p_opt p) then A else if p_ens p then [Cb; CB] else [Cb])) /\
  exists Ep, p_T p' "Ep" = Some Ep /\ p_T p' "Et" = Some (sv_op Rplus (SC (sum (fun c => to_R (E_E (e c))))) Ep) /\
    p_T p' "E" = Some (sv_op Rplus (sv_op Rplus (SC (sum (fun c => to_R (E_E (e c))))) Ep) (SC (p_Za p * p_Zb p / (2 * ga g)))).
Proof.
  intros g w p F e p' HE H. pose proof (energy_parts _ _ _ _ _ _ HE H) as Q. cbv zeta in *. unfold tot, of_A, of_B, b_list in Q. destruct (po_ab (p_opt p)); exact Q.
Qed.
(** The same for every pass of a run, in terms of the energies the components have after it. *)
Lemma run_sums : forall g w sched d p o n l s, passes g w sched d p o (S n) l s -> exists F e, energies (q_p s) F e /\ 
  let A := if p_ens p then [Ca; CA] else [Ca] in
  let B := if po_ab (p_opt p) then A else if p_ens p then [CB; CB] else [Cb] in
  let sum := fun h => share (po_ess (p_opt p)) F A h + share (po_ess (p_opt p)) F B h in
  p_E (q_p s) "Ea" = Some (share (po_ess (p_opt p)) F A (fun c => to_R (E_E (e c)))) /\ p_E (q_p s) "Eb" = Some (share (po_ess (p_opt p)) F B (fun c => to_R (E_E (e c)))) /\
  p_E (q_p s) "Ef" = Some (sum (fun c => to_R (E_E (e c)))) /\ p_E (q_p s) "Tsf" = Some (sum (fun c => to_R (E_Ts (e c)))) /\ p_E (q_p s) "Enucf" = Some (sum (fun c => E_Enuc (e c))) /\
  (forall j, p_Eks (q_p s) j = sum (fun c => E_Eks (e c) j)).
Proof.
  intros g w sched d p o n l s H. destruct (pass_ready _ _ _ _ _ _ _ _ _ H) as (p5 & F & e & E & PS & HE & _). pose proof (run_static _ _ _ _ _ _ _ _ _ H) as (R1 & _ & _ & _ & _ & _ & R7 & _).
  destruct PS as (B1 & _ & _ & _ & _ & _ & B7 & _ & _ & _ & _ & _ & _ & B14).
  exists (fun c => match p_f (q_p s) c with Some f => f | None => F c end), e. split.
  { destruct HE as (HF & HE). split; intros c Hc; rewrite B7 in Hc; specialize (B14 c); rewrite (HF c Hc) in B14; destruct (p_f (q_p s) c) as [f|]; try contradiction; auto. destruct B14 as (-> & _). apply HE. auto. }
  pose proof (energy_sums _ _ _ _ _ _ HE E) as Q. cbv zeta in *. rewrite B1 in R1. rewrite B7 in R7. rewrite R1, R7 in Q.
  assert (S : forall l0 h, (forall c, In c l0 -> member (p_ens p) c) -> share (po_ess (p_opt p)) (fun c => match p_f (q_p s) c with Some f => f | None => F c end) l0 h = share (po_ess (p_opt p)) F l0 h).
  { intros l0 h Hl. unfold share. f_equal. apply lsum_ext. intros c Hc. f_equal. specialize (B14 c). destruct HE as (HF & _). rewrite <- R7 in Hl. rewrite (HF c (Hl c Hc)) in B14. destruct (p_f (q_p s) c) as [f|]; try contradiction. destruct B14 as (_ & B & _). exact B. }
  assert (MA : forall c, In c (if p_ens p then [Ca; CA] else [Ca]) -> member (p_ens p) c) by (intros c Hc; destruct (p_ens p), c; cbn in *; intuition congruence).
  assert (MB : forall c, In c (if po_ab (p_opt p) then (if p_ens p then [Ca; CA] else [Ca]) else if p_ens p then [CB; CB] else [Cb]) -> member (p_ens p) c) by (intros c Hc; destruct (po_ab (p_opt p)), (p_ens p), c; cbn in *; intuition congruence).
  rewrite !(S _ _ MA), !(S _ _ MB). destruct Q as (Q1 & Q2 & Q3 & Q4 & Q5 & _ & _ & _ & _ & Q6 & _). repeat (split; [assumption|]). intros j. rewrite !(S _ _ MA), !(S _ _ MB). apply Q6.
Qed.

(** ** Mirror symmetry of the Q functions along a run *)
Lemma run_Q_mirrored : forall g w sched d p o n l s, passes g w sched d p o n l s -> ps_target o = false -> po_ab (p_opt p) = true ->
  (forall c fa fb, member (p_ens p) c -> of_a c -> p_f p c = Some fa -> p_f p (twin c) = Some fb -> f_scale fb = f_scale fa) ->
  exists q, Q_of (q_p s) q /\ forall c, member (p_ens p) c -> of_a c -> mirrored g (q c) (q (twin c)).
Proof.
  intros g w sched d p o n l s H TG AB SC. destruct (run_settled _ _ _ _ _ _ _ _ _ H TG) as (F & m & na & nb & nf & q & (D & PM & HQ & MI) & _).
  pose proof (run_static _ _ _ _ _ _ _ _ _ H) as (R1 & _ & _ & _ & _ & _ & R7 & _ & _ & _ & R). destruct PM as (_ & _ & PN & _).
  pose proof (run_symmetric _ _ _ _ _ _ _ _ _ _ H TG AB SC PN) as SY. exists q. split.
  { intros c Hc. exists (F c). split; [apply D; exact Hc|]. apply (HQ c Hc). }
  intros c Hc Ha ia ir t Hp. assert (Hc' : member (p_ens (q_p s)) c) by (rewrite R7; exact Hc). assert (Ht : member (p_ens p) (twin c)) by (destruct Ha as [-> | ->]; cbn; auto). assert (Ht' : member (p_ens (q_p s)) (twin c)) by (rewrite R7; exact Ht).
  assert (SS : f_scale (F (twin c)) = f_scale (F c)).
  { destruct (R c Hc) as (f1 & f1' & E1 & E1' & _ & S1 & _). destruct (R (twin c) Ht) as (f2 & f2' & E2 & E2' & _ & S2 & _). destruct D as (DF & _). rewrite (DF c Hc') in E1'. rewrite (DF _ Ht') in E2'. injection E1' as ->. injection E2' as ->. rewrite S1, S2. exact (SC c f1 f2 Hc Ha E1 E2). }
  assert (AB' : po_ab (p_opt (q_p s)) = true) by (rewrite R1; exact AB). pose proof (MI AB' c Hc' Ha ia ir t Hp) as MM. pose proof (SY ia ir t Hp) as SN.
  destruct (HQ c Hc') as (_ & V1). destruct (HQ _ Ht') as (_ & V2). destruct (V1 (pos g (Na g - 1 - ia) ir) t) as (X1 & X2). destruct (V2 (pos g ia ir) t) as (Y1 & Y2). rewrite SN in Y1, Y2.
  destruct (Req_dec (nf (pos g (Na g - 1 - ia) ir) t) 0) as [Z|Z]; [rewrite X2, Y2 by exact Z; reflexivity|]. rewrite X1, Y1 by exact Z. rewrite SS, MM. reflexivity.
Qed.

(** ** Chemical potentials set by hand *)
Definition with_homo (h : comp -> option R) (p : part) : part := with_f p (fun c => match p_f p c with Some f => Some (fhomo f (fun _ _ => h c)) | None => None end).
Lemma homo_frags : forall h p F, frags p F -> frags (with_homo h p) (fun c => fhomo (F c) (fun _ _ => h c)).
Proof. intros h p F H c Hc. cbn [with_homo with_f p_f p_ens] in *. rewrite (H c Hc). reflexivity. Qed.
Lemma forN_ex : forall (S : Type) n (f : nat -> S -> res S) s, (forall i x, (i < n)%nat -> exists y, f i x = Ok y) -> exists y, forN n f s = Ok y.
Proof. intros S n f s H. destruct (forN_total S (fun _ _ => True) n f s Logic.I) as (y & E & _); eauto. intros i x Hi _. destruct (H i x Hi) as (y & E). eauto. Qed.
Lemma chem_total : forall p F, frags p F -> (forall c, member (p_ens p) c -> of_a c -> k_lv (f_ks (F (twin c))) = k_lv (f_ks (F c)) /\ k_cols (f_ks (F (twin c))) = k_cols (f_ks (F c))) -> exists u, inv_chempot p = Ok u.
Proof.
  intros p F H HS. assert (L : forall fa fb ub ua, k_lv (f_ks fb) = k_lv (f_ks fa) /\ k_cols (f_ks fb) = k_cols (f_ks fa) -> exists u, chem_loop fa fb ub ua = Ok u).
  { intros fa fb ub ua (S1 & S2). unfold chem_loop. apply (forN_ex _ _ _ _). intros i u Hi. apply (forN_ex _ _ _ _). intros j u' Hj. unfold chem_step, sol_at. rewrite S1, S2.
    replace (i <? k_lv (f_ks fa))%nat with true by (symmetry; apply Nat.ltb_lt; exact Hi). replace (j <? k_cols (f_ks fa))%nat with true by (symmetry; apply Nat.ltb_lt; exact Hj). cbn [andb bind]. eauto. }
  assert (Sa := HS Ca Logic.I (or_introl eq_refl)). cbn [twin] in Sa.
  unfold inv_chempot, get_f. rewrite (H Ca), (H Cb) by exact Logic.I. cbn [have bind]. destruct (L (F Ca) (F Cb) (- 1 / feps) (- 1 / feps) Sa) as (u1 & ->). cbn [bind].
  destruct (p_ens p) eqn:E; [|cbn [bind]; eauto]. assert (SA := HS CA eq_refl (or_intror eq_refl)). cbn [twin] in SA. rewrite (H CA), (H CB) by (rewrite E; reflexivity). cbn [have bind]. destruct (L (F CA) (F CB) (- 1 / feps) u1 SA) as (u2 & ->). cbn [bind]. eauto.
Qed.
(** An ensemble with ab_sym whose solvers of fragment A have the given levels, and one without. *)
Lemma chem_ab_case : forall h, exists p F u, frags p F /\ p_ens p = true /\ po_ab (p_opt p) = true /\ (forall c i j, member (p_ens p) c -> of_a c -> place (f_ks (F c)) i j -> f_homo (F (twin c)) i j = None) /\ homo_of_a p F h /\ inv_chempot p = Ok u.
Proof.
  intros h. destruct (two_nu 1 (1 / 2) (1 / 2)) as (p & F & I & HF & EN & AB & _); [lra|lra|]. set (hh := fun c => match c with CA => Some h | _ => None end). pose proof (homo_frags hh p F HF) as HH.
  assert (P : forall c, k_lv (f_ks (F c)) = 1%nat /\ k_cols (f_ks (F c)) = 2%nat).
  { intros c. assert (M : member (p_ens p) c) by (rewrite EN; destruct c; cbn; auto). destruct (w_place _ _ _ _ _ _ c (F c) I) as ((A & B & _) & _); auto. destruct (w_setup "none" true false 1 1 (1/2) (1/2)) as (p2 & I2 & _ & _ & _ & _ & _ & _ & _ & SY & _); auto; [lra|]. rewrite I in I2. injection I2 as ->. exact SY. }
  destruct (chem_total (with_homo hh p) _ HH) as (u & U). { intros c _ _. cbn [fhomo f_ks]. destruct (P c) as (-> & ->). apply P. }
  exists (with_homo hh p), (fun c => fhomo (F c) (fun _ _ => hh c)), u. split; [exact HH|]. split; [exact EN|]. split; [exact AB|]. split; [intros c i j _ [-> | ->] _; reflexivity|]. split; [|exact U].
  exists CA, 0%nat, 0%nat. split; [exact EN|]. split; [right; reflexivity|]. split; [|reflexivity]. unfold place. cbn [fhomo f_ks]. destruct (P CA) as (-> & ->). lia.
Qed.
Lemma chem_b_case : forall h, exists p F u, frags p F /\ p_ens p = false /\ po_ab (p_opt p) = false /\ (0 < k_lv (f_ks (F Ca)))%nat /\ (0 < k_cols (f_ks (F Ca)))%nat /\
  f_homo (F Cb) (k_lv (f_ks (F Ca)) - 1) (k_cols (f_ks (F Ca)) - 1) = Some h /\ homo_of_a p F (h + 1) /\ inv_chempot p = Ok u.
Proof.
  intros h. destruct (w_setup "none" false false 1 1 1 1) as (p & I & _ & AB & _ & _ & _ & _ & _ & SY & _); auto; [tauto|]. destruct (init_new _ _ _ _ _ _ _ _ _ I) as (F & HF & _).
  set (hh := fun c => match c with Ca => Some (h + 1) | Cb => Some h | _ => None end). pose proof (homo_frags hh p F HF) as HH.
  assert (P : forall c, member (p_ens p) c -> k_lv (f_ks (F c)) = 1%nat /\ k_cols (f_ks (F c)) = 2%nat).
  { intros c M. destruct (w_place _ _ _ _ _ _ c (F c) I) as ((A & B & _) & _); auto. }
  destruct (chem_total (with_homo hh p) _ HH) as (u & U). { intros c Hc Ha. assert (Ht : member (p_ens p) (twin c)) by (destruct Ha as [-> | ->]; cbn; auto). cbn [fhomo f_ks]. destruct (P c Hc) as (-> & ->). apply P. exact Ht. }
  exists (with_homo hh p), (fun c => fhomo (F c) (fun _ _ => hh c)), u. split; [exact HH|]. destruct (new_weights _ _ _ _ _ _ _ _ _ I) as (_ & _ & EN & _). split; [apply EN; reflexivity|]. split; [exact AB|]. cbn [fhomo f_ks f_homo]. destruct (P Ca Logic.I) as (-> & ->). split; [lia|]. split; [lia|]. split; [reflexivity|]. split; [|exact U].
  exists Ca, 0%nat, 0%nat. split; [exact Logic.I|]. split; [left; reflexivity|]. split; [|reflexivity]. unfold place. cbn [fhomo f_ks]. destruct (P Ca Logic.I) as (-> & ->). lia.
Qed.

(** ** The default settings of Partition.scf *)
Lemma defaults : forall p o, psc_options p [] = Ok o -> ps_cont o = false /\ ps_target o = false /\ ps_iter o = true /\ ps_auto o = false /\ ps_fa o = false /\ ps_fb o = false /\ ps_sdft o = false /\ ps_alpha o = [82 / 100].
Proof. intros p o H. unfold psc_options in H. destruct (po_iso (p_opt p)); injection H as <-; repeat (split; [reflexivity|]); reflexivity. Qed.

(** ** Two isolated calculations with the same fragment A *)
Lemma passes_first : forall g w sched d p o n l s, passes g w sched d p o (S n) l s -> exists l1 s1, passes g w sched d p o 1 l1 s1.
Proof.
  intros g w sched d p o n. induction n as [|n IH]; intros l s H; [eauto|]. inversion H; subst. eauto.
Qed.
Definition w_plain : dict := [("iterative", VB false)].
Lemma w_iso_one : forall Za Zb, exists p o l s, partition_init g22 Za Zb 2 w_spec 1 1 w_iso = Ok p /\ po_iso (p_opt p) = true /\ po_ab (p_opt p) = false /\ p_ens p = false /\
  passes g22 w_env w_sched w_plain p o 1 l s /\ ps_iter o = false /\ ps_sdft o = false.
Proof.
  intros Za Zb. destruct (w_iso_runs Za Zb 1 1) as (p & _ & _ & _ & _ & H & ISO & AB & _); [tauto|]. exists p.
  assert (O : exists o, psc_options p w_plain = Ok o /\ ps_target o = false /\ ps_cont o = false /\ ps_auto o = false /\ ps_alpha o = [82 / 100] /\ ps_maxit o = 50%Z /\ ps_tol o = / 10 ^ 7 /\ ps_iter o = false /\ ps_sdft o = false).
  { unfold psc_options, configure_partition_scf. eexists. split; [reflexivity|]. repeat split. }
  destruct O as (o & O & T & C & A & AL & M & TO & IT & SD). pose proof (init_inv _ _ _ _ _ _ _ _ _ H) as (d & CD & OO & _ & P & _ & _ & _ & _ & _ & _ & _ & V & EN & _).
  destruct (scf_works 0 g22 w_env w_sched w_plain p o 1%nat) as (s & E); auto.
  - rewrite g22_n. lia.
  - rewrite AL. left. reflexivity.
  - lia.
  - left. exact ISO.
  - intros _. rewrite V. eexists. reflexivity.
  - eapply w_equipped; eauto. rewrite OO. injection CD as <-. reflexivity.
  - intros I. unfold inverting in I. rewrite ISO, andb_false_r in I. discriminate.
  - intros I. unfold inverting in I. rewrite ISO, andb_false_r in I. discriminate.
  - destruct (scf_one_pass _ _ _ _ _ _ E) as (o2 & n2 & l2 & O2 & X2 & Z2). rewrite O in O2. injection O2 as <-. destruct Z2 as (m & ->); [lia|rewrite TO|].
    + assert (1 <= 10 ^ 7) by (apply pow_R1_Rle; lra). assert (/ 10 ^ 7 <= / 1) by (apply Rinv_le_contravar; lra). lra.
    + destruct (passes_first _ _ _ _ _ _ _ _ _ X2) as (l1 & s1 & X1). exists o, l1, s1. repeat (split; [assumption|]). split; [|auto]. destruct EN as [(_ & _ & EN & _)|(X & _)]; [exact EN|lra].
Qed.
Lemma w_iso_pair : forall Za Zb Zb', exists p1 p2 o l1 l2 s1 s2 f1 f2, p_Za p1 = Za /\ p_Za p2 = Za /\ p_Zb p1 = Zb /\ p_Zb p2 = Zb' /\ passes g22 w_env w_sched w_plain p1 o 1 l1 s1 /\ passes g22 w_env w_sched w_plain p2 o 1 l2 s2 /\
  po_iso (p_opt p1) = true /\ po_iso (p_opt p2) = true /\ ps_iter o = false /\ computed p1 Ca /\ computed p2 Ca /\ p_f p1 Ca = Some f1 /\ p_f p2 Ca = Some f2 /\ f_ks f1 = f_ks f2.
Proof.
  intros Za Zb Zb'. destruct (w_iso_one Za Zb) as (p1 & o1 & l1 & s1 & H1 & I1 & A1 & _ & X1 & T1 & _). destruct (w_iso_one Za Zb') as (p2 & o2 & l2 & s2 & H2 & I2 & A2 & _ & X2 & _).
  pose proof (init_inv _ _ _ _ _ _ _ _ _ H1) as (d1 & C1 & O1 & _ & _ & Z1 & B1 & _ & _ & _ & _ & _ & _ & _ & F1). pose proof (init_inv _ _ _ _ _ _ _ _ _ H2) as (d2 & C2 & O2 & _ & _ & Z2 & B2 & _ & _ & _ & _ & _ & _ & _ & F2).
  rewrite C1 in C2. injection C2 as <-. assert (OE : p_opt p1 = p_opt p2) by congruence.
  assert (o2 = o1). { pose proof (passes_start _ _ _ _ _ _ _ _ _ X1) as (Y1 & _). pose proof (passes_start _ _ _ _ _ _ _ _ _ X2) as (Y2 & _). unfold psc_options in *. rewrite OE in Y1. congruence. } subst o2.
  destruct (F1 Ca Logic.I) as (f1 & K1 & E1). destruct (F2 Ca Logic.I) as (f2 & K2 & E2). rewrite OE, K2 in K1. injection K1 as <-.
  exists p1, p2, o1, l1, l2, s1, s2. do 2 eexists. split; [exact Z1|]. split; [exact Z2|]. split; [exact B1|]. split; [exact B2|]. repeat (split; [eassumption|]). split; [split; [exact Logic.I|intros _; left; reflexivity]|]. split; [split; [exact Logic.I|intros _; left; reflexivity]|]. split; [exact E1|]. split; [exact E2|]. reflexivity.
Qed.
