(** A concrete case for the kinetic energy of an inversion: constant densities, one orbital per component and in the inverter. *)
From Coq Require Import Reals List Arith Lia Lra ZArith Bool String.
From Verif Require Import Base BaseLemmas GridModel GridSpec GridProofs FDProofs OpProofs MaxPrinciple GridWitness GridMore HartreeModel SolverModel SolverSpec SolverProofs SolverThms SolverResp SolverWitness SolverCases LibxcModel OptionsModel OptionsProofs KSModel KSSpec KSProofs KSThms KSLoop KSEnergy KSTotal KSWit
  InverterModel InverterSpec InverterMore InverterWit PartitionModel PartitionSpec PartitionBase PartitionConstr PartitionDens PartitionFrame PartitionEp PartitionKin PartitionGood PartitionNew PartitionWit PartitionWit2 PartitionTwo PartitionTwoWit PartitionInvKin.
Import ListNotations.
Local Open Scope R_scope.
Local Opaque sinh cosh.

Definition inv_opt : dict := [("kinetic_part_type"%string, VS "inversion")].
Definition ksolver (e : R) : solver := one_solver (one_pot e) (Some one_phi) (Some (one_eig e)).
Definition kinv (e : R) : inverter := one_inv (one_opt "wuyang" false false 2) 1 1 (one_pot e) (Some one_phi) (Some (one_eig e)) true.
Lemma ksolver_ked : forall e, exists t a b n, ked_of g22 (ksolver e) t /\ calc_energy g22 (ksolver e) = Ok (a, b, Fin (integrate1 g22 t), n).
Proof.
  intros e. destruct (ked_full g22 (hamiltonian g22 0) (ksolver e) 1 (snd one_phi) (snd (one_eig e))) as (t' & a & b & c & n & K & H1 & H2); auto using g22_ok, one_enough.
  - simpl; lra.
  - apply one_enough.
  - intros i _. split; [apply (const_norm 1); lra|apply one_eigen].
  - subst c. exists t', a, b, n. split; [exact K|exact H1].
Qed.
Lemma ksolver_ked_pos : forall e t, ked_of g22 (ksolver e) t -> 0 < integrate1 g22 t.
Proof.
  intros e t H. unfold ked_of, calc_ked_WFI in H. rewrite nocc_form in H. fold (nfull (ksolver e)) in H.
  assert (N : nfull (ksolver e) = 1%nat).
  { destruct (nfull_bounds (ksolver e)) as (_ & A); [cbn; lra|]. replace (shx (ksolver e)) with 1 in A by (unfold shx, shell_size; cbn [ksolver one_solver s_N s_m s_pol Z.eqb Nat.eqb]; lra).
    destruct (nfull (ksolver e)) as [|[|m]]; [cbn in A; lra|reflexivity|]. rewrite !S_INR in A. pose proof (pos_INR m). lra. }
  rewrite N in H. cbn [ked_loop ksolver one_solver bind s_frac andb] in H. unfold phi_col in H. cbn [ksolver one_solver one_phi s_phi] in H. cbn in H. injection H as <-.
  unfold shell_scale. cbn [ksolver one_solver s_m s_pol Z.eqb Nat.eqb].
  set (nr := norm2 g22 (fun _ => 1)). assert (P : 0 < nr) by (apply (const_norm 1); lra).
  rewrite (integrate1_ext g22 _ (fun k => 2 * ((fun _ => / sqrt nr) k * (half_lap g22 (fun _ => / sqrt nr) k / gw g22 k)))).
  - rewrite integrate1_scal. apply Rmult_lt_0_compat; [lra|]. apply (kin_const22 (fun _ => / sqrt nr)). exists (/ sqrt nr). split; [apply Rinv_0_lt_compat, sqrt_lt_R0; exact P|reflexivity].
  - intros k K. rewrite Rplus_0_l. unfold ked_term. f_equal. rewrite hamiltonian_apply by (auto; exact g22_ok). cbn [Z.even]. replace (IZR 0 ^ 2) with 0 by (simpl; ring).
    assert (X : - (1 / 2) * gapply g22 (elap g22) (fun _ => 1 / sqrt nr) k = half_lap g22 (fun _ => / sqrt nr) k).
    { rewrite <- (kinop_half g22 (fun _ => 1 / sqrt nr) (fun _ => / sqrt nr)) by (intros; unfold Rdiv; ring). unfold kinop, gapply, matvec. rewrite <- sumR_scal. apply sumR_ext. intros. ring. }
    rewrite X. unfold Rdiv. ring.
Qed.
(** Assigning orbitals and energies to the components. *)
Definition give_sol (p : part) (s : solver) (e : kse) : part :=
  with_f p (fun c => option_map (fun f => fk f (set_EV (set_sol (f_ks f) (fun _ _ => s)) (Some e) (k_V (f_ks f)))) (p_f p c)).
Lemma w_invkin : forall nua nub x, (nua = 1 <-> nub = 1) -> exists p0 p1 p2 p F n na nb nf q e t iv' ts p', partition_init g22 1 1 1 one_spec nua nub inv_opt = Ok p0 /\
  calc_protomolecule (give_n p0 (fun _ _ _ => 1)) = Ok p1 /\ calc_Q p1 = Ok p2 /\ p = set_inv (give_sol p2 (ksolver x) e) (Some (kinv x)) /\
  settled g22 p F n na nb nf q /\ po_kin (p_opt p) = "inversion"%string /\ p_pol p = 1%nat /\ po_ab (p_opt p) = false /\ po_ess (p_opt p) = false /\ (p_ens p = false <-> nua = 1) /\
  (forall c, member (p_ens p) c -> f_scale (F c) = weight (p_ens p) false nua nub c /\ k_E (f_ks (F c)) = Some e /\ k_lv (f_ks (F c)) = 1%nat /\ k_cols (f_ks (F c)) = 1%nat /\ ked_of g22 (k_sol (f_ks (F c)) 0 0) t /\ E_Ts e = Fin (integrate1 g22 t) /\ 0 < integrate1 g22 t /\
     forall k, (k < Nelem g22)%nat -> n c k 0%nat <> 0) /\
  (forall k, (k < Nelem g22)%nat -> nf k 0%nat <> 0) /\
  get_ts_WFI g22 (kinv x) = Ok (iv', ts) /\ get_Ts g22 iv' = Ok (Fin (integrate1 g22 (fun k => sumR (i_cols (kinv x)) (fun s => ts k s)))) /\
  ep_kinetic g22 p = Ok p'.
Proof.
  intros nua nub x NU.
  assert (C : exists d, configure PartitionOptions inv_opt = Ok d /\ exists k, configure KohnShamOptions (ks_dict d) = Ok k) by (eexists; (split; [reflexivity|]); eexists; reflexivity). destruct C as (d & C & k & C2).
  destruct (init_exists g22 1 one_spec 1 1 nua nub inv_opt d k) as (p0 & I); auto.
  { intros c. exists 1%nat, 1%nat. repeat (split; [reflexivity|]); intros; cbn; lra. } { injection C as <-. discriminate. }
  pose proof (init_inv _ _ _ _ _ _ _ _ _ I) as (d' & C' & O & _ & P & _ & _ & _ & _ & _ & _ & _ & _ & EN & HF). rewrite C in C'. injection C' as <-.
  assert (Q : po_kin (p_opt p0) = "inversion"%string /\ po_ab (p_opt p0) = false /\ po_ess (p_opt p0) = false) by (rewrite O; injection C as <-; repeat split). destruct Q as (Q1 & Q2 & Q3).
  destruct (init_new _ _ _ _ _ _ _ _ _ I) as (F & FF & _).
  set (v' := fun (_ : comp) (_ : nat) (_ : nat) => 1). set (p1 := give_n p0 v').
  assert (D : densities p1 (fun c => fk (F c) (set_n (f_ks (F c)) (Some (v' c)))) v').
  { split; intros c M; [|reflexivity]. unfold p1, give_n. cbn [with_f p_f]. rewrite (FF c M). reflexivity. }
  assert (AF : all_f (fun f => some (k_n (f_ks f))) p1). { intros c M. destruct D as (D1 & D2). exists (fk (F c) (set_n (f_ks (F c)) (Some (v' c)))). split; [apply D1; exact M|]. eexists. reflexivity. }
  destruct (PartitionGood.proto_total 0 p1 AF) as (p2 & E2 & PF & PE & _ & _ & SN & PO). destruct (PartitionGood.Q_total p2) as (p3 & E3).
  { intros c M. rewrite PF. apply AF. rewrite <- PE. exact M. } { exact SN. }
  destruct (proto_density _ _ _ _ D E2) as (na0 & nb0 & nf0 & _ & _ & N3 & _ & _ & _ & N6 & _).
  destruct (Q_inv _ _ E3) as (nfq & NQ & WQ & BQ & _).
  assert (K0 : forall c, member (p_ens p0) c -> k_lv (f_ks (F c)) = 1%nat /\ k_cols (f_ks (F c)) = 1%nat /\ f_scale (F c) = weight (p_ens p0) false nua nub c).
  { intros c M. destruct (HF c M) as (f & F1 & F2). destruct (frag_init_inv _ _ _ _ _ _ _ F1) as (kk & -> & _ & _ & _ & L & CC & _). rewrite (FF c M) in F2. injection F2 as F2. rewrite F2, Q3. cbn [fscale new_frag f_ks f_scale]. auto. }
  destruct (settled_of g22 p1 _ v' p2 p3 D E2 E3) as (S1' & S2' & S3 & G & na & nb & nf & q & ST & SC).
  { intros A c M [-> | ->]; change (p_opt p1) with (p_opt p0) in A; congruence. }
  assert (KG : forall c, member (p_ens p0) c -> k_lv (f_ks (G c)) = 1%nat /\ k_cols (f_ks (G c)) = 1%nat).
  { intros c M. assert (M2 : member (p_ens p2) c) by (rewrite PE; exact M). destruct (BQ c M2) as (f & m & B1 & B2 & B3). assert (M3 : member (p_ens p3) c) by (rewrite S3; exact M). destruct ST as ((T1 & _) & _). rewrite (T1 c M3) in B3. injection B3 as B3. rewrite B3. cbn [fQ f_ks].
    rewrite PF in B1. destruct D as (D1 & _). rewrite (D1 c M) in B1. injection B1 as <-. cbn [fk f_ks set_n k_lv k_cols]. destruct (K0 c M) as (X1 & X2 & _). auto. }
  destruct (ksolver_ked x) as (t & a & b & n0 & KD & CE).
  set (e := mkE (fun _ => 0) (fun _ => Fin 0) (Fin (integrate1 g22 t)) [] 0 0 None None 0 0 (Fin 0) 0 (Fin 0)).
  set (p := set_inv (give_sol p3 (ksolver x) e) (Some (kinv x))).
  set (G' := fun c => fk (G c) (set_EV (set_sol (f_ks (G c)) (fun _ _ => ksolver x)) (Some e) (k_V (f_ks (G c))))).
  change (p_opt p1) with (p_opt p0) in *. change (p_pol p1) with (p_pol p0) in *. change (p_ens p1) with (p_ens p0) in *.
  assert (PF' : forall c, member (p_ens p0) c -> p_f p c = Some (G' c)).
  { intros c M. unfold p, give_sol. cbn [set_inv with_f p_f]. destruct ST as ((T1 & _) & _). rewrite (T1 c) by (rewrite S3; exact M). reflexivity. }
  assert (EP : p_ens p = p_ens p0) by exact S3. assert (EO : p_opt p = p_opt p0) by exact S1'. assert (EQ : p_pol p = 1%nat) by (rewrite <- P; exact S2').
  assert (ST' : settled g22 p G' v' na nb nf q).
  { destruct ST as ((T1 & T2) & T3 & T4 & T5). unfold frags in T1. rewrite S3 in T1, T2, T4, T5. split; [split; [intros c M; rewrite EP in M; auto|intros c M; rewrite EP in M; exact (T2 c M)]|]. split; [|split].
    - exact T3.
    - intros c M. rewrite EP in M. exact (T4 c M).
    - rewrite EO, Q2. discriminate. }
  assert (NZ : forall k, nf k 0%nat = 2).
  { intros k0. assert (p_nf p = Some nf) as X by apply ST'. assert (nf = nf0) as ->. { assert (p_nf p3 = p_nf p2) as Y by (rewrite WQ; reflexivity). change (p_nf p) with (p_nf p3) in X. congruence. }
    rewrite N6. unfold group. change (p_opt p1) with (p_opt p0). change (p_ens p1) with (p_ens p0). rewrite Q3. unfold v', comps. destruct (p_ens p0) eqn:EE; cbn [lsum fk f_scale].
    - destruct (K0 Ca Logic.I) as (_ & _ & ->). destruct (K0 Cb Logic.I) as (_ & _ & ->). destruct (K0 CA eq_refl) as (_ & _ & ->). destruct (K0 CB eq_refl) as (_ & _ & ->). unfold weight; rewrite ?Rmult_0_l, ?Rplus_0_r; field.
    - destruct (K0 Ca Logic.I) as (_ & _ & ->). destruct (K0 Cb Logic.I) as (_ & _ & ->). unfold weight; rewrite ?Rmult_0_l, ?Rplus_0_r; field. }
  destruct (ts_WFI_last g22 (kinv x) (fun _ _ => t)) as (iv' & ts & TS & TL); [cbn; lia|reflexivity|intros i j _ _; exact KD|].
  assert (TI : i_sol iv' = i_sol (kinv x) /\ i_opt iv' = i_opt (kinv x) /\ i_lv iv' = 1%nat /\ i_cols iv' = 1%nat).
  { destruct (ked_levels g22 1 (kinv x) (fun _ _ => t) 1) as (jv & J1 & (J2 & J3 & J4 & J5 & _) & _); [intros; exact KD|]. unfold get_ts_WFI in TS. change (if io_ess (i_opt (kinv x)) then 1%nat else i_cols (kinv x)) with 1%nat in TS. change (i_lv (kinv x)) with 1%nat in TS. rewrite J1 in TS. cbn [bind] in TS. injection TS as <- _. auto. }
  destruct TI as (T1 & T2 & T3 & T4).
  assert (TG : get_Ts g22 iv' = Ok (Fin (integrate1 g22 (fun k => sumR (i_cols (kinv x)) (fun s => ts k s))))).
  { rewrite (get_Ts_sum g22 iv' (fun _ _ => integrate1 g22 t)).
    - rewrite T2, T3, T4. change (io_ess (i_opt (kinv x))) with false. cbv iota. cbn [sumR]. do 2 f_equal. rewrite !Rplus_0_l. change (i_cols (kinv x)) with 1%nat. cbn [sumR]. apply integrate1_ext. intros j _. rewrite (TL 0%nat j) by (cbn; lia). ring.
    - intros i j _ _. rewrite T1. exists a, b, n0. exact CE. }
  assert (EK : exists p', ep_kinetic g22 p = Ok p').
  { unfold ep_kinetic. rewrite EO, Q1. change (String.eqb "inversion" "vonweiz") with false. change (String.eqb "inversion" "libxcke" || String.eqb "inversion" "paramke")%bool with false. rewrite String.eqb_refl. cbn iota.
    unfold epk_inversion. change (p_inv p) with (Some (kinv x)). cbn [have bind]. rewrite TS. cbn [bind fst snd]. assert (p_nf p = Some nf) as -> by apply ST'. cbn [have bind]. rewrite TG. cbn [fin bind].
    match goal with |- context [forL ?l ?h ?s] => destruct (forL_inv_total _ _ (fun _ => True) l h s Logic.I) as (r & -> & _) end.
    { intros c acc Hc _. apply in_comps_ab in Hc. rewrite EP in Hc. destruct Hc as (Hc & _). unfold get_f. rewrite (PF' c Hc). cbn [have bind]. destruct ST' as ((U1 & U2) & _ & U3 & _). rewrite EP in *. unfold getQ. rewrite (proj1 (U3 c Hc)).
      unfold frag_ts. destruct (KG c Hc) as (X1 & X2). change (k_lv (f_ks (G' c))) with (k_lv (f_ks (G c))). change (k_cols (f_ks (G' c))) with (k_cols (f_ks (G c))). rewrite X1, X2, EQ. rewrite (U2 c Hc). cbn [G' fk f_ks set_EV set_sol k_E k_sol have bind e E_Ts fin forN].
      unfold ked_of in KD. rewrite KD. cbn [bind Nat.ltb Nat.leb axis1]. eexists. split; [reflexivity|exact Logic.I]. }
    cbn [bind]. rewrite EO, Q2. destruct r as [r1 r2]. cbn [bind]. eexists. reflexivity. }
  destruct EK as (p' & EK). exists p0, p2, p3, p, G', v', na, nb, nf, q, e, t, iv', ts, p'.
  split; [exact I|]. split; [exact E2|]. split; [exact E3|]. split; [reflexivity|]. split; [exact ST'|]. rewrite EO, EP. do 2 (split; [assumption|]). do 2 (split; [assumption|]).
  split; [destruct EN as [(E1 & _ & E4 & _)|(E1 & _ & E4)]; rewrite E4; split; intros; auto; congruence|].
  split; [|split; [intros k0 _; rewrite NZ; lra|split; [exact TS|split; [exact TG|exact EK]]]].
  intros c M. destruct (KG c M) as (X1 & X2). split; [unfold G'; cbn [fk f_scale]; rewrite SC; cbn [fk f_scale]; apply (K0 c M)|]. split; [reflexivity|]. split; [exact X1|]. split; [exact X2|]. split; [exact KD|]. split; [reflexivity|]. split; [exact (ksolver_ked_pos _ _ KD)|]. intros. unfold v'. lra.
Qed.
