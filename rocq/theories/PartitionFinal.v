(** Partition: the energies reported after a pass. *)
From Coq Require Import Reals List Arith Lia Lra ZArith Bool String.
From Verif Require Import Base BaseLemmas GridModel GridSpec GridProofs HartreeModel SolverModel SolverSpec LibxcModel OptionsModel KSModel KSSpec KSProofs KSThms KSLoop KSEnergy KSTotal
  InverterModel PartitionModel PartitionSpec PartitionBase PartitionDens PartitionFrame PartitionEnergy PartitionEp PartitionTotal PartitionLoop PartitionStep PartitionPass PartitionKeep PartitionScf PartitionRun.
Import ListNotations.
Local Open Scope R_scope.

(** the state in which the energies of a pass are evaluated *)
Lemma pass_ready : forall g w sched d p o n l s, passes g w sched d p o (S n) l s -> exists p5 F e, energy g (pe_env w) p5 = Ok (q_p s) /\ psame p5 (q_p s) /\ energies p5 F e /\
  (forall c, computed p5 c -> evaluated g (pe_env w) (f_ks (F c))) /\
  (ps_target o = false -> exists m na nb nf q, settled g p5 F m na nb nf q /\ p_nf (q_p s) = Some nf).
Proof.
  intros g w sched d p o n l s H. pose proof (run_twins _ _ _ _ _ _ _ _ _ H) as TW. destruct (run_static _ _ _ _ _ _ _ _ _ H) as (R1 & _ & _ & _ & _ & _ & R7 & _ & _ & _ & R).
  apply passes_S in H. destruct H as (l0 & s0 & HP & _ & B & _). destruct (run_static _ _ _ _ _ _ _ _ _ HP) as (U1 & _ & _ & _ & _ & _ & U7 & _).
  apply body_inv in B. destruct B as (p' & r & fl & W & _ & ->). rewrite next_p in *. pose proof (pass_static _ _ _ _ _ _ _ W) as PS. pose proof (work_frag _ _ _ _ _ _ _ W) as WF.
  apply work_inv in W. destruct W as (p1 & p2 & p3 & pv & p4 & p5 & W1 & W2 & W3 & W4 & W5 & W6 & W7 & _).
  pose proof (energy_same _ _ _ _ W7) as S7. pose proof (psame_pstat _ _ S7) as T7.
  assert (O5 : p_opt p5 = p_opt p) by (destruct S7 as (<- & _); exact R1). assert (N5 : p_ens p5 = p_ens p) by (destruct S7 as (_ & _ & _ & _ & _ & _ & <- & _); exact R7).
  assert (X : forall c, member (p_ens p) c -> exists f f', p_f p5 c = Some f /\ p_f p' c = Some f' /\ fsame f f').
  { intros c Hc. destruct (R c Hc) as (_ & f' & _ & F' & _). destruct (psame_f _ _ _ _ S7 F') as (f & A & B). eauto. }
  assert (EV : forall c, computed p c -> exists f e, p_f p5 c = Some f /\ k_E (f_ks f) = Some e /\ evaluated g (pe_env w) (f_ks f)).
  { intros c Hc. destruct WF as (q3 & qv & vp & _ & _ & _ & _ & _ & _ & WF). destruct (WF c) as (f & fh & fv & fs & f' & A1 & A2 & A3 & A4 & A5 & A6 & A7 & A8 & _); [apply computed_in; unfold computed; rewrite U1, U7; exact Hc|].
    apply step_inv in A6. destruct A6 as (_ & x & k1 & k2 & m & nout & _ & _ & _ & _ & _ & _ & _ & G1 & (e & G2) & _). destruct (psame_f _ _ _ _ S7 A7) as (f5 & B1 & (B2 & _)). exists f5, e. split; auto. rewrite <- B2, A8. auto. }
  destruct (X Ca Logic.I) as (fd & _ & _ & _ & _). set (F := fun c => match p_f p5 c with Some f => f | None => fd end).
  assert (HF : frags p5 F). { intros c Hc. rewrite N5 in Hc. destruct (X c Hc) as (f & _ & A & _). unfold F. rewrite A. reflexivity. }
  assert (EE : forall c, member (p_ens p) c -> exists e, k_E (f_ks (F c)) = Some e).
  { intros c Hc. destruct (source_computed p c Hc) as (S1 & S2). destruct (EV _ S1) as (f & e & E1 & E2 & _). destruct S2 as [S2|(AB & S2 & S3)].
    - rewrite S2 in *. exists e. unfold F. rewrite E1. exact E2.
    - destruct (TW AB _ (proj1 S1) S3) as (a & b & T1 & T2 & (_ & _ & _ & T3 & _)). rewrite <- S2 in T2. destruct (psame_f _ _ _ _ S7 T1) as (a' & Y1 & (Y2 & _)). destruct (psame_f _ _ _ _ S7 T2) as (b' & Y3 & (Y4 & _)).
      exists e. unfold F. rewrite Y3. rewrite <- Y4, T3, Y2. congruence. }
  destruct (EE Ca Logic.I) as (ed & _).
  exists p5, F, (fun c => match k_E (f_ks (F c)) with Some e => e | None => ed end). split; auto. split; auto. split; [split; auto; intros c Hc; rewrite N5 in Hc; destruct (EE c Hc) as (e & ->); reflexivity|].
  split. { intros c Hc. unfold computed in Hc. rewrite O5, N5 in Hc. destruct (EV c Hc) as (f & e & E1 & _ & E3). unfold F. rewrite E1. exact E3. }
  intros T. destruct (proto_settled _ _ _ _ W6 T) as (F5 & m & na & nb & nf & q & ST). exists m, na, nb, nf, q.
  assert (FE : forall c, member (p_ens p5) c -> F5 c = F c). { intros c Hc. destruct ST as ((D1 & _) & _). pose proof (D1 c Hc) as A. rewrite (HF c Hc) in A. congruence. }
  split.
  - destruct ST as ((D1 & D2) & (P1 & P2 & P3 & P4 & P5 & P6) & Q & M). split; [split; auto; intros c Hc; rewrite <- FE by auto; auto|]. split; [|split].
    + repeat (split; [solve [auto]|]).
      assert (G : forall l k s, (forall c, In c l -> member (p_ens p5) c) -> group (po_ess (p_opt p5)) (p_pol p5) F m l k s = group (po_ess (p_opt p5)) (p_pol p5) F5 m l k s).
      { intros l1 k s1 HL. unfold group. apply lsum_ext. intros c Hc. rewrite (FE c (HL c Hc)). reflexivity. }
      split; [|split; [|exact P6]]; intros; rewrite G; auto; intros c Hc; destruct (p_ens p5); simpl in Hc; intuition (subst; simpl; auto).
    + intros c Hc. rewrite <- FE by auto. auto.
    + auto.
  - destruct S7 as (_ & _ & _ & _ & _ & _ & _ & _ & _ & _ & _ & -> & _). apply ST.
Qed.
Lemma ready_frame : forall g w sched d p o n l s p5 F F0, passes g w sched d p o n l s -> psame p5 (q_p s) -> frags p5 F -> frags p F0 ->
  p_opt p5 = p_opt p /\ p_pol p5 = p_pol p /\ p_Za p5 = p_Za p /\ p_Zb p5 = p_Zb p /\ p_ens p5 = p_ens p /\ p_va p5 = p_va p /\ p_vb p5 = p_vb p /\
  forall c, member (p_ens p) c -> frame (f_ks (F0 c)) (f_ks (F c)) /\ f_scale (F c) = f_scale (F0 c) /\ step_size (ps_alpha o) c = Some (f_alpha (F c)).
Proof.
  intros g w sched d p o n l s p5 F F0 H (A1 & A2 & A3 & A4 & _ & _ & A7 & A8 & A9 & _ & _ & _ & _ & A14) HF HF0. destruct (run_static _ _ _ _ _ _ _ _ _ H) as (R1 & R2 & R3 & R4 & _ & _ & R7 & R8 & R9 & _ & R).
  repeat (split; [congruence|]). intros c Hc. destruct (R c Hc) as (f & f' & X1 & X2 & X3 & X4 & X5 & _). rewrite (HF0 c Hc) in X1. injection X1 as <-. specialize (A14 c).
  assert (Hc' : member (p_ens p5) c) by (rewrite <- A7, R7; exact Hc). rewrite (HF c Hc'), X2 in A14. destruct A14 as (B1 & B2 & _ & B4 & _). rewrite <- B1, <- B2, <- B4. auto.
Qed.
(** * Bookkeeping of every pass *)
Theorem run_bookkeeping : forall g w sched d p o n l s, passes g w sched d p o (S n) l s -> exists Ef Ep E, p_E (q_p s) "Ef"%string = Some Ef /\ p_T (q_p s) "Ep"%string = Some (SC Ep) /\ p_T (q_p s) "E"%string = Some (SC E) /\
  E = Ef + Ep + p_Za p * p_Zb p / (2 * ga g) /\ q_oldE s = E /\ (po_iso (p_opt p) = true -> Ep = 0).
Proof.
  intros g w sched d p o n l s H. destruct (pass_ready _ _ _ _ _ _ _ _ _ H) as (p5 & F & e & E1 & E2 & E3 & _). destruct (run_static _ _ _ _ _ _ _ _ _ H) as (R1 & R2 & R3 & R4 & _).
  pose proof (energy_parts _ _ _ _ _ _ E3 E1) as EP. cbv zeta in EP. destruct EP as (_ & _ & P3 & _ & _ & _ & _ & _ & _ & _ & _ & _ & Ep & P13 & _ & P15).
  apply passes_S in H. destruct H as (l0 & s0 & _ & _ & B & _). destruct (body_residual _ _ _ _ _ _ B) as (E & nf & dn & B1 & _ & B3 & _).
  rewrite B1 in P15. injection P15 as P15. destruct Ep as [Ep|v]; [|discriminate P15]. cbn [sv_op] in P15. injection P15 as P15.
  assert (ZA : p_Za p5 = p_Za p) by (destruct E2 as (_ & _ & <- & _); auto). assert (ZB : p_Zb p5 = p_Zb p) by (destruct E2 as (_ & _ & _ & <- & _); auto). rewrite ZA, ZB in P15.
  eexists _, Ep, E. split; [exact P3|]. split; [exact P13|]. split; [exact B1|]. split; [exact P15|]. split; auto.
  intros I. apply energy_mid in E1. destruct E1 as (q2 & q3 & M1 & M2 & _ & _ & _ & _ & _ & _ & _ & _ & _ & M12 & _).
  unfold partition_energy in M1. assert (O : p_opt q2 = p_opt p) by (destruct M2 as (-> & _); destruct E2 as (<- & _); exact R1). rewrite O, I in M1. injection M1 as <-. rewrite M12 in P13. cbn [set_E set_T p_T] in P13. rewrite aset_other, aset_same in P13 by discriminate. injection P13 as ->. reflexivity.
Qed.

(** * The molecular functional (C50) *)
Theorem run_reassembles : forall g w sched d p o n l s0 s F0, passes g w sched d p o n l s0 -> psc_test o s0 = Ok true -> psc_body g w o (sched (q_iter s0)) s0 = Ok s ->
  ps_target o = false -> frags p F0 -> at_nuclei p F0 -> belongs p F0 ->
  po_int (p_opt p) = "dft"%string -> po_hxc (p_opt p) = "exact"%string -> po_kin (p_opt p) = "inversion"%string -> po_iso (p_opt p) = false ->
  (po_ab (p_opt p) = false /\ p_ens p = false) \/
  (po_ab (p_opt p) = true /\ mirror_invariant g /\ (forall k, (k < Nelem g)%nat -> p_vb p k = mirror1 g (p_va p) k) /\ forall c, member (p_ens p) c -> of_a c -> f_scale (F0 (twin c)) = f_scale (F0 c)) ->
  exists iv T vh nf nf0 x c, p_inv (q_p s) = Some iv /\ get_Ts g iv = Ok (Fin T) /\ p_nf (q_p s) = Some nf /\ p_nf (q_p s0) = Some nf0 /\
    v_hartree g (e_spL (pe_env w)) (e_spU (pe_env w)) (A1 (fun k => sumR (p_pol p) (fun s => nf k s))) = Ok vh /\
    get_xc g (e_lib (pe_env w)) (po_fam (p_opt p)) (po_xid (p_opt p)) (p_pol p) nf0 = Ok x /\ get_xc g (e_lib (pe_env w)) (po_fam (p_opt p)) (po_cid (p_opt p)) (p_pol p) nf0 = Ok c /\
    p_T (q_p s) "Et"%string = Some (SC (T + nuclear_total g p nf + 1 / 2 * integrate1 g (fun k => sumR (p_pol p) (fun s => nf k s) * entry vh k 0) + fst (fst x) + fst (fst c))).
Proof.
  intros g w sched d p o n l s0 s F0 H T B HT HF0 HN HB Hi Hh Hk Hs D.
  pose proof (pass_step _ _ _ _ _ _ _ _ _ _ H T B) as H1. destruct (pass_ready _ _ _ _ _ _ _ _ _ H1) as (p5 & F & e & E1 & E2 & E3 & E4 & E5). destruct (E5 HT) as (m & na & nb & nf & q & ST & NF). clear E5.
  destruct (ready_frame _ _ _ _ _ _ _ _ _ _ _ _ H1 E2 (proj1 E3) HF0) as (G1 & G2 & G3 & G4 & G7 & G8 & G9 & GF).
  destruct (run_static _ _ _ _ _ _ _ _ _ H) as (Q1 & Q2 & _).
  assert (X : exists nf0 x c, p_nf (q_p s0) = Some nf0 /\ get_xc g (e_lib (pe_env w)) (po_fam (p_opt p)) (po_xid (p_opt p)) (p_pol p) nf0 = Ok x /\ get_xc g (e_lib (pe_env w)) (po_fam (p_opt p)) (po_cid (p_opt p)) (p_pol p) nf0 = Ok c /\ p_x p5 = Some (fst x) /\ p_c p5 = Some (fst c)).
  { apply body_inv in B. destruct B as (p' & r & fl & W & _ & ->). rewrite next_p in *. destruct (work_frag _ _ _ _ _ _ _ W) as (p3 & pv & vp & X1 & X2 & X3 & _ & X5 & X6 & _).
    assert (O3 : p_opt p3 = p_opt p) by (rewrite (proj1 X2); exact Q1). assert (PL : p_pol p3 = p_pol p) by (destruct X2 as (_ & -> & _); exact Q2).
    unfold psc_vp in X1. rewrite O3, Hs in X1. unfold partition_potential in X1. destruct (String.eqb (po_vp (p_opt p3)) "component").
    - destruct (vp_component g w p3) as [q3|] eqn:V; [|discriminate]. cbn [bind] in X1. destruct (attr (p_V q3) "vp"); [|discriminate]. cbn [bind] in X1. injection X1 as -> _.
      destruct (component_x _ _ _ _ V) as (nf0 & x & c & Y1 & Y2 & Y3 & Y4 & Y5); [rewrite O3; exact Hi|]. rewrite O3, PL in *. exists nf0, x, c. split; [congruence|]. split; auto. split; auto.
      pose proof (energy_yk _ _ _ _ E1) as (Z1 & Z2 & _). rewrite <- Z1, <- Z2, X5, X6. auto.
    - exfalso. destruct (vp_inversion p3) eqn:V; [|discriminate]. eapply vp_inversion_never; eauto. }
  destruct X as (nf0 & x & c & X1 & X2 & X3 & X4 & X5).
  destruct ST as (SD & SP & _ & SM). rewrite G1 in SM. rewrite G7 in SM.
  destruct (reassembles g (pe_env w) p5 F m na nb nf e (q_p s)) as (iv & T0 & vh & x' & c' & Y1 & Y2 & Y3 & Y4 & Y5 & Y6); auto.
  - intros c0 Hc k s1 Hs1. rewrite G7 in Hc. rewrite G2 in Hs1. destruct (GF c0 Hc) as ((_ & _ & _ & _ & _ & _ & V & _) & _). rewrite V, G8, G9. apply HN; auto.
  - intros c0 Hc. rewrite G7 in Hc. destruct (GF c0 Hc) as ((V1 & V2 & V3 & V4 & _) & _). rewrite V1, V2, V3, V4, G1, G2. apply HB. auto.
  - rewrite G1; auto.
  - rewrite G1; auto.
  - rewrite G1; auto.
  - rewrite G1; auto.
  - intros c0 Hc. apply E4. apply computed_in. exact Hc.
  - rewrite G1, G7. destruct D as [D|(D1 & D2 & D3 & D4)]; [left; exact D|right]. split; auto. split; auto. split; [rewrite G8, G9; exact D3|]. intros c0 Hc Ha. rewrite G7 in Hc.
    assert (Ht : member (p_ens p) (twin c0)) by (destruct Ha as [-> | ->]; simpl; auto). destruct (GF c0 Hc) as (_ & V1 & _). destruct (GF _ Ht) as (_ & V2 & _). split; [rewrite V1, V2; auto|]. apply SM; auto.
  - rewrite X4 in Y4. injection Y4 as <-. rewrite X5 in Y5. injection Y5 as <-. exists iv, T0, vh, nf, nf0, x, c. repeat (split; [assumption|]). rewrite G2 in Y3, Y6. split; auto. split; auto. split; auto.
    rewrite Y6. f_equal. f_equal. f_equal. f_equal. f_equal. f_equal. unfold nuclear_total. rewrite G2, G8, G9. reflexivity.
Qed.
