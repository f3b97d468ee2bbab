(** Partition: when the modes that interpolate with the overlap can be evaluated, and an ensemble on which the potential of overlap_hxc is
    not the derivative of its energy. *)
From Coq Require Import Reals List Arith Lia Lra ZArith Bool String.
From Coquelicot Require Import Coquelicot.
From Verif Require Import Base BaseLemmas GridModel GridSpec GridProofs GridWitness GridMore HartreeModel SolverModel SolverSpec SolverProofs SolverThms SolverWitness SolverCases LibxcModel OptionsModel OptionsProofs KSModel KSSpec KSProofs KSThms KSLoop KSEnergy KSTotal KSWit
  InverterModel InverterWit PartitionModel PartitionSpec PartitionBase PartitionConstr PartitionDens PartitionFrame PartitionEnergy PartitionEp PartitionKin PartitionTotal PartitionLoop PartitionStep PartitionPass PartitionScf PartitionRun PartitionFinal PartitionOverlap PartitionModes PartitionNew PartitionGood PartitionWit PartitionWit2 PartitionCorr.
Import ListNotations.
Local Open Scope R_scope.
Local Opaque sinh cosh.

(** A component after calc_density, calc_hxc_pot, energy and calc_Q. *)
Definition solved (f : frag) : Prop := some (k_n (f_ks f)) /\ some (f_Q f) /\
  (exists e E T, k_E (f_ks f) = Some e /\ E_E e = Fin E /\ E_Ts e = Fin T /\ some (E_Eh e) /\ some (E_Vhxc e)) /\
  some (V_vh (k_V (f_ks f))) /\ some (V_vx (k_V (f_ks f))) /\ some (V_vc (k_V (f_ks f))) /\ some (V_eh (k_V (f_ks f))) /\ some (V_ex (k_V (f_ks f))) /\ some (V_ec (k_V (f_ks f))).
Definition named (l : list string) (f : frag) : Prop := forall nm, In nm l -> some (f_V f nm).
Lemma solved_fsame : forall f f', fsame f f' -> solved f -> solved f'.
Proof. intros f f' (K & _ & Q & _) H. unfold solved in *. rewrite K, Q. exact H. Qed.
Lemma solved_same : forall p p', psame p p' -> all_f solved p -> all_f solved p'.
Proof.
  intros p p' (_ & _ & _ & _ & _ & _ & E & _ & _ & _ & _ & _ & _ & S) A c Hc. rewrite E in Hc. destruct (A c Hc) as (f & F & H). pose proof (S c) as X. rewrite F in X. destruct (p_f p' c) as [f'|]; [|contradiction]. exists f'. split; auto. eapply solved_fsame; eauto.
Qed.
Lemma solved_egood : forall f, solved f -> egood true false [] f.
Proof. intros f (A & B & (e & E & T & C1 & C2 & C3 & C4) & _ & _ & _ & D). split; auto. split; auto. split; [exists e, E, T; auto|]. split; [auto|]. split; [discriminate|]. intros ? []. Qed.

(** Attributes V of the components are only added. *)
Definition grown (p p' : part) : Prop := p_ens p' = p_ens p /\ forall c f, p_f p c = Some f -> exists f', p_f p' c = Some f' /\ forall nm, some (f_V f nm) -> some (f_V f' nm).
Lemma grown_refl : forall p, grown p p. Proof. intros p. split; eauto. Qed.
Lemma grown_trans : forall a b c, grown a b -> grown b c -> grown a c.
Proof. intros a b c (A & A') (B & B'). split; [congruence|]. intros d f F. destruct (A' d f F) as (f1 & F1 & H1). destruct (B' d f1 F1) as (f2 & F2 & H2). eauto. Qed.
Lemma grown_eq : forall a b, p_ens b = p_ens a -> p_f b = p_f a -> grown a b. Proof. intros a b E F. split; auto. rewrite F. eauto. Qed.
Lemma grown_frag : forall p c f f', get_f p c = Ok f -> (forall nm, some (f_V f nm) -> some (f_V f' nm)) -> grown p (set_frag p c f').
Proof.
  intros p c f f' H S. apply get_f_some in H. split; [reflexivity|]. intros d f0 F. cbn [set_frag with_f p_f]. destruct (comp_eqb_spec d c) as [->|N]; [|eauto]. rewrite H in F. injection F as <-. eauto.
Qed.
Lemma forL_grown : forall X (l : list X) body, (forall x p p', In x l -> body x p = Ok p' -> grown p p') -> forall p p', forL l body p = Ok p' -> grown p p'.
Proof.
  induction l as [|x l IH]; intros body H p p' E; simpl in E; [injection E as <-; apply grown_refl|]. destruct (body x p) as [q|] eqn:B; [|discriminate]. cbn [bind] in E.
  eapply grown_trans; [eapply H; [left; reflexivity|exact B]|]. eapply IH; [|exact E]. intros; eapply H; [right|]; eauto.
Qed.
Lemma named_grown : forall l p p', grown p p' -> all_f (named l) p -> all_f (named l) p'.
Proof. intros l p p' (E & G) A c Hc. rewrite E in Hc. destruct (A c Hc) as (f & F & H). destruct (G c f F) as (f' & F' & H'). exists f'. split; auto. intros nm Hn. auto. Qed.
Lemma overlap_grown : forall g p p', vp_overlap g p = Ok p' -> grown p p'.
Proof.
  intros g p p' H. unfold vp_overlap in H. destruct (axis1 (p_na p)) as [na|]; [|discriminate]. cbn [bind] in H. destruct (have (p_nb p)) as [nb|]; [|discriminate]. cbn [bind] in H. destruct (overlap_S _ _ _ _) as [S0|]; [|discriminate]. cbn [bind] in H. cbv zeta in H.
  match type of H with bind ?m _ = _ => destruct m as [p1|] eqn:E1; [|discriminate] end. cbn [bind] in H.
  eapply grown_trans; [eapply grown_trans|]; [apply (grown_eq p (set_E (set_E p "S" S0) "F" (erf (2 * S0)))); reflexivity| |].
  - eapply forL_grown; [|exact E1]. intros c q q' _ E. cbv beta in E. destruct (get_f q c) as [f|] eqn:F; [|discriminate]. cbn [bind] in E. injection E as <-. eapply grown_frag; eauto. intros. repeat apply fV_some. assumption.
  - eapply forL_grown; [|exact H]. intros c q q' _ E. cbv beta in E. destruct (get_f q c) as [f|] eqn:F; [|discriminate]. cbn [bind] in E. injection E as <-. eapply grown_frag; eauto. intros. repeat apply fV_some. assumption.
Qed.
Lemma corhar_grown : forall g p p', EnsCorHar g p = Ok p' -> grown p p'.
Proof.
  intros g p p' H. unfold EnsCorHar in H. destruct (negb (p_ens p)); [discriminate|].
  match type of H with bind ?m _ = _ => destruct m as [p1|] eqn:E1; [|discriminate] end. cbn [bind] in H.
  match type of H with bind ?m _ = _ => destruct m as [p2|] eqn:E2; [|discriminate] end. cbn [bind] in H.
  match type of H with bind ?m _ = _ => destruct m as [e|] eqn:E3; [|discriminate] end. cbn [bind] in H. injection H as <-.
  eapply grown_trans; [|eapply grown_trans; [|apply (grown_eq p2 (set_E p2 "Ehcor" e)); reflexivity]].
  - eapply forL_grown; [|exact E1]. intros c q q' _ E. cbv beta in E. destruct (get_f q c) as [f|] eqn:F; [|discriminate]. cbn [bind] in E. dm E. injection E as <-. eapply grown_frag; eauto.
  - eapply forL_grown; [|exact E2]. intros c q q' _ E. cbv beta in E. destruct (get_f q c) as [f|] eqn:F; [|discriminate]. cbn [bind] in E. dm E. injection E as <-. eapply grown_frag; eauto. intros. apply fV_some. assumption.
Qed.
Lemma corhar_total : forall g p, p_ens p = true -> all_f solved p -> exists p', EnsCorHar g p = Ok p'.
Proof.
  intros g p EN A. unfold EnsCorHar. rewrite EN. cbn [negb].
  assert (M : forall c, exists f n v, p_f p c = Some f /\ k_n (f_ks f) = Some n /\ V_vh (k_V (f_ks f)) = Some v).
  { intros c. destruct (A c) as (f & F & (n & Hn) & _ & _ & (v & Hv) & _); [rewrite EN; destruct c; simpl; auto|]. exists f, n, v. auto. }
  destruct (M Ca) as (fa & na & va & A1 & A2 & A3). destruct (M CA) as (fA & nA & vA & B1 & B2 & B3). destruct (M Cb) as (fb & nb & vb & C1 & C2 & C3). destruct (M CB) as (fB & nB & vB & D1 & D2 & D3).
  cbn [forL cross]. unfold get_f.
  repeat (cbn [set_frag with_f p_f p_pol comp_eqb have need bind fE fV f_ks f_E f_scale]; rewrite ?A1, ?A2, ?A3, ?B1, ?B2, ?B3, ?C1, ?C2, ?C3, ?D1, ?D2, ?D3). unfold attr. rewrite !aset_same. cbn [have bind]. eauto.
Qed.

(** What libxc and the Hartree solver have to answer. *)
Definition dft_available (g : grid) (w : env) (p : part) : Prop :=
  (forall n, exists x c vh, get_xc g (e_lib w) (po_fam (p_opt p)) (po_xid (p_opt p)) (p_pol p) n = Ok x /\ get_xc g (e_lib w) (po_fam (p_opt p)) (po_cid (p_opt p)) (p_pol p) n = Ok c /\
     v_hartree g (e_spL w) (e_spU w) (A2 (p_pol p) n) = Ok vh) /\ (forall n, exists vh, v_hartree g (e_spL w) (e_spU w) (A1 n) = Ok vh).
Lemma dft_parts_total : forall g w p, po_int (p_opt p) = "dft"%string -> all_f solved p -> dft_available g w p -> some (p_nf p) ->
  exists p', vp_hxc_parts g w p = Ok p' /\ all_f (named ["vp_h"; "vp_x"; "vp_c"]%string) p' /\ some (p_x p') /\ some (p_c p').
Proof.
  intros g w p I A (AV & _) (nf & NF). unfold vp_hxc_parts. cbv zeta. rewrite I. replace (String.eqb (po_hxc (p_opt p)) "exact" && String.eqb "dft" "ni")%bool with false by (rewrite andb_false_r; reflexivity). change (negb (String.eqb "dft" "dft")) with false. cbv iota.
  rewrite NF. cbn [have bind]. destruct (AV nf) as ([[ex epx] vx] & [[ec epc] vc] & vh & -> & -> & ->). cbn [bind]. set (q0 := set_xc _ _ _).
  destruct (all_run solved (named ["vp_h"; "vp_x"; "vp_c"]%string) (fun c q f => let V := k_V (f_ks f) in do fh <- have (V_vh V); do fx <- have (V_vx V); do fc <- have (V_vc V);
        let h := msub (arr_fun vh) fh in let x := msub vx fx in let c1 := msub vc fc in Ok (fV (fV (fV (fV f "vp_h" h) "vp_x" x) "vp_c" c1) "vp_hxc" (add3 h x c1)))
      (fun c p => do f <- get_f p c; let V := k_V (f_ks f) in do fh <- have (V_vh V); do fx <- have (V_vx V); do fc <- have (V_vc V);
        let h := msub (arr_fun vh) fh in let x := msub vx fx in let c1 := msub vc fc in Ok (set_frag p c (fV (fV (fV (fV f "vp_h" h) "vp_x" x) "vp_c" c1) "vp_hxc" (add3 h x c1)))) q0) as (p1 & E1 & W1 & A1).
  - intros ? ? ? ?. reflexivity.
  - intros c q. destruct (get_f q c) as [f|]; cbn [bind]; auto. cbv zeta. destruct (have (V_vh _)); cbn [bind]; auto. destruct (have (V_vx _)); cbn [bind]; auto. destruct (have (V_vc _)); reflexivity.
  - exact A.
  - intros c f (_ & _ & _ & (a & Ea) & (b & Eb) & (d & Ed) & _). cbv zeta. rewrite Ea, Eb, Ed. cbn [have bind]. eexists. split; [reflexivity|].
    intros nm Hn. simpl in Hn. destruct Hn as [<-|[<-|[<-|[]]]]; cbn [fV f_V]; unfold aset; cbn; eexists; reflexivity.
  - exists p1. split; [exact E1|]. split; [exact A1|]. rewrite W1. split; eexists; reflexivity.
Qed.
Lemma dft_energies_total : forall g w p, po_int (p_opt p) = "dft"%string -> all_f solved p -> dft_available g w p -> some (p_nf p) -> some (p_x p) -> some (p_c p) -> some (p_E p "Ehf"%string) -> some (p_E p "Exf"%string) -> some (p_E p "Ecf"%string) ->
  exists p', ep_dft g w p = Ok p' /\ some (p_E p' "Ep_h"%string) /\ some (p_E p' "Ep_x"%string) /\ some (p_E p' "Ep_c"%string) /\ p_E p' "Ep_pot"%string = p_E p "Ep_pot"%string /\ p_T p' = p_T p /\ p_f p' = p_f p.
Proof.
  intros g w p I A (_ & AV) (nf & NF) (x & X) (c0 & C) (eh & EH) (ex & EX) (ec & EC). unfold ep_dft. rewrite I.
  cbn -[forL integrate1 sum_cols exf_sum comps_ab attr]. rewrite NF. cbn [have bind]. destruct (AV (sum_cols (p_pol p) nf)) as (vh & ->). cbn [bind]. unfold attr. rewrite EH, EX, EC. cbn [have bind].
  assert (M : forall c, In c (comps_ab p) -> member (p_ens p) c) by (intros c Hc; apply in_comps_ab in Hc; apply Hc).
  match goal with |- context [forL ?l ?h ?s] => destruct (forL_inv_total _ _ (fun _ => True) l h s Logic.I) as (a & -> & _) end.
  { intros c s Hc _. destruct (A c (M c Hc)) as (f & F & _ & (q & HQ) & _ & _ & _ & _ & (h & Hh) & _). unfold ehf_step, get_f. rewrite F. cbn [have bind]. destruct (active f); cbn [bind]; [|eauto]. unfold getQ. rewrite HQ, Hh. cbn [have bind]. eauto. }
  cbn [bind]. rewrite X, C. cbn [have bind].
  assert (Y : forall e, (forall c f, member (p_ens p) c -> p_f p c = Some f -> some (e (k_V (f_ks f)))) -> exists a, exf_sum g p e = Ok a).
  { intros e He. unfold exf_sum. match goal with |- context [forL ?l ?h ?s] => destruct (forL_inv_total _ _ (fun _ => True) l h s Logic.I) as (b & -> & _) end; [|cbn [bind]; eauto].
    intros c s Hc _. destruct (A c (M c Hc)) as (f & F & _ & (q & HQ) & _). unfold get_f. rewrite F. cbn [have bind]. destruct (active f); [|eauto]. unfold getQ. rewrite HQ. cbn [bind]. destruct (He c f (M c Hc) F) as (y & ->). cbn [have bind]. eauto. }
  destruct (Y V_ex) as (a1 & ->). { intros c f Hc F. destruct (A c Hc) as (f' & F' & _ & _ & _ & _ & _ & _ & _ & HV & _). rewrite F in F'. injection F' as <-. exact HV. }
  cbn [bind]. destruct (Y V_ec) as (a2 & ->). { intros c f Hc F. destruct (A c Hc) as (f' & F' & _ & _ & _ & _ & _ & _ & _ & _ & HV). rewrite F in F'. injection F' as <-. exact HV. }
  cbn [bind]. eexists. split; [reflexivity|]. cbn. repeat (split; [eexists; reflexivity|]). repeat split.
Qed.
Definition touching (g : grid) (p : part) : Prop := exists na nb, p_na p = Some na /\ p_nb p = Some nb /\ forall k, (k < Nelem g)%nat -> 0 <= sumR (p_pol p) (fun s => na k s) * sumR (p_pol p) (fun s => nb k s).
Lemma touching_same : forall g p p', psame p p' -> touching g p -> touching g p'.
Proof. intros g p p' (_ & P & _ & _ & _ & _ & _ & _ & _ & A & B & _) (na & nb & H). exists na, nb. rewrite P, A, B. exact H. Qed.
Lemma overlap_ok : forall g p, all_f solved p -> touching g p -> exists p', vp_overlap g p = Ok p'.
Proof. intros g p A (na & nb & H1 & H2 & H3). apply (overlap_total g p na nb); auto. intros c Hc. destruct (A c Hc) as (f & F & _). eauto. Qed.
Definition overlap_mode (p : part) : Prop := po_hxc (p_opt p) = "overlap_xc"%string \/ (po_hxc (p_opt p) = "overlap_hxc"%string /\ p_ens p = true).
Definition evaluable (g : grid) (w : env) (p : part) : Prop := po_int (p_opt p) = "dft"%string /\ po_kin (p_opt p) = "none"%string /\ po_iso (p_opt p) = false /\ overlap_mode p /\ all_f solved p /\ dft_available g w p /\ some (p_nf p) /\ touching g p.
Lemma evaluable_same : forall g w p p', psame p p' -> evaluable g w p -> evaluable g w p'.
Proof.
  intros g w p p' S (H1 & H2 & H3 & H4 & H5 & H6 & H7 & H8). pose proof S as (O & P & _ & _ & _ & _ & E & _ & _ & _ & _ & N & _). unfold evaluable, overlap_mode, dft_available. rewrite O, P, E, N.
  do 4 (split; [assumption|]). split; [eapply solved_same; eauto|]. split; [assumption|]. split; [assumption|]. eapply touching_same; eauto.
Qed.
Lemma forL_holds : forall (X S : Type) (P : S -> Prop) (l : list X) (f : X -> S -> res S) s s', P s -> (forall x a b, In x l -> P a -> f x a = Ok b -> P b) -> forL l f s = Ok s' -> P s'.
Proof.
  intros X S P l f. induction l as [|x l IH]; intros s s' H K E; cbn [forL] in E; [injection E as <-; exact H|]. destruct (f x s) as [s1|] eqn:E1; [|discriminate]. cbn [bind] in E. eapply IH; [|intros; eapply K; [right|..]; eauto|exact E]. eapply K; eauto. left; reflexivity.
Qed.
Arguments forL_holds {X S} P.
Lemma overlap_energy_total : forall g w p, evaluable g w p -> some (p_x p) -> some (p_c p) -> some (p_E p "Ehf"%string) -> some (p_E p "Exf"%string) -> some (p_E p "Ecf"%string) ->
  exists p', ep_hxc g w p = Ok p' /\ some (p_E p' "Ep_hxc"%string) /\ p_E p' "Ep_pot"%string = p_E p "Ep_pot"%string /\ p_T p' = p_T p /\ grown p p'.
Proof.
  intros g w p EV X C EH EX EC. pose proof EV as (I & _ & _ & M & A & AV & NF & TO). destruct (dft_energies_total g w p I A AV NF X C EH EX EC) as (p1 & E1 & (h & H1) & (x & H2) & (c & H3) & H4 & H5 & H6).
  pose proof (ep_dft_same _ _ _ _ E1) as S1. pose proof (solved_same _ _ S1 A) as A1. pose proof (touching_same g _ _ S1 TO) as T1. pose proof S1 as (_ & _ & _ & _ & _ & _ & N1 & _).
  assert (G1 : grown p p1) by (apply grown_eq; auto).
  destruct (overlap_ok g p1 A1 T1) as (p2 & E2). destruct (overlap_E _ _ _ E2) as (S0 & P2). pose proof (vp_overlap_same _ _ _ E2) as S2. pose proof (overlap_grown _ _ _ E2) as G2.
  assert (T2 : p_T p2 = p_T p1). { clear - E2. unfold vp_overlap in E2. destruct (axis1 (p_na p1)) as [na|]; [|discriminate]. cbn [bind] in E2. destruct (have (p_nb p1)) as [nb|]; [|discriminate]. cbn [bind] in E2. destruct (overlap_S _ _ _ _) as [S0|]; [|discriminate]. cbn [bind] in E2. cbv zeta in E2.
    match type of E2 with bind ?m _ = _ => destruct m as [q1|] eqn:E1; [|discriminate] end. cbn [bind] in E2.
    transitivity (p_T q1).
    - eapply (forL_holds (fun q => p_T q = p_T q1)); [| |exact E2]; [reflexivity|]. intros c q q' _ K E. cbv beta in E. destruct (get_f q c); [|discriminate]. cbn [bind] in E. injection E as <-. exact K.
    - eapply (forL_holds (fun q => p_T q = p_T p1)); [| |exact E1]; [reflexivity|]. intros c q q' _ K E. cbv beta in E. destruct (get_f q c); [|discriminate]. cbn [bind] in E. injection E as <-. exact K. }
  unfold ep_hxc. rewrite E1. cbn [bind]. cbv zeta. destruct M as [M|(M & EN)]; rewrite M; cbn [String.eqb Ascii.eqb Bool.eqb orb]; rewrite E2; cbn [bind].
  - unfold attr. rewrite P2, !aset_same, !aset_other by discriminate. rewrite H1, H2, H3. cbn [have bind]. eexists. split; [reflexivity|]. cbn [set_E p_E p_T]. rewrite aset_same, P2, !aset_other by discriminate. split; [eexists; reflexivity|]. split; [exact H4|]. split; [congruence|].
    eapply grown_trans; [exact G1|]. eapply grown_trans; [exact G2|]. apply grown_eq; reflexivity.
  - pose proof (solved_same _ _ S2 A1) as A2. pose proof S2 as (_ & _ & _ & _ & _ & _ & N2 & _). destruct (corhar_total g p2) as (p3 & E3); [congruence|exact A2|]. rewrite E3. cbn [bind]. destruct (EnsCorHar_E _ _ _ E3) as (y & P3).
    assert (T3 : p_T p3 = p_T p2). { clear - E3. unfold EnsCorHar in E3. destruct (negb (p_ens p2)); [discriminate|].
      match type of E3 with bind ?m _ = _ => destruct m as [q1|] eqn:E1; [|discriminate] end. cbn [bind] in E3.
      match type of E3 with bind ?m _ = _ => destruct m as [q2|] eqn:E2; [|discriminate] end. cbn [bind] in E3.
      match type of E3 with bind ?m _ = _ => destruct m as [e|] eqn:E4; [|discriminate] end. cbn [bind] in E3. injection E3 as <-. cbn [set_E p_T]. transitivity (p_T q1).
      - eapply (forL_holds (fun q => p_T q = p_T q1)); [| |exact E2]; [reflexivity|]. intros c q q' _ K E. cbv beta in E. dm E. injection E as <-. exact K.
      - eapply (forL_holds (fun q => p_T q = p_T p2)); [| |exact E1]; [reflexivity|]. intros c q q' _ K E. cbv beta in E. dm E. injection E as <-. exact K. }
    unfold attr. rewrite P3, !aset_same, !aset_other by discriminate. rewrite P2, !aset_same, !aset_other by discriminate. rewrite H1, H2, H3. cbn [have bind]. eexists. split; [reflexivity|]. cbn [set_E p_E p_T]. rewrite aset_same, P3, !aset_other by discriminate. rewrite P2, !aset_other by discriminate. split; [eexists; reflexivity|]. split; [exact H4|]. split; [congruence|].
    eapply grown_trans; [exact G1|]. eapply grown_trans; [exact G2|]. eapply grown_trans; [eapply corhar_grown; eauto|]. apply grown_eq; reflexivity.
Qed.
Lemma put_E_at : forall k l p, In k (map fst l) -> some (p_E (put_E l p) k).
Proof.
  intros k l. induction l as [|[a b] l IH] using rev_ind; intros p H; [destruct H|]. unfold put_E. rewrite fold_left_app. cbn [fold_left fst snd set_E p_E]. unfold some. destruct (string_dec k a) as [->|N]; [rewrite aset_same; eauto|]. rewrite aset_other by auto. apply IH.
  rewrite map_app, in_app_iff in H. cbn in H. intuition congruence.
Qed.
Lemma kin_none_total : forall g q1, po_kin (p_opt q1) = "none"%string -> exists q2 r, ep_kinetic g q1 = Ok q2 /\ p_T q2 "Ep_kin"%string = Some r /\ p_E q2 = p_E q1 /\ p_x q2 = p_x q1 /\ p_c q2 = p_c q1 /\ p_f q2 = p_f q1.
Proof. intros g q1 K3. unfold ep_kinetic. cbv zeta. rewrite K3. cbn [String.eqb Ascii.eqb Bool.eqb orb epk_none bind]. eexists _, _. split; [reflexivity|]. split; [apply aset_same|]. repeat split. Qed.
Lemma nuclear_total : forall g p2 na nb, p_na p2 = Some na -> p_nb p2 = Some nb -> exists q1, ep_nuclear g p2 = Ok q1 /\ some (p_E q1 "Ep_pot"%string) /\ p_f q1 = p_f p2 /\ p_x q1 = p_x p2 /\ p_c q1 = p_c p2 /\ forall nm, some (p_E p2 nm) -> some (p_E q1 nm).
Proof. intros g p2 na nb NA NB. unfold ep_nuclear. rewrite NA, NB. cbn [axis1 have bind]. eexists. split; [reflexivity|]. split; [apply E_at|]. do 3 (split; [reflexivity|]). intros. apply E_on. assumption. Qed.
Lemma partition_energy_total : forall g w p2, evaluable g w p2 -> some (p_x p2) -> some (p_c p2) -> some (p_E p2 "Ehf"%string) -> some (p_E p2 "Exf"%string) -> some (p_E p2 "Ecf"%string) ->
  exists p3 r, partition_energy g w p2 = Ok p3 /\ p_T p3 "Ep"%string = Some r /\ grown p2 p3 /\ psame p2 p3.
Proof.
  intros g w p2 EV2 X C EH EX EC. unfold partition_energy. pose proof EV2 as (_ & K2 & ISO2 & _ & _ & _ & _ & (na & nb & NA & NB & _)). rewrite ISO2.
  destruct (nuclear_total g p2 na nb NA NB) as (q1 & E1 & EP & F1 & X3 & C3 & EN). rewrite E1. cbn [bind]. pose proof (ep_nuclear_same _ _ _ E1) as S1.
  pose proof (evaluable_same g w _ _ S1 EV2) as EV3. pose proof EV3 as (_ & K3 & _).
  destruct (kin_none_total g q1 K3) as (q2 & r & E2 & T2 & EE & X4 & C4 & F4). rewrite E2. cbn [bind]. pose proof (ep_kinetic_same _ _ _ E2) as S2. pose proof (evaluable_same g w _ _ S2 EV3) as EV4.
  destruct (overlap_energy_total g w q2 EV4) as (q3 & E3 & (e & HE) & HP & HT & HG); [rewrite X4, X3; exact X|rewrite C4, C3; exact C|rewrite EE; apply EN; assumption|rewrite EE; apply EN; assumption|rewrite EE; apply EN; assumption|].
  rewrite E3. cbn [bind]. destruct EP as (ep & EP). unfold attr. rewrite HP, EE, EP, HT, T2, HE. cbn [have bind]. eexists _, _. split; [reflexivity|]. split; [apply T_at|]. pose proof (ep_hxc_same _ _ _ _ E3) as S3. pose proof S1 as (_ & _ & _ & _ & _ & _ & N1 & _). pose proof S2 as (_ & _ & _ & _ & _ & _ & N2 & _). split.
  - eapply grown_trans; [|apply (grown_eq q3); reflexivity]. eapply grown_trans; [|exact HG]. apply grown_eq; congruence.
  - eapply psame_trans; [exact S1|]. eapply psame_trans; [exact S2|]. eapply psame_trans; [exact S3|]. apply psame_T.
Qed.
Lemma put_all : forall ll x p, In "Ehf"%string (map fst ll) -> In "Exf"%string (map fst ll) -> In "Ecf"%string (map fst ll) -> let p2 := set_eks (put_E ll p) x in
  psame p p2 /\ p_x p2 = p_x p /\ p_c p2 = p_c p /\ p_f p2 = p_f p /\ some (p_E p2 "Ehf"%string) /\ some (p_E p2 "Exf"%string) /\ some (p_E p2 "Ecf"%string).
Proof.
  intros ll x p L1 L2 L3. cbv zeta. destruct (put_E_same ll p) as (A1 & A2 & A3 & A4). pose proof (put_E_at _ _ p L1) as B1. pose proof (put_E_at _ _ p L2) as B2. pose proof (put_E_at _ _ p L3) as B3.
  set (p1 := put_E ll p) in *. clearbody p1. destruct (eks_same p1 x) as (D1 & D2 & D3 & D4). split; [eapply psame_trans; eauto|]. unfold xkeep in *. split; [intuition congruence|]. split; [intuition congruence|]. split; [congruence|]. auto.
Qed.
Lemma tail_same : forall p3 a b c, let p4 := set_T (set_E (set_T p3 "Et" a) "Vnn" b) "E" c in p_f p4 = p_f p3 /\ p_ens p4 = p_ens p3. Proof. intros. split; reflexivity. Qed.
Lemma evals_same : forall p4 x, p_f (set_evals p4 x) = p_f p4 /\ p_ens (set_evals p4 x) = p_ens p4. Proof. intros. split; reflexivity. Qed.
#[local] Opaque set_E set_T set_eks set_evals psame evaluable.
Lemma overlap_all_total : forall g w p, evaluable g w p -> all_f solved p -> po_int (p_opt p) = "dft"%string -> some (p_x p) -> some (p_c p) -> exists p', energy g w p = Ok p' /\ grown p p'.
Proof.
  intros g w p EV A I X C.
  assert (A0 : all_f (egood true false []) p) by (intros c Hc; destruct (A c Hc) as (f & F & H); exists f; split; [exact F|apply solved_egood, H]).
  assert (MA : forall c, In c (comps_a (p_ens p)) -> member (p_ens p) c) by (intros c Hc; apply in_comps_a in Hc; apply Hc).
  assert (MB : forall c, In c (comps_b (p_ens p)) -> member (p_ens p) c) by (destruct (p_ens p); intros c Hc; simpl in Hc; intuition; subst; simpl; auto).
  assert (MB' : forall c, In c (energy_b (p_ens p)) -> member (p_ens p) c) by (destruct (p_ens p); intros c Hc; simpl in Hc; intuition; subst; simpl; auto).
  unfold energy. cbv zeta. rewrite I. change (String.eqb "dft" "dft") with true.
  destruct (es_total _ _ _ p (comps_a (p_ens p)) es0 A0 MA) as (a & ->). cbn [bind].
  destruct (es_total _ _ _ p (energy_b (p_ens p)) es0 A0 MB') as (b0 & Eb0).
  assert (B : exists b, (if po_ab (p_opt p) then Ok a else forL (energy_b (p_ens p)) (es_step true p) es0) = Ok b) by (destruct (po_ab (p_opt p)); eauto). destruct B as (b & ->). cbn [bind].
  match goal with |- context [set_eks (set_E (set_E (set_E (set_E (set_E (set_E (set_E (set_E (set_E p ?a1 ?b1) ?a2 ?b2) ?a3 ?b3) ?a4 ?b4) ?a5 ?b5) ?a6 ?b6) ?a7 ?b7) ?a8 ?b8) ?a9 ?b9) ?x] =>
    change (set_eks (set_E (set_E (set_E (set_E (set_E (set_E (set_E (set_E (set_E p a1 b1) a2 b2) a3 b3) a4 b4) a5 b5) a6 b6) a7 b7) a8 b8) a9 b9) x) with (set_eks (put_E [(a1, b1); (a2, b2); (a3, b3); (a4, b4); (a5, b5); (a6, b6); (a7, b7); (a8, b8); (a9, b9)] p) x);
    pose proof (put_all [(a1, b1); (a2, b2); (a3, b3); (a4, b4); (a5, b5); (a6, b6); (a7, b7); (a8, b8); (a9, b9)] x p ltac:(cbn; auto 20) ltac:(cbn; auto 20) ltac:(cbn; auto 20)) as S; cbv zeta in S;
    set (p2 := set_eks (put_E [(a1, b1); (a2, b2); (a3, b3); (a4, b4); (a5, b5); (a6, b6); (a7, b7); (a8, b8); (a9, b9)] p) x) in *; clearbody p2 end.
  destruct S as (S & X2 & C2 & F2 & EH & EX & EC). pose proof (evaluable_same g w _ _ S EV) as EV2.
  destruct (partition_energy_total g w p2 EV2) as (p3 & r & E3 & T3 & G3 & S3); [rewrite X2; exact X|rewrite C2; exact C|exact EH|exact EX|exact EC|]. rewrite E3. cbn [bind]. unfold attr. rewrite T3. cbn [have bind].
  match goal with |- context [set_T (set_E (set_T p3 "Et" ?a) "Vnn" ?b) "E" ?c] => pose proof (tail_same p3 a b c) as F4; cbv zeta in F4; set (p4 := set_T (set_E (set_T p3 "Et" a) "Vnn" b) "E" c) in *; clearbody p4 end. destruct F4 as (F4 & N4).
  pose proof (solved_same _ _ S3 (solved_same _ _ S A)) as A3. Transparent psame. pose proof S as (_ & _ & _ & _ & _ & _ & NS & _). pose proof S3 as (_ & _ & _ & _ & _ & _ & NS3 & _).
  assert (A4 : all_f (egood true false []) p4) by (intros c Hc; rewrite N4 in Hc; destruct (A3 c Hc) as (f & F & H); exists f; rewrite F4; split; [exact F|apply solved_egood, H]).
  destruct (evals_total _ _ _ p4 (comps_a (p_ens p)) A4) as (ea & ->); [rewrite N4, NS3, NS; exact MA|]. cbn [bind]. destruct (evals_total _ _ _ p4 (comps_b (p_ens p)) A4) as (eb & Eb); [rewrite N4, NS3, NS; exact MB|].
  assert (B : exists b, (if po_ab (p_opt p) then Ok ea else evals_of p4 (comps_b (p_ens p))) = Ok b) by (destruct (po_ab (p_opt p)); eauto). destruct B as (ebb & ->). cbn [bind]. eexists. split; [reflexivity|].
  destruct (evals_same p4 (ea, ebb)) as (F5 & N5). eapply grown_trans; [apply (grown_eq p p2); auto|]. eapply grown_trans; [exact G3|]. eapply grown_trans; [apply (grown_eq p3 p4); auto|]. apply grown_eq; auto.
Qed.
Transparent set_E set_T set_eks set_evals psame evaluable.
(** The potentials can be evaluated once the components have been solved. *)
Theorem overlap_runs : forall g w p, evaluable g w p -> exists p', vp_hxc g w p = Ok p'.
Proof.
  intros g w p EV. pose proof EV as (I & K & ISO & M & A & AV & NF & TO). destruct (dft_parts_total g w p I A AV NF) as (p1 & E1 & N1 & X1 & C1). pose proof (vp_hxc_parts_same _ _ _ _ E1) as S1. pose proof (evaluable_same g w _ _ S1 EV) as EV1.
  pose proof EV1 as (_ & _ & _ & _ & A1 & _ & _ & T1). destruct (overlap_ok g p1 A1 T1) as (p2 & E2). pose proof (vp_overlap_same _ _ _ E2) as S2. pose proof (evaluable_same g w _ _ S2 EV1) as EV2. pose proof (named_grown _ _ _ (overlap_grown _ _ _ E2) N1) as N2.
  assert (D2 : all_f (named ["dFdn"]%string) p2). { destruct (overlap_spec _ _ _ E2) as (na & nb & _ & _ & _ & _ & _ & L). intros c Hc. pose proof S2 as (_ & _ & _ & _ & _ & _ & E & _). rewrite E in Hc. destruct (L c Hc) as (f & f' & _ & F' & _ & D). exists f'. split; auto. intros nm [<-|[]]. cbv zeta in D. rewrite D. eexists; reflexivity. }
  assert (XC : p_x p2 = p_x p1 /\ p_c p2 = p_c p1).
  { clear - E2. unfold vp_overlap in E2. destruct (axis1 (p_na p1)) as [na|]; [|discriminate]. cbn [bind] in E2. destruct (have (p_nb p1)) as [nb|]; [|discriminate]. cbn [bind] in E2. destruct (overlap_S _ _ _ _) as [S0|]; [|discriminate]. cbn [bind] in E2. cbv zeta in E2.
    match type of E2 with bind ?m _ = _ => destruct m as [q1|] eqn:E1; [|discriminate] end. cbn [bind] in E2.
    eapply (forL_holds (fun q => p_x q = p_x p1 /\ p_c q = p_c p1)) in E2; [exact E2| |].
    - eapply (forL_holds (fun q => p_x q = p_x p1 /\ p_c q = p_c p1)) in E1; [exact E1|split; reflexivity|]. intros c q q' _ K E. cbv beta in E. destruct (get_f q c); [|discriminate]. cbn [bind] in E. injection E as <-. exact K.
    - intros c q q' _ K E. cbv beta in E. destruct (get_f q c); [|discriminate]. cbn [bind] in E. injection E as <-. exact K. }
  destruct XC as (X2 & C2).
  assert (PUT : forall h q, (forall f a b d, (exists c, p_f q c = Some f /\ member (p_ens q) c) -> exists v, h f a b d = Ok v) -> all_f (named ["vp_h"; "vp_x"; "vp_c"]%string) q -> exists p', put_hxc h q = Ok p').
  { intros h q HH A0. unfold put_hxc. destruct (forL_run (fun c q f => do a <- attr (f_V f) "vp_h"; do b <- attr (f_V f) "vp_x"; do d <- attr (f_V f) "vp_c"; do v <- h f a b d; Ok (fV f "vp_hxc" v))
      (fun c p => do f <- get_f p c; do a <- attr (f_V f) "vp_h"; do b <- attr (f_V f) "vp_x"; do d <- attr (f_V f) "vp_c"; do v <- h f a b d; Ok (set_frag p c (fV f "vp_hxc" v))) (comps (p_ens q)) q) as (p' & E & _); [intros ? ? ? ?; reflexivity|apply comps_nodup| | |eauto].
    - intros c q0. destruct (get_f q0 c) as [f|]; cbn [bind]; auto. destruct (attr (f_V f) "vp_h"); cbn [bind]; auto. destruct (attr (f_V f) "vp_x"); cbn [bind]; auto. destruct (attr (f_V f) "vp_c"); cbn [bind]; auto. destruct (h _ _ _ _); reflexivity.
    - intros c Hc. apply in_comps in Hc. destruct (A0 c Hc) as (f & F & H). destruct (H "vp_h"%string) as (a & Ea); [simpl; auto|]. destruct (H "vp_x"%string) as (b & Eb); [simpl; auto|]. destruct (H "vp_c"%string) as (d & Ed); [simpl; auto|]. destruct (HH f a b d) as (v & Hv); [eauto|]. exists f. eexists. split; [exact F|]. unfold attr. rewrite Ea, Eb, Ed. cbn [have bind]. rewrite Hv. reflexivity. }
  unfold vp_hxc. rewrite E1. cbn [bind]. cbv zeta. destruct M as [M|(M & EN)]; rewrite M; cbn [String.eqb Ascii.eqb Bool.eqb orb]; rewrite E2; cbn [bind].
  - destruct (overlap_all_total g w p2 EV2) as (p3 & E3 & G3); [apply EV2|apply EV2|rewrite X2; exact X1|rewrite C2; exact C1|]. rewrite E3. cbn [bind].
    assert (Q : exists F x c, p_E p3 "F"%string = Some F /\ p_E p3 "Ep_x"%string = Some x /\ p_E p3 "Ep_c"%string = Some c).
    { destruct (energy_mid _ _ _ _ E3) as (q2 & q3 & P & SM & _ & _ & _ & _ & _ & _ & _ & _ & _ & _ & _ & KE & _). unfold partition_energy in P. assert (O2 : p_opt q2 = p_opt p) by (pose proof SM as (O & _); pose proof S1 as (O1 & _); pose proof S2 as (O2 & _); congruence). rewrite O2, ISO in P.
      destruct (ep_nuclear g q2) as [r1|] eqn:R1; [|discriminate]. cbn [bind] in P. destruct (ep_kinetic g r1) as [r2|] eqn:R2; [|discriminate]. cbn [bind] in P. destruct (ep_hxc g w r2) as [r3|] eqn:R3; [|discriminate]. cbn [bind] in P. dm P. injection P as <-.
      assert (O3 : p_opt r2 = p_opt p) by (pose proof (ep_nuclear_same _ _ _ R1) as (O & _); pose proof (ep_kinetic_same _ _ _ R2) as (O' & _); congruence).
      destruct (ep_hxc_modes _ _ _ _ R3) as (h & x & c & Y1 & Y2 & Y3 & _ & _ & Y4 & _). rewrite O3 in Y4. destruct (Y4 M) as (F & Y5 & _). exists F, x, c. rewrite !KE by (cbn; auto 20). split; [exact Y5|]. split; [exact Y2|exact Y3]. }
    destruct Q as (F & x & c & Q1 & Q2 & Q3). unfold attr. rewrite Q1, Q2, Q3. cbn [have bind]. apply PUT.
    + intros f a b d (cc & Hf & Hm). destruct (named_grown _ _ _ G3 D2 cc Hm) as (f0 & F0 & H0). rewrite Hf in F0. injection F0 as <-. destruct (H0 "dFdn"%string) as (dF & Hd); [simpl; auto|]. rewrite Hd. cbn [have bind]. eauto.
    + eapply named_grown; [exact G3|exact N2].
  - pose proof EV2 as (_ & _ & _ & _ & A2 & _). pose proof S1 as (_ & _ & _ & _ & _ & _ & N1' & _). pose proof S2 as (_ & _ & _ & _ & _ & _ & N2' & _). destruct (corhar_total g p2) as (p3 & E3); [congruence|exact A2|]. rewrite E3. cbn [bind]. pose proof (EnsCorHar_same _ _ _ E3) as S3. pose proof (evaluable_same g w _ _ S3 EV2) as EV3. pose proof (corhar_grown _ _ _ E3) as G3.
    assert (XC : p_x p3 = p_x p2 /\ p_c p3 = p_c p2).
    { clear - E3. unfold EnsCorHar in E3. destruct (negb (p_ens p2)); [discriminate|].
      match type of E3 with bind ?m _ = _ => destruct m as [q1|] eqn:E1; [|discriminate] end. cbn [bind] in E3.
      match type of E3 with bind ?m _ = _ => destruct m as [q2|] eqn:E2; [|discriminate] end. cbn [bind] in E3.
      match type of E3 with bind ?m _ = _ => destruct m as [e|] eqn:E4; [|discriminate] end. cbn [bind] in E3. injection E3 as <-. cbn [set_E p_x p_c].
      eapply (forL_holds (fun q => p_x q = p_x p2 /\ p_c q = p_c p2)) in E2; [exact E2| |].
      - eapply (forL_holds (fun q => p_x q = p_x p2 /\ p_c q = p_c p2)) in E1; [exact E1|split; reflexivity|]. intros c q q' _ K E. cbv beta in E. dm E. injection E as <-. exact K.
      - intros c q q' _ K E. cbv beta in E. dm E. injection E as <-. exact K. }
    destruct XC as (X3 & C3).
    assert (D3 : all_f (named ["vhcor"]%string) p3). { destruct (enscorhar_spec _ _ _ E3) as (_ & F & F' & N & V & _ & L & _ & _ & _ & _ & _ & V1 & V2 & V3 & V4 & _). intros c Hc. exists (F' c). split; [apply L; exact Hc|]. intros nm [<-|[]]. destruct c; [rewrite V1|rewrite V2|rewrite V3|rewrite V4]; eexists; reflexivity. }
    destruct (overlap_all_total g w p3 EV3) as (p4 & E4 & G4); [apply EV3|apply EV3|rewrite X3, X2; exact X1|rewrite C3, C2; exact C1|]. rewrite E4. cbn [bind].
    assert (Q : exists F h x c Eh, p_E p4 "F"%string = Some F /\ p_E p4 "Ep_h"%string = Some h /\ p_E p4 "Ep_x"%string = Some x /\ p_E p4 "Ep_c"%string = Some c /\ p_E p4 "Ehcor"%string = Some Eh).
    { destruct (energy_mid _ _ _ _ E4) as (q2 & q3 & P & SM & _ & _ & _ & _ & _ & _ & _ & _ & _ & _ & _ & KE & _). unfold partition_energy in P. assert (O2 : p_opt q2 = p_opt p) by (pose proof SM as (O & _); pose proof S1 as (O1 & _); pose proof S2 as (O2 & _); pose proof S3 as (O3 & _); congruence). rewrite O2, ISO in P.
      destruct (ep_nuclear g q2) as [r1|] eqn:R1; [|discriminate]. cbn [bind] in P. destruct (ep_kinetic g r1) as [r2|] eqn:R2; [|discriminate]. cbn [bind] in P. destruct (ep_hxc g w r2) as [r3|] eqn:R3; [|discriminate]. cbn [bind] in P. dm P. injection P as <-.
      assert (O3 : p_opt r2 = p_opt p) by (pose proof (ep_nuclear_same _ _ _ R1) as (O & _); pose proof (ep_kinetic_same _ _ _ R2) as (O' & _); congruence).
      destruct (ep_hxc_modes _ _ _ _ R3) as (h & x & c & Y1 & Y2 & Y3 & _ & _ & _ & Y4). rewrite O3 in Y4. destruct (Y4 (or_introl M)) as (_ & F & Eh & Y5 & Y6 & _). exists F, h, x, c, Eh. rewrite !KE by (cbn; auto 20). auto 10. }
    destruct Q as (F & h & x & c & Eh & Q1 & Q2 & Q3 & Q4 & Q5). unfold attr. rewrite Q1, Q2, Q3, Q4, Q5. cbn [have bind]. apply PUT.
    + intros f a b d (cc & Hf & Hm). destruct (named_grown _ _ _ (grown_trans _ _ _ G3 G4) D2 cc Hm) as (f0 & F0 & H0). rewrite Hf in F0. injection F0 as <-. destruct (H0 "dFdn"%string) as (dF & Hd); [simpl; auto|]. destruct (named_grown _ _ _ G4 D3 cc Hm) as (f1 & F1 & H1). rewrite Hf in F1. injection F1 as <-. destruct (H1 "vhcor"%string) as (vc & Hv); [simpl; auto|]. rewrite Hd, Hv. cbn [have bind]. eauto.
    + eapply named_grown; [exact G4|]. eapply named_grown; [exact G3|exact N2].
Qed.
(** The energies that the object holds after vp_hxc: the interpolation, with the F of its densities and the correlated Hartree energy of
    its components. *)
Lemma kept_overlap : forall g p p' y, kept p p' -> overlap_state g p y -> overlap_state g p' y.
Proof. intros g p p' y (S & K) O. eapply overlap_kept; [exact S| |exact O]. intros c f _ F. destruct (K c f F) as (f' & F' & V). exists f'. auto. Qed.
Lemma put_kept : forall h p p', put_hxc h p = Ok p' -> kept p p'.
Proof.
  intros h p p' H. split; [eapply put_hxc_same; eauto|]. unfold put_hxc in H. 
  revert H. apply (forL_holds (fun q => forall c f, p_f p c = Some f -> exists f', p_f q c = Some f' /\ forall nm, nm = "dFdn"%string \/ nm = "vhcor"%string -> f_V f' nm = f_V f nm)); [eauto|].
  intros c q q' _ K E c0 f0 F0. cbv beta in E. destruct (get_f q c) as [f|] eqn:Fc; [|discriminate]. cbn [bind] in E. dm E. injection E as <-. apply get_f_some in Fc. destruct (K c0 f0 F0) as (f1 & F1 & V1). cbn [set_frag with_f p_f]. destruct (comp_eqb_spec c0 c) as [->|N]; [|eauto].
  rewrite Fc in F1. injection F1 as ->. eexists. split; [reflexivity|]. intros nm Hn. rewrite <- (V1 nm Hn). cbn [fV f_V]. apply aset_other. destruct Hn as [-> | ->]; discriminate.
Qed.
Theorem overlap_left_energy : forall g w p p', vp_hxc g w p = Ok p' -> po_iso (p_opt p) = false -> overlap_mode p -> exists h x c F, E_is p' "Ep_h" h /\ E_is p' "Ep_x" x /\ E_is p' "Ep_c" c /\ E_is p' "F" F /\ overlap_state g p' F /\
  (po_hxc (p_opt p) = "overlap_xc"%string -> E_is p' "Ep_hxc" ((1 - F) * h + F * (h + x + c))) /\
  (po_hxc (p_opt p) = "overlap_hxc"%string -> p_ens p' = true /\ exists Eh, E_is p' "Ehcor" Eh /\ corr_state g p' Eh /\ E_is p' "Ep_hxc" ((1 - F) * Eh + F * (h + x + c))).
Proof.
  intros g w p p' H ISO M. unfold vp_hxc in H. destruct (vp_hxc_parts g w p) as [p1|] eqn:E1; [|discriminate]. cbn [bind] in H. cbv zeta in H. pose proof (vp_hxc_parts_same _ _ _ _ E1) as (O1 & _).
  assert (G : forall q q', energy g w q = Ok q' -> p_opt q = p_opt p -> exists h x c F, E_is q' "Ep_h" h /\ E_is q' "Ep_x" x /\ E_is q' "Ep_c" c /\ E_is q' "F" F /\ overlap_state g q' F /\
     (po_hxc (p_opt p) = "overlap_xc"%string -> E_is q' "Ep_hxc" ((1 - F) * h + F * (h + x + c))) /\ (po_hxc (p_opt p) = "overlap_hxc"%string -> p_ens q' = true /\ exists Eh, E_is q' "Ehcor" Eh /\ corr_state g q' Eh /\ E_is q' "Ep_hxc" ((1 - F) * Eh + F * (h + x + c)))).
  { intros q q' E O. pose proof (energy_same _ _ _ _ E) as SE. destruct (energy_mid _ _ _ _ E) as (q2 & q3 & P & SM & _ & _ & _ & _ & F' & _ & _ & _ & _ & _ & _ & KE & _). unfold partition_energy in P. assert (O2 : p_opt q2 = p_opt p) by (pose proof SM as (X & _); congruence). rewrite O2, ISO in P.
    destruct (ep_nuclear g q2) as [r1|] eqn:R1; [|discriminate]. cbn [bind] in P. destruct (ep_kinetic g r1) as [r2|] eqn:R2; [|discriminate]. cbn [bind] in P. destruct (ep_hxc g w r2) as [r3|] eqn:R3; [|discriminate]. cbn [bind] in P. dm P. injection P as <-.
    pose proof (ep_nuclear_same _ _ _ R1) as S1. pose proof (ep_kinetic_same _ _ _ R2) as S2. pose proof (ep_hxc_same _ _ _ _ R3) as S3.
    assert (O3 : p_opt r2 = p_opt p) by (pose proof S1 as (X & _); pose proof S2 as (X' & _); congruence).
    assert (S4 : psame q r3) by eauto using psame_trans.
    assert (KP : kept r3 q').
    { split; [|intros c f Hf; rewrite F'; exists f; auto]. clear - S4 SE F'. destruct S4 as (A1 & A2 & A3 & A4 & A5 & A6 & A7 & A8 & A9 & A10 & A11 & A12 & A13 & A14). destruct SE as (B1 & B2 & B3 & B4 & B5 & B6 & B7 & B8 & B9 & B10 & B11 & B12 & B13 & B14).
      do 13 (split; [congruence|]). intros c. rewrite F'. cbn [set_T p_f]. apply fsame_opt_refl. }
    destruct (ep_hxc_modes _ _ _ _ R3) as (h & x & c & Y1 & Y2 & Y3 & _ & _ & Y4 & Y5). rewrite O3 in Y4, Y5. unfold E_is in *.
    destruct M as [M|(M & _)].
    - destruct (Y4 M) as (F & Z1 & ZO & Z2). exists h, x, c, F. rewrite !KE by (cbn; auto 20). do 4 (split; [assumption|]). split; [eapply kept_overlap; eauto|]. split; [intros _; exact Z2|]. intros M'. rewrite M in M'. discriminate.
    - destruct (Y5 (or_introl M)) as (EN & F & Eh & Z1 & Z2 & ZO & ZC & Z3). exists h, x, c, F. rewrite !KE by (cbn; auto 20). do 4 (split; [assumption|]). split; [eapply kept_overlap; eauto|]. split; [intros M'; rewrite M in M'; discriminate|]. intros _.
      assert (EN' : p_ens r3 = true) by (pose proof S3 as (_ & _ & _ & _ & _ & _ & X & _); congruence). split; [pose proof (proj1 KP) as (_ & _ & _ & _ & _ & _ & X & _); congruence|]. exists Eh. split; [exact Z2|]. split; [eapply corr_kept; eauto|exact Z3]. }
  assert (FIN : forall hh q, put_hxc hh q = Ok p' -> (exists h x c F, E_is q "Ep_h" h /\ E_is q "Ep_x" x /\ E_is q "Ep_c" c /\ E_is q "F" F /\ overlap_state g q F /\
     (po_hxc (p_opt p) = "overlap_xc"%string -> E_is q "Ep_hxc" ((1 - F) * h + F * (h + x + c))) /\ (po_hxc (p_opt p) = "overlap_hxc"%string -> p_ens q = true /\ exists Eh, E_is q "Ehcor" Eh /\ corr_state g q Eh /\ E_is q "Ep_hxc" ((1 - F) * Eh + F * (h + x + c)))) ->
     exists h x c F, E_is p' "Ep_h" h /\ E_is p' "Ep_x" x /\ E_is p' "Ep_c" c /\ E_is p' "F" F /\ overlap_state g p' F /\
     (po_hxc (p_opt p) = "overlap_xc"%string -> E_is p' "Ep_hxc" ((1 - F) * h + F * (h + x + c))) /\ (po_hxc (p_opt p) = "overlap_hxc"%string -> p_ens p' = true /\ exists Eh, E_is p' "Ehcor" Eh /\ corr_state g p' Eh /\ E_is p' "Ep_hxc" ((1 - F) * Eh + F * (h + x + c)))).
  { intros hh q HP (h & x & c & F & A1 & A2 & A3 & A4 & A5 & A6 & A7). destruct (put_hxc_inv _ _ _ HP) as (PE & EN & _). pose proof (put_kept _ _ _ HP) as K. exists h, x, c, F. unfold E_is in *. rewrite PE. do 4 (split; [assumption|]). split; [eapply kept_overlap; eauto|]. split; [assumption|].
    intros M'. destruct (A7 M') as (B1 & Eh & B2 & B3 & B4). split; [congruence|]. exists Eh. split; [exact B2|]. split; [eapply corr_kept; eauto|exact B4]. }
  pose proof M as M0. destruct M0 as [M0|(M0 & _)]; rewrite M0 in H; cbn [String.eqb Ascii.eqb Bool.eqb orb] in H.
  - destruct (vp_overlap g p1) as [p2|] eqn:E2; [|discriminate]. cbn [bind] in H. pose proof (vp_overlap_same _ _ _ E2) as (O2 & _). destruct (energy g w p2) as [p3|] eqn:E3; [|discriminate]. cbn [bind] in H. dm H. eapply FIN; [exact H|]. apply (G p2); [exact E3|congruence].
  - destruct (vp_overlap g p1) as [p2|] eqn:E2; [|discriminate]. cbn [bind] in H. pose proof (vp_overlap_same _ _ _ E2) as (O2 & _). destruct (EnsCorHar g p2) as [p3|] eqn:E3; [|discriminate]. cbn [bind] in H. pose proof (EnsCorHar_same _ _ _ E3) as (O3 & _). destruct (energy g w p3) as [p4|] eqn:E4; [|discriminate]. cbn [bind] in H. dm H. eapply FIN; [exact H|]. apply (G p3); [exact E4|congruence].
Qed.
