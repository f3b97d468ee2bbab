(** Partition: the total energy is the molecular functional. *)
From Coq Require Import Reals List Arith Lia Lra ZArith Bool String.
From Verif Require Import Base BaseLemmas GridModel GridSpec GridProofs HartreeModel SolverModel SolverSpec LibxcModel OptionsModel KSModel KSSpec KSProofs KSLoop KSEnergy
  InverterModel PartitionModel PartitionSpec PartitionBase PartitionConstr PartitionDens PartitionFrame PartitionEnergy PartitionEp.
Import ListNotations.
Local Open Scope R_scope.

(** p_x, p_c, p_info: not touched by the energies *)
Definition xkeep (p p' : part) : Prop := p_x p' = p_x p /\ p_c p' = p_c p /\ p_k p' = p_k p /\ p_info p' = p_info p.
Lemma fin_keep : forall p3 a b c d, let p' := set_evals (set_T (set_E (set_T p3 "Et" a) "Vnn" b) "E" c) d in
  p_inv p' = p_inv p3 /\ p_f p' = p_f p3 /\ p_V p' = p_V p3 /\ p_x p' = p_x p3 /\ p_c p' = p_c p3 /\ p_epk p' = p_epk p3 /\ p_T p' "Ep"%string = p_T p3 "Ep"%string /\ p_T p' "Ep_kin"%string = p_T p3 "Ep_kin"%string /\
  (forall nm, nm <> "Vnn"%string -> p_E p' nm = p_E p3 nm).
Proof. intros. do 8 (split; [reflexivity|]). intros nm Hn. unfold p'. rewrite set_evals_p_E, set_T_p_E, set_E_p_E, set_T_p_E. apply aset_other. exact Hn. Qed.
Definition put_E (l : list (string * R)) (p : part) : part := fold_left (fun p kv => set_E p (fst kv) (snd kv)) l p.
Lemma put_E_same : forall l p, psame p (put_E l p) /\ xkeep p (put_E l p) /\ p_inv (put_E l p) = p_inv p /\ p_f (put_E l p) = p_f p.
Proof.
  induction l as [|[a b] l IH]; intros p; [split; [apply psame_refl|repeat split]|]. cbn [put_E fold_left fst snd]. destruct (IH (set_E p a b)) as (A & B & C & D).
  split; [eapply psame_trans; [apply psame_E|exact A]|]. split; [exact B|]. split; [exact C|exact D].
Qed.
Lemma eks_same : forall p x, psame p (set_eks p x) /\ xkeep p (set_eks p x) /\ p_inv (set_eks p x) = p_inv p /\ p_f (set_eks p x) = p_f p.
Proof. intros. split; [apply psame_eks|repeat split]. Qed.
#[local] Opaque set_E set_T set_eks set_evals psame xkeep.
Lemma energy_mid : forall g w p p', energy g w p = Ok p' -> exists p2 p3, partition_energy g w p2 = Ok p3 /\ psame p p2 /\ xkeep p p2 /\ p_inv p2 = p_inv p /\ p_f p2 = p_f p /\
  p_inv p' = p_inv p3 /\ p_f p' = p_f p3 /\ p_V p' = p_V p3 /\ p_x p' = p_x p3 /\ p_c p' = p_c p3 /\ p_epk p' = p_epk p3 /\ p_T p' "Ep"%string = p_T p3 "Ep"%string /\ p_T p' "Ep_kin"%string = p_T p3 "Ep_kin"%string /\ (forall nm, In nm ep_names -> p_E p' nm = p_E p3 nm) /\
  forall nm, In nm ["Ef"; "Tsf"; "Enucf"; "Exf"; "Ecf"; "Ehf"]%string -> p_E p' nm = p_E p2 nm.
Proof.
  intros g w p p' H. unfold energy in H. cbv zeta in H.
  match type of H with bind ?m _ = _ => destruct m as [a|] eqn:E1; [|discriminate] end. cbn [bind] in H.
  match type of H with bind ?m _ = _ => destruct m as [b|] eqn:E2; [|discriminate] end. cbn [bind] in H.
  match type of H with bind (partition_energy _ _ ?q) _ = _ => set (p2 := q) in H; assert (P2 : p2 = q) by reflexivity; clearbody p2 end.
  assert (S : psame p p2 /\ xkeep p p2 /\ p_inv p2 = p_inv p /\ p_f p2 = p_f p).
  { match type of P2 with _ = set_eks (set_E (set_E (set_E (set_E (set_E (set_E (set_E (set_E (set_E p ?a1 ?b1) ?a2 ?b2) ?a3 ?b3) ?a4 ?b4) ?a5 ?b5) ?a6 ?b6) ?a7 ?b7) ?a8 ?b8) ?a9 ?b9) ?x =>
      change (p2 = set_eks (put_E [(a1, b1); (a2, b2); (a3, b3); (a4, b4); (a5, b5); (a6, b6); (a7, b7); (a8, b8); (a9, b9)] p) x) in P2;
      destruct (put_E_same [(a1, b1); (a2, b2); (a3, b3); (a4, b4); (a5, b5); (a6, b6); (a7, b7); (a8, b8); (a9, b9)] p) as (A1 & A2 & A3 & A4);
      set (p1 := put_E [(a1, b1); (a2, b2); (a3, b3); (a4, b4); (a5, b5); (a6, b6); (a7, b7); (a8, b8); (a9, b9)] p) in *; clearbody p1;
      destruct (eks_same p1 x) as (B1 & B2 & B3 & B4)
    end. rewrite P2. split; [eapply psame_trans; eauto|]. split; [|split; congruence]. Transparent xkeep. unfold xkeep in *. intuition congruence. }
  clear P2. destruct (partition_energy g w p2) as [p3|] eqn:E3; [|discriminate]. cbn [bind] in H. exists p2, p3. split; auto. split; [apply S|]. split; [apply S|]. split; [apply S|]. split; [apply S|].
  pose proof (partition_energy_ekeep g w p2 p3 E3) as (K & _).
  destruct (attr (p_T p3) "Ep") as [Ep|] eqn:E4; [|discriminate]. cbn [bind] in H.
  destruct (evals_of _ _) as [ea|]; [|discriminate]. cbn [bind] in H. match type of H with bind ?m _ = _ => destruct m as [eb|]; [|discriminate] end. cbn [bind] in H. injection H as <-.
  match goal with |- context [set_evals (set_T (set_E (set_T p3 "Et" ?a) "Vnn" ?b) "E" ?c) ?d] => pose proof (fin_keep p3 a b c d) as FK; cbv zeta in FK;
    set (p' := set_evals (set_T (set_E (set_T p3 "Et" a) "Vnn" b) "E" c) d) in * end. clearbody p'. clear E1 E2 S.
  destruct FK as (F1 & F2 & F3 & F4 & F5 & F6 & F7 & F8 & F9). do 8 (split; [assumption|]). split.
  - intros nm Hn. apply F9. intros ->. simpl in Hn. intuition discriminate.
  - intros nm Hn. transitivity (p_E p3 nm); [apply F9; intros ->; simpl in Hn; intuition discriminate|].
    apply K. unfold ep_names. simpl in *. intuition (subst; discriminate).
Qed.
Transparent set_E set_T set_eks set_evals psame xkeep.
Lemma share_three : forall ess F l h, share ess F l h = (if ess then 2 else 1) * lsum l (fun c => f_scale (F c) * h c). Proof. reflexivity. Qed.
Lemma evaluated_nuclear : forall g w k e n, evaluated g w k -> k_E k = Some e -> k_n k = Some n -> E_Enuc e = pair_integral g (k_pol k) n (k_vnuc k).
Proof.
  intros g w k e n (k0 & H) HE HN. pose proof (energy_keep _ _ _ _ H) as (E0 & V0 & K). apply energy_inv in H.
  destruct H as (E & n' & ve & H1 & H2 & _ & _ & _ & _ & _ & _ & H9 & _). rewrite HE in H1. injection H1 as <-. rewrite H9, K in *. simpl in *. rewrite H2 in HN. injection HN as ->. symmetry. apply pair_integral_sum.
Qed.
(** energy of an evaluated component *)
Lemma evaluated_energy : forall g w k e n, evaluated g w k -> k_E k = Some e -> k_n k = Some n -> o_int (k_opt k) = "dft"%string -> k_Za k * k_Zb k = 0 ->
  E_Enuc e = pair_integral g (k_pol k) n (k_vnuc k) /\ to_R (E_E e) = to_R (E_Ts e) + E_Enuc e + val (E_Eh e) + E_Ex e + E_Ec e.
Proof.
  intros g w k e n (k0 & H) HE HN HI HZ. pose proof (energy_keep _ _ _ _ H) as (E0 & V0 & K). apply energy_inv in H.
  destruct H as (E & n' & ve & H1 & H2 & _ & _ & H5 & _ & _ & _ & H9 & _ & H11 & H12). rewrite HE in H1. injection H1 as <-.
  assert (X : k_n k0 = Some n /\ k_opt k0 = k_opt k /\ k_Za k0 = k_Za k /\ k_Zb k0 = k_Zb k /\ k_pol k0 = k_pol k /\ k_vnuc k0 = k_vnuc k).
  { rewrite K in HN |- *. simpl in *. repeat split; auto. }
  destruct X as (X1 & X2 & X3 & X4 & X5 & X6). rewrite H2 in X1. injection X1 as ->. rewrite X5, X6 in H9. split; [rewrite pair_integral_sum; exact H9|].
  rewrite X2, HI in H12. destruct H12 as [[? _]|(_ & vh & b & Ex & ex & vx & Ec & ec & vc & Eh & Z)]; [discriminate|].
  destruct Z as (_ & _ & _ & _ & _ & Z1 & _ & Z2 & _ & _ & _ & _ & Z3 & Z4). rewrite Z1, Z2, H5, Z3, Z4, H11, X3, X4, HZ. cbn [val to_R]. unfold Rdiv. ring.
Qed.
Lemma tot_ext : forall ab ess ens F h h', (ab = true \/ ens = false) -> (forall c, In c (if ab then comps_a ens else comps ens) -> h c = h' c) -> tot ab ess ens F h = tot ab ess ens F h'.
Proof.
  intros ab ess ens F h h' D H. unfold tot, of_A, of_B. destruct ab; cbn iota in *.
  - f_equal; apply share_ext; exact H.
  - destruct D as [D|D]; [discriminate|]. subst ens. f_equal; apply share_ext; intros c Hc; apply H; simpl in *; tauto.
Qed.
Lemma tot_plus : forall ab ess ens F h h', tot ab ess ens F (fun c => h c + h' c) = tot ab ess ens F h + tot ab ess ens F h'.
Proof. intros. unfold tot, of_A, of_B. destruct ab; rewrite <- !share_plus; ring. Qed.
(** all components from those that are computed *)
Lemma tot_all : forall ab ess ens F h, (ab = true -> (forall c, In c (comps_a ens) -> f_scale (F (twin c)) = f_scale (F c) /\ h (twin c) = h c)) -> (ab = true \/ ens = false) ->
  tot ab ess ens F h = share ess F (if ens then [Ca; CA; Cb; CB] else [Ca; Cb]) h.
Proof.
  intros ab ess ens F h H D. unfold tot, of_A, of_B, share. destruct ab.
  - specialize (H eq_refl). destruct ens; cbn [lsum].
    + destruct (H Ca) as (S1 & S2); [left; auto|]. destruct (H CA) as (S3 & S4); [right; left; auto|]. cbn [twin] in *. rewrite S1, S2, S3, S4. ring.
    + destruct (H Ca) as (S1 & S2); [left; auto|]. cbn [twin] in *. rewrite S1, S2. ring.
  - destruct D as [D|D]; [discriminate|]. subst. cbn [lsum b_list]. ring.
Qed.
Lemma nuclear_all : forall g w p F n e, densities p F n -> energies p F e -> at_nuclei p F -> belongs p F -> (forall c, In c (comps_ab p) -> evaluated g w (f_ks (F c))) ->
  (po_ab (p_opt p) = false /\ p_ens p = false) \/ (po_ab (p_opt p) = true /\ ab_mirror g p F n) ->
  tot (po_ab (p_opt p)) (po_ess (p_opt p)) (p_ens p) F (fun c => E_Enuc (e c)) =
  share (po_ess (p_opt p)) F (if p_ens p then [Ca; CA; Cb; CB] else [Ca; Cb]) (fun c => pair_integral g (p_pol p) (n c) (k_vnuc (f_ks (F c)))).
Proof.
  intros g w p F n e (HF & HD) HE HN HB HV D. set (h := fun c => pair_integral g (p_pol p) (n c) (k_vnuc (f_ks (F c)))).
  assert (D' : po_ab (p_opt p) = true \/ p_ens p = false) by tauto.
  transitivity (tot (po_ab (p_opt p)) (po_ess (p_opt p)) (p_ens p) F h).
  - apply tot_ext; auto. intros c Hc. assert (Hc' : In c (comps_ab p)) by exact Hc. pose proof (proj1 (in_comps_ab _ _) Hc') as (Mb & _). destruct (HB c Mb) as (B1 & _).
    rewrite (evaluated_nuclear g w _ _ _ (HV c Hc') (proj2 HE c Mb) (HD c Mb)), B1. reflexivity.
  - apply tot_all; auto. intros A c Hc. destruct D as [[D _]|[_ D]]; [congruence|]. apply in_comps_a in Hc. destruct Hc as (Mb & Oa). destruct (D) as (D1 & D2 & D3). split; [apply D3; auto|].
    unfold h. assert (Mt : member (p_ens p) (twin c)) by (destruct c; simpl in *; auto).
    rewrite (pair_at_nuclei g p F n (twin c) HN Mt), (pair_at_nuclei g p F n c HN Mb). pose proof (mirror_integral g p F n c D Mb Oa) as Y. destruct Oa as [-> | ->]; exact Y.
Qed.
Lemma forL_pE : forall X (l : list X) body, (forall x p p', body x p = Ok p' -> p_E p' = p_E p) -> forall p p', forL l body p = Ok p' -> p_E p' = p_E p.
Proof.
  induction l as [|x l IH]; intros body H p p' E; cbn [forL] in E; [injection E as <-; reflexivity|].
  destruct (body x p) as [q|] eqn:B; [|discriminate]. cbn [bind] in E. rewrite (IH body H q p' E). eapply H; eauto.
Qed.
Lemma overlap_E : forall g p p', vp_overlap g p = Ok p' -> exists S, p_E p' = aset (aset (p_E p) "S" S) "F" (erf (2 * S)).
Proof.
  intros g p p' H. unfold vp_overlap in H.
  destruct (axis1 (p_na p)) as [na|]; [|discriminate]. cbn [bind] in H. destruct (have (p_nb p)) as [nb|]; [|discriminate]. cbn [bind] in H.
  destruct (overlap_S _ _ _ _) as [S|]; [|discriminate]. cbn [bind] in H. cbv zeta in H.
  match type of H with bind ?m _ = _ => destruct m as [p1|] eqn:E1; [|discriminate] end. cbn [bind] in H. exists S.
  assert (XH : p_E p' = p_E p1) by (eapply forL_pE; [|exact H]; intros c q q' E; cbv beta in E; dm E; injection E as <-; reflexivity). rewrite XH.
  assert (XE1 : p_E p1 = p_E _) by (eapply forL_pE; [|exact E1]; intros c q q' E; cbv beta in E; dm E; injection E as <-; reflexivity). rewrite XE1. reflexivity.
Qed.
Lemma EnsCorHar_E : forall g p p', EnsCorHar g p = Ok p' -> exists x, p_E p' = aset (p_E p) "Ehcor" x.
Proof.
  intros g p p' H. unfold EnsCorHar in H. destruct (negb (p_ens p)); [discriminate|].
  match type of H with bind ?m _ = _ => destruct m as [p1|] eqn:E1; [|discriminate] end. cbn [bind] in H.
  match type of H with bind ?m _ = _ => destruct m as [p2|] eqn:E2; [|discriminate] end. cbn [bind] in H.
  match type of H with bind ?m _ = _ => destruct m as [e|] eqn:E3; [|discriminate] end. cbn [bind] in H. injection H as <-. exists e. cbn [set_E p_E]. f_equal.
  assert (XE2 : p_E p2 = p_E p1) by (eapply forL_pE; [|exact E2]; intros c q q' E; cbv beta in E; dm E; injection E as <-; reflexivity). rewrite XE2.
  assert (XE1 : p_E p1 = p_E _) by (eapply forL_pE; [|exact E1]; intros c q q' E; cbv beta in E; dm E; injection E as <-; reflexivity). rewrite XE1. reflexivity.
Qed.
Lemma ep_hxc_pot : forall g w p p', ep_hxc g w p = Ok p' -> p_E p' "Ep_pot"%string = p_E p "Ep_pot"%string.
Proof.
  intros g w p p' H. unfold ep_hxc in H. destruct (ep_dft g w p) as [p1|] eqn:E1; [|discriminate]. cbn [bind] in H. cbv zeta in H. rewrite <- (proj2 (proj2 (ep_dft_ekeep g w p p1 E1))). clear E1.
  destruct (String.eqb _ "exact"); [dm H; injection H as <-; reflexivity|].
  destruct (String.eqb _ "hartree"); [dm H; injection H as <-; reflexivity|].
  destruct (String.eqb _ "overlap_xc").
  { destruct (vp_overlap g p1) as [p2|] eqn:E2; [|discriminate]. cbn [bind] in H. apply overlap_E in E2. destruct E2 as (S & E2). dm H; injection H as <-. cbn [set_E p_E]. rewrite aset_other, E2 by discriminate. reflexivity. }
  destruct (String.eqb _ "overlap_hxc" || _); [|discriminate].
  destruct (vp_overlap g p1) as [p2|] eqn:E2; [|discriminate]. cbn [bind] in H. apply overlap_E in E2. destruct E2 as (S & E2).
  destruct (EnsCorHar g p2) as [p3|] eqn:E3; [|discriminate]. cbn [bind] in H. apply EnsCorHar_E in E3. destruct E3 as (x & E3). dm H; injection H as <-.
  cbn [set_E p_E]. rewrite aset_other, E3 by discriminate. rewrite aset_other, E2 by discriminate. reflexivity.
Qed.
Theorem nuclear_energy : forall g w p F n na nb nf e p',
  protomolecule p F n na nb nf -> densities p F n -> energies p F e -> at_nuclei p F -> belongs p F -> po_iso (p_opt p) = false ->
  (forall c, In c (comps_ab p) -> evaluated g w (f_ks (F c))) ->
  (po_ab (p_opt p) = false /\ p_ens p = false) \/ (po_ab (p_opt p) = true /\ ab_mirror g p F n) ->
  energy g w p = Ok p' -> exists a b, p_E p' "Enucf"%string = Some a /\ p_E p' "Ep_pot"%string = Some b /\ a + b = nuclear_total g p nf.
Proof.
  intros g w p F n na nb nf e p' HP HD HE HN HB Hs HV D H.
  pose proof (energy_parts g w p F e p' HE H) as (_ & _ & _ & _ & PN & _).
  apply energy_mid in H. destruct H as (p2 & p3 & M1 & M2 & _ & _ & _ & _ & _ & _ & _ & _ & _ & _ & _ & M7 & _).
  destruct M2 as (S1 & S2 & _ & _ & _ & _ & S7 & S8 & S9 & S10 & S11 & S12 & _ & _).
  eexists. rewrite (M7 "Ep_pot"%string) by (simpl; tauto). rewrite (nuclear_all g w p F n e HD HE HN HB HV D) in PN.
  unfold partition_energy in M1. rewrite S1, Hs in M1.
  destruct (ep_nuclear g p2) as [q1|] eqn:N1; [|discriminate]. cbn [bind] in M1.
  destruct (ep_kinetic g q1) as [q2|] eqn:N2; [|discriminate]. cbn [bind] in M1.
  destruct (ep_hxc g w q2) as [q3|] eqn:N3; [|discriminate]. cbn [bind] in M1.
  assert (HP2 : protomolecule p2 F n na nb nf).
  { destruct HP as (A1 & A2 & A3 & A4 & A5 & A6). unfold protomolecule. rewrite S1, S2, S7, S10, S11, S12. auto 10. }
  assert (HN2 : at_nuclei p2 F). { unfold at_nuclei in *. rewrite S2, S7, S8, S9. exact HN. }
  destruct (nuclear_sum g p2 F n na nb nf (fun c => pair_integral g (p_pol p) (n c) (k_vnuc (f_ks (F c)))) q1 HP2 HN2 N1) as (x0 & Y1 & Y2); [intros; rewrite S2; reflexivity|].
  rewrite S1, S7 in Y2. replace (nuclear_total g p2 nf) with (nuclear_total g p nf) in Y2 by (unfold nuclear_total; rewrite S2, S8, S9; reflexivity).
  exists x0. split; [exact PN|]. split; [|exact Y2]. rewrite <- Y1, <- (proj1 (proj2 (ep_kinetic_K g q1 q2 N2))), <- (ep_hxc_pot g w q2 q3 N3).
  dm M1. injection M1 as <-. reflexivity.
Qed.
Theorem reassembles : forall g w p F n na nb nf e p',
  protomolecule p F n na nb nf -> densities p F n -> energies p F e -> at_nuclei p F -> belongs p F ->
  po_int (p_opt p) = "dft"%string -> po_hxc (p_opt p) = "exact"%string -> po_kin (p_opt p) = "inversion"%string -> po_iso (p_opt p) = false ->
  (forall c, In c (comps_ab p) -> evaluated g w (f_ks (F c))) ->
  (po_ab (p_opt p) = false /\ p_ens p = false) \/ (po_ab (p_opt p) = true /\ ab_mirror g p F n) ->
  energy g w p = Ok p' ->
  exists iv T vh x c, p_inv p' = Some iv /\ get_Ts g iv = Ok (Fin T) /\
    v_hartree g (e_spL w) (e_spU w) (A1 (fun k => sumR (p_pol p) (fun s => nf k s))) = Ok vh /\ p_x p = Some x /\ p_c p = Some c /\
    p_T p' "Et"%string = Some (SC (T + nuclear_total g p nf + 1 / 2 * integrate1 g (fun k => sumR (p_pol p) (fun s => nf k s) * entry vh k 0) + fst x + fst c)).
Proof.
  intros g w p F n na nb nf e p' HP (HF & HD) HE HN HB Hi Hh Hk Hs HV D H.
  pose proof (energy_parts g w p F e p' HE H) as EP. cbv zeta in EP. rewrite Hi in EP. change (String.eqb "dft" "dft") with true in EP. cbv iota in EP.
  destruct EP as (_ & _ & _ & PT & PN & PX & PC & PH & _ & _ & _ & _ & Ep & P1 & P2 & _).
  apply energy_mid in H. destruct H as (p2 & p3 & M1 & M2 & M3 & M4 & M5 & M6 & _ & _ & _ & _ & _ & M7 & _ & _ & M8).
  rewrite M8 in PT, PN, PX, PC, PH by (simpl; tauto). clear M8. rewrite M7 in P1. clear M7. rewrite M6. clear M6.
  destruct M2 as (S1 & S2 & S3 & S4 & _ & _ & S7 & S8 & S9 & S10 & S11 & S12 & _ & _). destruct M3 as (X1 & X2 & _ & _).
  set (ab := po_ab (p_opt p)) in *. set (ess := po_ess (p_opt p)) in *. set (ens := p_ens p) in *.
  (* the energies of the components *)
  assert (D' : ab = true \/ ens = false) by tauto.
  assert (CA1 : forall c, In c (if ab then comps_a ens else comps ens) -> E_Enuc (e c) = pair_integral g (p_pol p) (n c) (k_vnuc (f_ks (F c))) /\
     to_R (E_E (e c)) = to_R (E_Ts (e c)) + E_Enuc (e c) + val (E_Eh (e c)) + E_Ex (e c) + E_Ec (e c)).
  { intros c Hc. assert (Hc' : In c (comps_ab p)) by exact Hc. pose proof (proj1 (in_comps_ab _ _) Hc') as (Mb & _). destruct (HB c Mb) as (B1 & B2 & B3).
    destruct (evaluated_energy g w _ _ _ (HV c Hc') (proj2 HE c Mb) (HD c Mb)) as (V1 & V2); [rewrite B2; exact Hi|exact B3|]. rewrite B1 in V1. split; auto. }
  set (h := fun c => pair_integral g (p_pol p) (n c) (k_vnuc (f_ks (F c)))).
  assert (TE : tot ab ess ens F (fun c => to_R (E_E (e c))) = tot ab ess ens F (fun c => to_R (E_Ts (e c))) + tot ab ess ens F h + tot ab ess ens F (fun c => val (E_Eh (e c))) + tot ab ess ens F (fun c => E_Ex (e c)) + tot ab ess ens F (fun c => E_Ec (e c))).
  { rewrite <- !tot_plus. apply tot_ext; auto. intros c Hc. destruct (CA1 c Hc) as (C1 & C2). rewrite C2, C1. reflexivity. }
  assert (TH : tot ab ess ens F h = share ess F (if ens then [Ca; CA; Cb; CB] else [Ca; Cb]) h).
  { apply tot_all; auto. intros A c Hc. destruct D as [[D _]|[_ D]]; [congruence|]. apply in_comps_a in Hc. destruct Hc as (Mb & Oa). destruct (D) as (D1 & D2 & D3). split; [apply D3; auto|].
    unfold h. assert (Mt : member (p_ens p) (twin c)) by (destruct c; simpl in *; auto).
    rewrite (pair_at_nuclei g p F n (twin c) HN Mt), (pair_at_nuclei g p F n c HN Mb). pose proof (mirror_integral g p F n c D Mb Oa) as Y. destruct Oa as [-> | ->]; exact Y. }
  (* the partition energy *)
  unfold partition_energy in M1. rewrite S1, Hs in M1.
  destruct (ep_nuclear g p2) as [q1|] eqn:N1; [|discriminate]. cbn [bind] in M1.
  destruct (ep_kinetic g q1) as [q2|] eqn:N2; [|discriminate]. cbn [bind] in M1.
  destruct (ep_hxc g w q2) as [q3|] eqn:N3; [|discriminate]. cbn [bind] in M1.
  assert (HP2 : protomolecule p2 F n na nb nf).
  { destruct HP as (A1 & A2 & A3 & A4 & A5 & A6). unfold protomolecule. rewrite S1, S2, S7, S10, S11, S12. auto 10. }
  assert (HN2 : at_nuclei p2 F). { unfold at_nuclei in *. rewrite S2, S7, S8, S9. exact HN. }
  destruct (nuclear_sum g p2 F n na nb nf h q1 HP2 HN2 N1) as (x0 & Y1 & Y2); [intros; unfold h; rewrite S2; reflexivity|].
  rewrite S1, S7 in Y2. fold ess ens in Y2. replace (nuclear_total g p2 nf) with (nuclear_total g p nf) in Y2 by (unfold nuclear_total; rewrite S2, S8, S9; reflexivity).
  assert (Q1 : psame p2 q1 /\ p_x q1 = p_x p2 /\ p_c q1 = p_c p2 /\ p_f q1 = p_f p2 /\ forall nm, nm <> "Ep_pot"%string -> p_E q1 nm = p_E p2 nm).
  { rewrite (ep_nuclear_spec _ _ _ _ _ _ _ _ HP2 N1). split; [apply psame_E|]. repeat (split; [reflexivity|]). intros. simpl. apply aset_other. auto. }
  destruct Q1 as (Q1 & Q2 & Q3 & Q4 & Q5). destruct Q1 as (R1 & R2 & _ & _ & _ & _ & R7 & _ & _ & R10 & R11 & R12 & _).
  (* kinetic *)
  pose proof (ep_kinetic_K g q1 q2 N2) as (_ & KE & _). pose proof (ep_kinetic_same g q1 q2 N2) as KS.
  destruct (ep_kinetic_inv g q1 q2 N2) as (r1 & Tm & tm & Tf & tf & K1 & _ & K2 & K3). rewrite R1, S1, Hk in K3.
  assert (K4 : epk_inversion g q1 = Ok (r1, (Tm, tm, Tf, tf))) by (destruct K3 as [[? _]|[[[?|?] _]|[[_ ?]|[[? _]|[? _]]]]]; try discriminate; auto). clear K3.
  destruct (epk_inversion_inv g q1 F e r1 Tm tm Tf tf) as (iv & T & I1 & I2 & I3 & I4).
  { intros c Hc. rewrite Q4, M5. assert (Mb : member (p_ens p) c).
    { apply in_comps_ab in Hc. rewrite R7, S7 in Hc. tauto. } split; [apply HF|apply HE]; auto. }
  { exact K4. }
  rewrite R1, S1 in K1. fold ess in K1. rewrite R1, S1 in I4. fold ab in I4. rewrite I3, I4 in K1.
  assert (CQ : comps_ab q1 = comps_ab p) by (unfold comps_ab; rewrite R1, S1, R7, S7; reflexivity). rewrite CQ in K1.
  assert (TT : (if ab then 2 else 1) * lsum (comps_ab p) (fun c => f_scale (F c) * to_R (E_Ts (e c))) * (if ess then 2 else 1) = tot ab ess ens F (fun c => to_R (E_Ts (e c)))).
  { unfold tot, of_A, of_B, share, comps_ab. fold ab ens. destruct D' as [->| ->]; [destruct ens|destruct ab]; cbn [comps comps_a b_list lsum]; ring. }
  assert (K5 : p_T q2 "Ep_kin"%string = Some (SC (T - tot ab ess ens F (fun c => to_R (E_Ts (e c)))))).
  { rewrite K1, <- TT. f_equal. destruct ess; cbn [sv_op]; f_equal; ring. }
  (* Hartree, exchange, correlation *)
  assert (KX : p_x q2 = p_x q1 /\ p_c q2 = p_c q1).
  { clear - N2 R1 S1 Hk. unfold ep_kinetic in N2. rewrite R1, S1, Hk in N2. cbn in N2. match type of N2 with bind ?m _ = _ => destruct m as [[r1 [[[Tm tm] Tf] tf]]|] eqn:E; [|discriminate] end. cbn [bind] in N2. injection N2 as <-.
    assert (X : p_x r1 = p_x q1 /\ p_c r1 = p_c q1).
    { unfold epk_inversion in E. dm E; try (injection E as <- <- <- <- <-; split; reflexivity). }
    exact X. }
  destruct KX as (KX1 & KX2). destruct KS as (U1 & U2 & _ & _ & _ & _ & U7 & _ & _ & U10 & U11 & U12 & _).
  unfold ep_hxc in N3. destruct (ep_dft g w q2) as [d1|] eqn:D1; [|discriminate]. cbn [bind] in N3. cbv zeta in N3.
  rewrite U1, R1, S1, Hh in N3. change (String.eqb "exact" "exact") with true in N3. cbv iota in N3.
  destruct (ep_dft_inv g w q2 d1 D1) as (nf' & vh & Eh0 & eh0 & x & Ex0 & ex0 & c & Ec0 & ec0 & V1 & V2 & V3 & _ & V5 & V6 & _ & V8 & V9 & _ & W1 & W2 & W3 & _); [rewrite U1, R1, S1; exact Hi|].
  pose proof (ep_dft_ekeep g w q2 d1 D1) as (_ & DT & DP).
  assert (nf' = nf). { rewrite U12, R12, S12 in V1. destruct HP as (_ & _ & A3 & _). rewrite A3 in V1. injection V1 as <-. reflexivity. } subst nf'.
  rewrite KE, Q5 in V3, V6, V9 by discriminate. rewrite PH in V3. rewrite PX in V6. rewrite PC in V9. injection V3 as <-. injection V6 as <-. injection V9 as <-.
  rewrite U2, R2, S2 in V2, W1.
  unfold attr in N3. rewrite W1, W2, W3 in N3. cbn [have bind] in N3. injection N3 as <-.
  cbn [set_E p_E p_T] in M1. unfold attr in M1. rewrite aset_other in M1 by discriminate. rewrite aset_same in M1. rewrite DP, KE, Y1, DT, K5 in M1. cbn [have bind sv_op] in M1.
  injection M1 as <-.
  exists iv, T, vh, x, c. split; [|split; [exact I2|split; [exact V2|split; [rewrite <- X1, <- Q2, <- KX1; exact V5|split; [rewrite <- X2, <- Q3, <- KX2; exact V8|]]]]].
  - cbn [set_T set_E p_inv]. transitivity (p_inv q2); [|rewrite K2; exact I1]. clear - D1. unfold ep_dft in D1. destruct (String.eqb _ _); [|injection D1 as <-; reflexivity]. dm D1. injection D1 as <-. reflexivity.
  - rewrite P2. cbn [set_T p_T] in P1. rewrite aset_same in P1. injection P1 as <-. cbn [sv_op]. do 2 f_equal. rewrite TE, <- Y2, <- TH. ring.
Qed.
