(** Partition: nuclear, kinetic and Hartree-exchange-correlation parts of the partition energy. *)
From Coq Require Import Reals List Arith Lia Lra ZArith Bool String.
From Verif Require Import Base BaseLemmas GridModel GridSpec GridProofs HartreeModel SolverModel SolverSpec LibxcModel OptionsModel KSModel KSSpec KSProofs KSLoop KSEnergy
  InverterModel PartitionModel PartitionSpec PartitionBase PartitionConstr PartitionDens PartitionFrame PartitionEnergy.
Import ListNotations.
Local Open Scope R_scope.

(** * Nuclear part *)
Lemma vp_nuclear_spec : forall p F v p', frags p F -> at_nuclei p F -> p_V p "vext"%string = Some v ->
  (forall k s, (s < p_pol p)%nat -> v k s = p_va p k + p_vb p k) -> vp_nuclear p = Ok p' ->
  forall c, member (p_ens p) c -> exists f u, p_f p' c = Some f /\ f_V f "vp_pot"%string = Some u /\
    forall k s, (s < p_pol p)%nat -> u k s = match c with Ca | CA => p_vb p k | Cb | CB => p_va p k end.
Proof.
  intros p F v p' HF HN HV Hv H c Hc. unfold vp_nuclear in H.
  pose proof (forL_frags (fun c p f => do v <- attr (p_V p) "vext"; Ok (fV f "vp_pot" (fun k s => v k s - k_vnuc (f_ks f) k s)))
    (comps (p_ens p)) p p' ltac:(intros ? ? ? ?; reflexivity) (comps_nodup _)) as L. cbv beta in L.
  assert (H' : forL (comps (p_ens p)) (fun c p => do f <- get_f p c; do f' <- (do v <- attr (p_V p) "vext"; Ok (fV f "vp_pot" (fun k s => v k s - k_vnuc (f_ks f) k s))); Ok (set_frag p c f')) p = Ok p').
  { rewrite <- H. apply forL_ext. intros d q _. destruct (get_f q d) as [f|]; cbn [bind]; auto. destruct (attr (p_V q) "vext"); auto. }
  destruct (L H') as (_ & B & _). destruct (B c (proj2 (in_comps _ _) Hc)) as (f & f' & B1 & B2 & B3). unfold attr in B2. rewrite HV in B2. cbn [have bind] in B2. injection B2 as <-.
  exists (fV f "vp_pot" (fun k s => v k s - k_vnuc (f_ks f) k s)), (fun k s => v k s - k_vnuc (f_ks f) k s). split; auto. split; [reflexivity|].
  intros k s Hs. rewrite (Hv k s Hs). rewrite (HF c Hc) in B1. injection B1 as <-. rewrite (HN c Hc k s Hs). destruct c; ring.
Qed.
Lemma frag_vnuc : forall g o Za Zb pol s f, frag_init g o Za Zb pol s = Ok f -> k_vnuc (f_ks f) = ks_vnuc g Za Zb pol (po_sym o).
Proof.
  intros g o Za Zb pol s f H. unfold frag_init, ks_init in H. destruct (configure KohnShamOptions _) as [k|] eqn:C; [|discriminate]. cbn [bind] in H.
  apply ks_config in C. destruct C as (_ & C2 & _). destruct (negb _); [discriminate|]. cbv zeta in H. destruct (Pssolver _ _ _ _ _); [|discriminate]. cbn [bind] in H.
  injection H as <-. cbn. rewrite C2. reflexivity.
Qed.
Lemma init_nuclei : forall g Za Zb pol spec nua nub opt p, partition_init g Za Zb pol spec nua nub opt = Ok p -> po_sym (p_opt p) = false -> (pol <= 2)%nat ->
  exists F v, frags p F /\ at_nuclei p F /\ p_V p "vext"%string = Some v /\ (forall k s, (s < p_pol p)%nat -> v k s = p_va p k + p_vb p k).
Proof.
  intros g Za Zb pol spec nua nub opt p H HS HP. apply init_inv in H.
  destruct H as (d & _ & _ & _ & P1 & P2 & P3 & _ & _ & P4 & P5 & P6 & P7 & _ & W).
  exists (fun c => match p_f p c with Some f => f | None => new_frag (mkKS (mkKSopt "" false false 0 0 "") 0 0 0 0 0 (fun _ _ => dummy_solver) (fun _ _ => 0) None None None None None None (mkV None None None None None None)) end), (p_vext g pol Za Zb).
  split; [intros c Hc; destruct (W c Hc) as (f & _ & ->); reflexivity|]. split; [|split; [auto|]].
  - intros c Hc k s Hs. destruct (W c Hc) as (f & W1 & W2). rewrite W2. cbn [fscale f_ks]. rewrite (frag_vnuc _ _ _ _ _ _ _ W1), HS. unfold ks_vnuc. rewrite P5, P6. rewrite P1 in Hs.
    destruct pol as [|[|[|pol]]]; try lia.
    + replace s with 0%nat by lia. destruct c; reflexivity.
    + destruct s as [|[|s]]; try lia; destruct c; reflexivity.
  - intros k s Hs. rewrite P1 in Hs. rewrite P5, P6. unfold p_vext. destruct pol as [|[|[|pol]]]; try lia.
    + replace s with 0%nat by lia. reflexivity.
    + destruct s as [|[|s]]; try lia; reflexivity.
Qed.
(** column sums of a group: the spin-flipped copies contribute the same again *)
Lemma group_cols : forall ess pol F n l k, sum_cols pol (fun k s => group ess pol F n l k s) k = share ess F l (fun c => sum_cols pol (n c) k).
Proof.
  intros. unfold sum_cols, group, share. induction l as [|c l IH]; cbn [lsum].
  - rewrite sumR_zero by reflexivity. ring.
  - rewrite sumR_plus, IH. rewrite Rmult_plus_distr_l. f_equal. rewrite sumR_scal. destruct ess.
    + rewrite sumR_plus. pose proof (sumR_rev pol (fun s => n c k s)) as X. cbv beta in X. rewrite X. change (sumR pol (n c k)) with (sumR pol (fun s => n c k s)). ring.
    + rewrite (sumR_ext pol (fun s => n c k s + 0) (fun s => n c k s)) by (intros; ring). ring.
Qed.
Lemma share_ext : forall ess F l h h', (forall c, In c l -> h c = h' c) -> share ess F l h = share ess F l h'.
Proof. intros. unfold share. f_equal. apply lsum_ext. intros. rewrite H by auto. reflexivity. Qed.
Lemma share_integrate : forall g ess F l h, integrate1 g (fun k => share ess F l (fun c => h c k)) = share ess F l (fun c => integrate1 g (h c)).
Proof. intros. unfold share. rewrite integrate1_scal. f_equal. rewrite lsum_integrate. apply lsum_ext. intros. apply integrate1_scal. Qed.
Lemma share_mult : forall ess F l h x, share ess F l h * x = share ess F l (fun c => h c * x).
Proof. intros. unfold share. rewrite Rmult_assoc. f_equal. induction l as [|c l IH]; cbn [lsum]; [ring|]. rewrite Rmult_plus_distr_r, IH. ring. Qed.
Lemma share_plus : forall ess F l h h', share ess F l h + share ess F l h' = share ess F l (fun c => h c + h' c).
Proof. intros. unfold share. rewrite <- Rmult_plus_distr_l, <- lsum_plus. f_equal. apply lsum_ext. intros. ring. Qed.
Lemma group_pot : forall g ess pol F n l v, integrate1 g (fun k => sum_cols pol (fun k s => group ess pol F n l k s) k * v k) = share ess F l (fun c => integrate1 g (fun k => sum_cols pol (n c) k * v k)).
Proof.
  intros. rewrite <- (share_integrate g ess F l (fun c k => sum_cols pol (n c) k * v k)). apply integrate1_ext. intros. rewrite group_cols, share_mult. reflexivity.
Qed.
Lemma ep_nuclear_spec : forall g p F n na nb nf p', protomolecule p F n na nb nf -> ep_nuclear g p = Ok p' ->
  p' = set_E p "Ep_pot" (share (po_ess (p_opt p)) F (if p_ens p then [Ca; CA] else [Ca]) (fun c => integrate1 g (fun k => sum_cols (p_pol p) (n c) k * p_vb p k)) +
                         share (po_ess (p_opt p)) F (if p_ens p then [Cb; CB] else [Cb]) (fun c => integrate1 g (fun k => sum_cols (p_pol p) (n c) k * p_va p k))).
Proof.
  intros g p F n na nb nf p' (N1 & N2 & N3 & V1 & V2 & V3) H. unfold ep_nuclear in H. rewrite N1, N2 in H. cbn [axis1 have bind] in H. injection H as <-. f_equal.
  rewrite <- !group_pot. f_equal; apply integrate1_ext; intros k _; f_equal; unfold sum_cols; apply sumR_ext; intros s _; auto.
Qed.
Lemma pair_at_nuclei : forall g p F n c, at_nuclei p F -> member (p_ens p) c ->
  pair_integral g (p_pol p) (n c) (k_vnuc (f_ks (F c))) = integrate1 g (fun k => sum_cols (p_pol p) (n c) k * match c with Ca | CA => p_va p k | Cb | CB => p_vb p k end).
Proof.
  intros g p F n c HN Hc. unfold pair_integral. apply integrate1_ext. intros k _. unfold sum_cols. rewrite (Rmult_comm (sumR _ _)), <- sumR_scal. apply sumR_ext. intros s Hs. rewrite (HN c Hc k s Hs). ring.
Qed.
Lemma nuclear_sum : forall g p F n na nb nf h p', protomolecule p F n na nb nf -> at_nuclei p F -> ep_nuclear g p = Ok p' ->
  (forall c, member (p_ens p) c -> h c = pair_integral g (p_pol p) (n c) (k_vnuc (f_ks (F c)))) ->
  exists x, p_E p' "Ep_pot"%string = Some x /\
    share (po_ess (p_opt p)) F (if p_ens p then [Ca; CA; Cb; CB] else [Ca; Cb]) h + x = nuclear_total g p nf.
Proof.
  intros g p F n na nb nf h p' P HN H HE. rewrite (ep_nuclear_spec g p F n na nb nf p' P H). eexists. split; [reflexivity|].
  destruct P as (_ & _ & _ & V1 & V2 & V3).
  assert (X : nuclear_total g p nf = integrate1 g (fun k => sum_cols (p_pol p) (fun k s => group (po_ess (p_opt p)) (p_pol p) F n (if p_ens p then [Ca; CA] else [Ca]) k s) k * (p_va p k + p_vb p k))
     + integrate1 g (fun k => sum_cols (p_pol p) (fun k s => group (po_ess (p_opt p)) (p_pol p) F n (if p_ens p then [Cb; CB] else [Cb]) k s) k * (p_va p k + p_vb p k))).
  { unfold nuclear_total. rewrite <- integrate1_plus. apply integrate1_ext. intros k _. rewrite <- Rmult_plus_distr_r. f_equal. unfold sum_cols. rewrite <- sumR_plus. apply sumR_ext. intros. rewrite V3, V1, V2. reflexivity. }
  rewrite X, !group_pot. clear X.
  assert (Y : forall l, integrate1 g (fun k => sum_cols (p_pol p) (n l) k * (p_va p k + p_vb p k)) = integrate1 g (fun k => sum_cols (p_pol p) (n l) k * p_va p k) + integrate1 g (fun k => sum_cols (p_pol p) (n l) k * p_vb p k)).
  { intros. rewrite <- integrate1_plus. apply integrate1_ext. intros. ring. }
  pose proof (fun c M => eq_trans (HE c M) (pair_at_nuclei g p F n c HN M)) as Z.
  unfold share. destruct (p_ens p) eqn:En; cbn [lsum].
  - rewrite (Z Ca Logic.I), (Z CA eq_refl), (Z Cb Logic.I), (Z CB eq_refl), !Y. ring.
  - rewrite (Z Ca Logic.I), (Z Cb Logic.I), !Y. ring.
Qed.
(** with a mirror plane the copies of A's sums are B's sums *)
Lemma mirror1_of : forall g a b k s, mirrored g a b -> (k < Nelem g)%nat -> mirror1 g (fun x => a x s) k = b k s.
Proof. intros g a b k s M Hk. destruct (pos_surj g k Hk) as (ia & ir & P & ->). rewrite mirror1_pos by auto. symmetry. apply M. auto. Qed.
Lemma mirror_integral : forall g p F n c, ab_mirror g p F n -> member (p_ens p) c -> of_a c ->
  integrate1 g (fun k => sum_cols (p_pol p) (n (twin c)) k * p_vb p k) = integrate1 g (fun k => sum_cols (p_pol p) (n c) k * p_va p k).
Proof.
  intros g p F n c (MI & MV & MC) Hc Ha. rewrite <- (MI (fun k => sum_cols (p_pol p) (n c) k * p_va p k)). apply integrate1_ext. intros k Hk. destruct (MC c Hc Ha) as (_ & M).
  transitivity (sum_cols (p_pol p) (n (twin c)) k * mirror1 g (p_va p) k); [rewrite <- MV; auto|].
  destruct (pos_surj g k Hk) as (ia & ir & P & ->). rewrite !mirror1_pos by auto. f_equal. unfold sum_cols. apply sumR_ext. intros s _. apply M. auto.
Qed.

(** * Kinetic part *)
Lemma ep_kinetic_inv : forall g p p', ep_kinetic g p = Ok p' -> exists p1 Tm tm Tf tf,
  p_T p' "Ep_kin"%string = Some (sv_op Rminus Tm (if po_ess (p_opt p) then sv_op Rmult Tf (SC 2) else Tf)) /\
  p_epk p' = Some (arr_map2 nsub tm (if po_ess (p_opt p) then arr_map2 nadd tf tf else tf)) /\ p_inv p' = p_inv p1 /\
  ((po_kin (p_opt p) = "vonweiz"%string /\ epk_vonweiz g p = Ok (p1, (Tm, tm, Tf, tf))) \/
   ((po_kin (p_opt p) = "libxcke"%string \/ po_kin (p_opt p) = "paramke"%string) /\ epk_libxc p = Ok (p1, (Tm, tm, Tf, tf))) \/
   (po_kin (p_opt p) = "inversion"%string /\ epk_inversion g p = Ok (p1, (Tm, tm, Tf, tf))) \/
   (po_kin (p_opt p) = "none"%string /\ epk_none p = Ok (p1, (Tm, tm, Tf, tf))) \/
   (po_kin (p_opt p) = "twoorbital"%string /\ epk_two g p = Ok (p1, (Tm, tm, Tf, tf)))).
Proof.
  intros g p p' H. unfold ep_kinetic in H. cbv zeta in H. match type of H with bind ?m _ = _ => destruct m as [[p1 [[[Tm tm] Tf] tf]]|] eqn:E1; [|discriminate] end. cbn [bind] in H.
  injection H as <-. exists p1, Tm, tm, Tf, tf. split; [reflexivity|]. split; [reflexivity|]. split; [reflexivity|].
  destruct (String.eqb_spec (po_kin (p_opt p)) "vonweiz"); [left; auto|]. right.
  destruct (String.eqb_spec (po_kin (p_opt p)) "libxcke"); [left; auto|]. destruct (String.eqb_spec (po_kin (p_opt p)) "paramke"); [left; auto|]. cbn [orb] in E1. right.
  destruct (String.eqb_spec (po_kin (p_opt p)) "inversion"); [left; auto|]. right.
  destruct (String.eqb_spec (po_kin (p_opt p)) "none"); [left; auto|]. right.
  destruct (String.eqb_spec (po_kin (p_opt p)) "twoorbital"); [auto|discriminate].
Qed.
Lemma epk_inversion_inv : forall g p F e p1 Tm tm Tf tf, (forall c, In c (comps_ab p) -> p_f p c = Some (F c) /\ k_E (f_ks (F c)) = Some (e c)) ->
  epk_inversion g p = Ok (p1, (Tm, tm, Tf, tf)) ->
  exists iv T, p_inv p1 = Some iv /\ get_Ts g iv = Ok (Fin T) /\ Tm = SC T /\
    Tf = SC ((if po_ab (p_opt p) then 2 else 1) * lsum (comps_ab p) (fun c => f_scale (F c) * to_R (E_Ts (e c)))).
Proof.
  intros g p F e p1 Tm tm Tf tf HC H. unfold epk_inversion in H.
  destruct (have (p_inv p)) as [iv|]; [|discriminate]. cbn [bind] in H. destruct (get_ts_WFI g iv) as [[iv' ts]|]; [|discriminate]. cbn [bind] in H.
  destruct (have (p_nf p)) as [nf|]; [|discriminate]. cbn [bind] in H. cbv zeta in H. cbn [fst snd] in H. destruct (get_Ts g iv') as [T0|] eqn:ET; [|discriminate]. cbn [bind] in H.
  destruct (fin T0) as [T|] eqn:EF; [|discriminate]. apply fin_ok in EF. subst T0. cbn [bind] in H.
  match type of H with bind ?m _ = _ => destruct m as [[a1 a2]|] eqn:E1; [|discriminate] end. cbn [bind fst snd] in H.
  assert (X : a1 = lsum (comps_ab p) (fun c => f_scale (F c) * to_R (E_Ts (e c)))).
  { assert (G : forall l acc r, (forall c, In c l -> p_f p c = Some (F c) /\ k_E (f_ks (F c)) = Some (e c)) ->
      forL l (fun c (acc : R * (nat -> num)) => do f <- get_f p c; do e <- have (k_E (f_ks f)); do T <- fin (E_Ts e); do ts <- frag_ts g p f; do Q <- getQ f;
        Ok (fst acc + f_scale f * T, fun k => nadd (snd acc k) (nmulr (ts k) (f_scale f * sum_cols (p_pol p) Q k)))) acc = Ok r ->
      fst r = fst acc + lsum l (fun c => f_scale (F c) * to_R (E_Ts (e c)))).
    { clear. induction l as [|c l IH]; intros acc r HC H; cbn [forL lsum] in *; [injection H as <-; ring|].
      destruct (HC c (or_introl eq_refl)) as (C1 & C2). unfold get_f in H at 1. rewrite C1 in H. cbn [have bind] in H. rewrite C2 in H. cbn [have bind] in H.
      destruct (fin (E_Ts (e c))) as [t|] eqn:T; [|discriminate]. cbn [bind] in H. apply fin_ok in T. destruct (frag_ts g p (F c)); [|discriminate]. cbn [bind] in H.
      destruct (getQ (F c)); [|discriminate]. cbn [bind] in H. apply IH in H; [|intros; apply HC; right; auto]. rewrite H, T. cbn [fst to_R]. ring. }
    apply G in E1; auto. cbn [fst] in E1. rewrite E1. ring. }
  destruct (po_ab (p_opt p)).
  - injection H as <- <- <- <- <-. exists iv', T. split; [reflexivity|]. split; [auto|]. split; [reflexivity|]. rewrite X. f_equal. ring.
  - injection H as <- <- <- <- <-. exists iv', T. split; [reflexivity|]. split; [auto|]. split; [reflexivity|]. rewrite X. f_equal. ring.
Qed.

(** * Hartree, exchange, correlation *)
Lemma ep_dft_inv : forall g w p p', ep_dft g w p = Ok p' -> po_int (p_opt p) = "dft"%string ->
  exists nf vh Ehf ehf x Exf exf c Ecf ecf, p_nf p = Some nf /\ v_hartree g (e_spL w) (e_spU w) (A1 (fun k => sumR (p_pol p) (fun s => nf k s))) = Ok vh /\
    p_E p "Ehf"%string = Some Ehf /\ forL (comps_ab p) (ehf_step g p) (fun _ => 0) = Ok ehf /\ p_x p = Some x /\ p_E p "Exf"%string = Some Exf /\ exf_sum g p V_ex = Ok exf /\
    p_c p = Some c /\ p_E p "Ecf"%string = Some Ecf /\ exf_sum g p V_ec = Ok ecf /\
    p_E p' "Ep_h"%string = Some (1 / 2 * integrate1 g (fun k => sumR (p_pol p) (fun s => nf k s) * entry vh k 0) - Ehf) /\
    p_E p' "Ep_x"%string = Some (fst x - Exf) /\ p_E p' "Ep_c"%string = Some (fst c - Ecf) /\
    (exists h, p_V p' "ep_h"%string = Some h /\ forall k s, h k s = 1 / 2 * entry vh k 0 - ehf k) /\
    (exists h, p_V p' "ep_x"%string = Some h /\ forall k s, h k s = snd x k - exf k) /\
    (exists h, p_V p' "ep_c"%string = Some h /\ forall k s, h k s = snd c k - ecf k).
Proof.
  intros g w p p' H I. unfold ep_dft in H. rewrite I in H. change (String.eqb "dft" "dft") with true in H. cbv iota in H.
  destruct (have (p_nf p)) as [nf|] eqn:E1; [|discriminate]. cbn [bind] in H. cbv zeta in H.
  destruct (v_hartree g (e_spL w) (e_spU w) (A1 (sum_cols (p_pol p) nf))) as [vh|] eqn:E2; [|discriminate]. cbn [bind] in H.
  destruct (attr (p_E p) "Ehf") as [Ehf|] eqn:E3; [|discriminate]. cbn [bind] in H.
  destruct (forL (comps_ab p) (ehf_step g p) (fun _ => 0)) as [ehf|] eqn:E4; [|discriminate]. cbn [bind] in H.
  destruct (have (p_x p)) as [x|] eqn:E5; [|discriminate]. cbn [bind] in H. destruct (attr (p_E p) "Exf") as [Exf|] eqn:E6; [|discriminate]. cbn [bind] in H.
  destruct (exf_sum g p V_ex) as [exf|] eqn:E7; [|discriminate]. cbn [bind] in H. destruct (have (p_c p)) as [c|] eqn:E8; [|discriminate]. cbn [bind] in H.
  destruct (attr (p_E p) "Ecf") as [Ecf|] eqn:E9; [|discriminate]. cbn [bind] in H. destruct (exf_sum g p V_ec) as [ecf|] eqn:E10; [|discriminate]. cbn [bind] in H.
  injection H as <-. apply have_some in E1, E3, E5, E6, E8, E9.
  exists nf, vh, Ehf, ehf, x, Exf, exf, c, Ecf, ecf. do 10 (split; [first [assumption|exact E2|reflexivity]|]).
  assert (AE : forall k, arr_fun vh k 0%nat = entry vh k 0) by (intros; destruct vh; reflexivity).
  split; [|split; [reflexivity|split; [reflexivity|]]].
  - cbn [set_V set_E p_E]. rewrite aset_other by discriminate. rewrite aset_other by discriminate. rewrite aset_same. f_equal. f_equal. rewrite <- integrate1_scal. apply integrate1_ext. intros. rewrite AE. unfold sum_cols. ring.
  - split; [|split]; eexists; (split; [reflexivity|]); intros; cbv beta; rewrite ?AE; reflexivity.
Qed.
(** Q-weighted contribution of a component, none if it is frozen *)
Definition qpart (pol : nat) (F : comp -> frag) (q : comp -> mat) (h : comp -> vec) (c : comp) (k : nat) : R :=
  match f_frozen (F c) with Some true => 0 | _ => sumR pol (fun s => q c k s) * h c k end.
Definition has_Q (p : part) (F : comp -> frag) (q : comp -> mat) : Prop := forall c, member (p_ens p) c -> f_Q (F c) = Some (q c).
Lemma exf_spec : forall g p F q sel h a, frags p F -> has_Q p F q -> (forall c, member (p_ens p) c -> sel (k_V (f_ks (F c))) = Some (h c)) ->
  exf_sum g p sel = Ok a -> forall k, (k < Nelem g)%nat ->
  a k = if po_ab (p_opt p)
        then lsum (if p_ens p then [Ca; CA] else [Ca]) (fun c => qpart (p_pol p) F q h c k + mirror1 g (qpart (p_pol p) F q h c) k)
        else lsum (if p_ens p then [Ca; CA; Cb; CB] else [Ca; Cb]) (fun c => qpart (p_pol p) F q h c k).
Proof.
  intros g p F q sel h a HF HQ HV H. unfold exf_sum in H.
  match type of H with bind ?m _ = _ => destruct m as [b|] eqn:E1; [|discriminate] end. cbn [bind] in H. injection H as <-.
  assert (G : forall l acc r, (forall c, In c l -> member (p_ens p) c) ->
    forL l (fun c acc => do f <- get_f p c; if active f then do Q <- getQ f; do x <- have (sel (k_V (f_ks f))); Ok (fun k => acc k + sum_cols (p_pol p) Q k * x k) else Ok acc) acc = Ok r ->
    forall k, r k = acc k + lsum l (fun c => qpart (p_pol p) F q h c k)).
  { clear E1 b. induction l as [|c l IH]; intros acc r HL H k; cbn [forL lsum] in *; [injection H as <-; ring|].
    pose proof (HL c (or_introl eq_refl)) as M. unfold get_f in H at 1. rewrite (HF c M) in H. cbn [have bind] in H. unfold qpart at 1. unfold active in H at 1. unfold getQ in H at 1. rewrite (HQ c M), (HV c M) in H.
    destruct (f_frozen (F c)) as [[|]|]; cbn [have bind] in H; (eapply IH in H; [rewrite H; unfold sum_cols; ring|intros; apply HL; right; auto]). }
  intros k Hk. assert (L : forall c, In c (comps_ab p) -> member (p_ens p) c) by (intros c Hc; apply in_comps_ab in Hc; tauto).
  pose proof (G _ _ _ L E1) as V. unfold comps_ab in V. destruct (po_ab (p_opt p)).
  - rewrite V, lsum_plus. rewrite (mirror1_ext _ g b (fun k => lsum (comps_a (p_ens p)) (fun c => qpart (p_pol p) F q h c k)) k).
    + rewrite Rplus_0_l. apply Rplus_eq_compat_l. destruct (pos_surj g k Hk) as (ia & ir & P & ->). rewrite mirror1_pos by auto. unfold comps_a. apply lsum_ext. intros. rewrite mirror1_pos by auto. reflexivity.
    + exact Hk.
    + intros x _. rewrite V. ring.
  - rewrite V, Rplus_0_l. reflexivity.
Qed.
Lemma ehf_spec : forall g p F q h a, frags p F -> has_Q p F q -> (forall c, member (p_ens p) c -> V_eh (k_V (f_ks (F c))) = Some (h c)) ->
  forL (comps_ab p) (ehf_step g p) (fun _ => 0) = Ok a -> forall k, (k < Nelem g)%nat ->
  a k = if po_ab (p_opt p)
        then (if p_ens p then 2 * (qpart (p_pol p) F q h Ca k + mirror1 g (qpart (p_pol p) F q h Ca) k) + (qpart (p_pol p) F q h CA k + mirror1 g (qpart (p_pol p) F q h CA) k)
              else qpart (p_pol p) F q h Ca k + mirror1 g (qpart (p_pol p) F q h Ca) k)
        else lsum (if p_ens p then [Ca; CA; Cb; CB] else [Ca; Cb]) (fun c => qpart (p_pol p) F q h c k).
Proof.
  intros g p F q h a HF HQ HV H.
  assert (S : forall c acc r, member (p_ens p) c -> ehf_step g p c acc = Ok r -> exists b, (forall k, b k = acc k + qpart (p_pol p) F q h c k) /\
     r = if po_ab (p_opt p) then fun k => b k + mirror1 g b k else b).
  { intros c acc r M E. unfold ehf_step in E. unfold get_f in E. rewrite (HF c M) in E. cbn [have bind] in E. unfold active, getQ in E. rewrite (HQ c M), (HV c M) in E.
    unfold qpart. destruct (f_frozen (F c)) as [[|]|]; cbn [have bind] in E; injection E as <-; eexists; (split; [|reflexivity]); intros; unfold sum_cols; ring. }
  assert (X : forall (b b' : vec) k, (k < Nelem g)%nat -> (forall k, b k = b' k) -> mirror1 g b k = mirror1 g b' k) by (intros; apply mirror1_ext; auto).
  assert (MP : forall (b b' : vec) k, (k < Nelem g)%nat -> mirror1 g (fun k => b k + b' k) k = mirror1 g b k + mirror1 g b' k).
  { intros b b' k Hk. destruct (pos_surj g k Hk) as (ia & ir & P & ->). rewrite !mirror1_pos by auto. reflexivity. }
  assert (MM : forall (b : vec) k, (k < Nelem g)%nat -> mirror1 g (mirror1 g b) k = b k) by (intros; apply mirror1_invol; auto).
  intros k Hk. unfold comps_ab in H. destruct (po_ab (p_opt p)) eqn:AB.
  - destruct (p_ens p) eqn:En; cbn [comps_a forL] in H.
    + destruct (ehf_step g p Ca (fun _ => 0)) as [r1|] eqn:E1; [|discriminate]. cbn [bind] in H. destruct (ehf_step g p CA r1) as [r2|] eqn:E2; [|discriminate]. cbn [bind] in H. injection H as <-.
      apply S in E1; [|exact Logic.I]. apply S in E2; [|reflexivity]. destruct E1 as (b1 & B1 & ->), E2 as (b2 & B2 & ->). cbv beta in B1, B2 |- *.
      rewrite (X b2 _ k Hk B2). rewrite B2. rewrite (MP (fun k => b1 k + mirror1 g b1 k)), (MP b1), MM by auto.
      rewrite (X b1 (fun k => qpart (p_pol p) F q h Ca k) k Hk) by (intros; rewrite B1; ring). rewrite B1. fold (qpart (p_pol p) F q h Ca).
      change (fun k0 : nat => qpart (p_pol p) F q h CA k0) with (qpart (p_pol p) F q h CA). change (fun k : nat => qpart (p_pol p) F q h Ca k) with (qpart (p_pol p) F q h Ca). ring.
    + destruct (ehf_step g p Ca (fun _ => 0)) as [r1|] eqn:E1; [|discriminate]. cbn [bind] in H. injection H as <-. apply S in E1; [|exact Logic.I]. destruct E1 as (b1 & B1 & ->). cbv beta in B1 |- *.
      rewrite (X b1 (qpart (p_pol p) F q h Ca) k Hk) by (intros; rewrite B1; ring). rewrite B1. ring.
  - assert (G : forall l acc r, (forall c, In c l -> member (p_ens p) c) -> forL l (ehf_step g p) acc = Ok r -> r k = acc k + lsum l (fun c => qpart (p_pol p) F q h c k)).
    { induction l as [|c l IH]; intros acc r HL E; cbn [forL lsum] in *; [injection E as <-; ring|].
      destruct (ehf_step g p c acc) as [r1|] eqn:E1; [|discriminate]. cbn [bind] in E. apply S in E1; [|apply HL; left; auto]. destruct E1 as (b & B & ->).
      apply IH in E; [|intros; apply HL; right; auto]. rewrite E, B. ring. }
    apply G in H; [rewrite H, Rplus_0_l; reflexivity|]. intros c Hc. apply in_comps. exact Hc.
Qed.
