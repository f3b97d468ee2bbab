(** Partition: protomolecule, Q functions, mirror image. *)
From Coq Require Import Reals List Arith Lia Lra ZArith Bool String.
From Verif Require Import Base BaseLemmas GridModel GridSpec GridProofs HartreeModel SolverModel SolverSpec LibxcModel OptionsModel KSModel KSSpec KSProofs KSLoop
  InverterModel PartitionModel PartitionSpec PartitionBase.
Import ListNotations.
Local Open Scope R_scope.

Lemma lsum_plus : forall l h k, lsum l (fun c => h c + k c) = lsum l h + lsum l k.
Proof. induction l; intros; simpl; [lra|rewrite IHl; lra]. Qed.
Lemma lsum_scal : forall l h x, lsum l (fun c => x * h c) = x * lsum l h.
Proof. induction l; intros; simpl; [lra|rewrite IHl; lra]. Qed.
Lemma lsum_div : forall l h x, lsum l (fun c => h c / x) = lsum l h / x.
Proof. induction l; intros; simpl; [lra|rewrite IHl; lra]. Qed.
Lemma lsum_app : forall l r h, lsum (l ++ r) h = lsum l h + lsum r h.
Proof. induction l; intros; simpl; [lra|rewrite IHl; lra]. Qed.
Lemma lsum_nonneg : forall l h, (forall c, In c l -> 0 <= h c) -> 0 <= lsum l h.
Proof. induction l; intros h H; simpl; [lra|]. pose proof (H a (or_introl eq_refl)). pose proof (IHl h (fun c Hc => H c (or_intror Hc))). lra. Qed.
Lemma lsum_ge : forall l h c, In c l -> (forall c, In c l -> 0 <= h c) -> h c <= lsum l h.
Proof.
  induction l; intros h c Hc H; simpl; [destruct Hc|]. destruct Hc as [<-|Hc].
  - pose proof (lsum_nonneg l h (fun c Hc => H c (or_intror Hc))). lra.
  - pose proof (H a (or_introl eq_refl)). pose proof (IHl h c Hc (fun c Hc => H c (or_intror Hc))). lra.
Qed.
Lemma lsum_integrate : forall g l h, integrate1 g (fun k => lsum l (fun c => h c k)) = lsum l (fun c => integrate1 g (h c)).
Proof. induction l; intros; simpl; [apply integrate1_zero|]. rewrite integrate1_plus, IHl. reflexivity. Qed.
Lemma comps_split : forall e h, lsum (comps e) h = lsum (comps_a e) h + lsum (comps_b e) h.
Proof. destruct e; intros; simpl; lra. Qed.

(** * protomolecule *)
Lemma scaled_sum_spec : forall p F n l acc0, (forall c, In c l -> p_f p c = Some (F c) /\ k_n (f_ks (F c)) = Some (n c)) ->
  exists s, forL l (fun c acc => do f <- get_f p c; do n <- need (k_n (f_ks f)); Ok (fun k s => acc k s + n k s * f_scale f)) acc0 = Ok s /\
  forall k x, s k x = acc0 k x + lsum l (fun c => f_scale (F c) * n c k x).
Proof.
  intros p F n l. induction l as [|c l IH]; intros acc0 H; simpl.
  - exists acc0. split; auto. intros. lra.
  - destruct (H c (or_introl eq_refl)) as (H1 & H2). unfold get_f. rewrite H1. cbn [have bind]. rewrite H2. cbn [need bind].
    destruct (IH (fun k s => acc0 k s + n c k s * f_scale (F c))) as (s & E & V); [intros; apply H; right; auto|].
    exists s. split; [exact E|]. intros. rewrite V. lra.
Qed.
Lemma proto_spec : forall p F n, densities p F n ->
  exists na nb, calc_protomolecule p = Ok (set_dens p na nb (fun k s => na k s + nb k s)) /\
  (forall k s, na k s = group (po_ess (p_opt p)) (p_pol p) F n (comps_a (p_ens p)) k s) /\
  (forall k s, nb k s = group (po_ess (p_opt p)) (p_pol p) F n (comps_b (p_ens p)) k s).
Proof.
  intros p F n (HF & Hn). unfold calc_protomolecule, scaled_sum.
  destruct (scaled_sum_spec p F n (comps_a (p_ens p)) (fun _ _ => 0)) as (sa & Ea & Va).
  { intros c Hc. apply in_comps_a in Hc. split; [apply HF|apply Hn]; tauto. }
  destruct (scaled_sum_spec p F n (comps_b (p_ens p)) (fun _ _ => 0)) as (sb & Eb & Vb).
  { intros c Hc. assert (M : member (p_ens p) c) by (destruct (p_ens p), c; simpl in *; intuition congruence). split; [apply HF|apply Hn]; auto. }
  rewrite Ea. cbn [bind]. rewrite Eb. cbn [bind]. cbv zeta. eexists _, _. split; [reflexivity|].
  assert (G : forall l s0, (forall k x, s0 k x = 0 + lsum l (fun c => f_scale (F c) * n c k x)) -> forall k s,
    with_flip (po_ess (p_opt p)) (p_pol p) s0 k s = group (po_ess (p_opt p)) (p_pol p) F n l k s).
  { intros l s0 V k s. unfold with_flip, group, flip. destruct (po_ess (p_opt p)).
    - simpl. rewrite !V. rewrite !Rplus_0_l. rewrite <- lsum_plus. apply lsum_ext. intros. lra.
    - rewrite V, Rplus_0_l. apply lsum_ext. intros. lra. }
  split; apply G; auto.
Qed.
Lemma proto_density : forall p F n p', densities p F n -> calc_protomolecule p = Ok p' ->
  exists na nb nf, p_na p' = Some na /\ p_nb p' = Some nb /\ p_nf p' = Some nf /\ p_f p' = p_f p /\
  (forall k s, na k s = group (po_ess (p_opt p)) (p_pol p) F n (comps_a (p_ens p)) k s) /\
  (forall k s, nb k s = group (po_ess (p_opt p)) (p_pol p) F n (comps_b (p_ens p)) k s) /\
  (forall k s, nf k s = group (po_ess (p_opt p)) (p_pol p) F n (comps (p_ens p)) k s) /\ (forall k s, nf k s = na k s + nb k s).
Proof.
  intros p F n p' D H. destruct (proto_spec p F n D) as (na & nb & E & Va & Vb). rewrite E in H. injection H as <-.
  exists na, nb. eexists. do 4 (split; [reflexivity|]). split; auto. split; auto. split; [|reflexivity].
  intros. rewrite Va, Vb. unfold group. rewrite comps_split. reflexivity.
Qed.
Lemma proto_integral : forall g p F n p' nf s, densities p F n -> calc_protomolecule p = Ok p' -> p_nf p' = Some nf ->
  integrate1 g (fun k => nf k s) = lsum (comps (p_ens p)) (fun c => f_scale (F c) *
    (integrate1 g (fun k => n c k s) + (if po_ess (p_opt p) then integrate1 g (fun k => n c k (p_pol p - 1 - s)%nat) else 0))).
Proof.
  intros g p F n p' nf s D H E. destruct (proto_density p F n p' D H) as (na & nb & nf' & _ & _ & E' & _ & _ & _ & V & _).
  rewrite E in E'. injection E' as <-. rewrite (integrate1_ext g _ _ (fun k _ => V k s)). unfold group. rewrite lsum_integrate. apply lsum_ext.
  intros c _. rewrite integrate1_scal. f_equal. destruct (po_ess (p_opt p)).
  - apply integrate1_plus.
  - rewrite Rplus_0_r. apply integrate1_ext. intros. lra.
Qed.
Lemma group_flip : forall pol F n l k s, (s < pol)%nat -> group true pol F n l k (pol - 1 - s)%nat = group true pol F n l k s.
Proof. intros. unfold group. apply lsum_ext. intros. replace (pol - 1 - (pol - 1 - s))%nat with s by lia. lra. Qed.

(** * Q functions *)
Lemma Q_inv : forall p p', calc_Q p = Ok p' -> exists nf, p_nf p = Some nf /\ p' = with_f p (p_f p') /\
  (forall c, member (p_ens p) c -> exists f n, p_f p c = Some f /\ k_n (f_ks f) = Some n /\
     p_f p' c = Some (fQ f (Some (fun k s => to_R (ndiv (f_scale f * n k s) (nf k s)))))) /\
  (forall c, ~ member (p_ens p) c -> p_f p' c = p_f p c).
Proof.
  intros p p' H. unfold calc_Q in H.
  pose proof (forL_frags (fun c p f => do n <- need (k_n (f_ks f)); do nf <- have (p_nf p); Ok (fQ f (Some (fun k s => to_R (ndiv (f_scale f * n k s) (nf k s))))))
    (comps (p_ens p)) p p' ltac:(intros ? ? ? ?; reflexivity) (comps_nodup _)) as L. cbv beta in L.
  assert (H' : forL (comps (p_ens p)) (fun c p => do f <- get_f p c; do f' <- (do n <- need (k_n (f_ks f)); do nf <- have (p_nf p);
     Ok (fQ f (Some (fun k s => to_R (ndiv (f_scale f * n k s) (nf k s)))))); Ok (set_frag p c f')) p = Ok p').
  { rewrite <- H. apply forL_ext. intros c q _. destruct (get_f q c) as [f|]; cbn [bind]; auto. destruct (need (k_n (f_ks f))); cbn [bind]; auto. destruct (have (p_nf q)); auto. }
  specialize (L H'). destruct L as (A & B & C).
  assert (N : exists nf, p_nf p = Some nf).
  { destruct (B Ca) as (f & f' & _ & X & _); [destruct (p_ens p); simpl; auto|]. destruct (need _); [|discriminate]. cbn [bind] in X. destruct (p_nf p); [eauto|discriminate]. }
  destruct N as (nf & N). exists nf. split; auto. split; auto. rewrite N in B. cbn [have bind] in B. split.
  - intros c Hc. apply in_comps in Hc. destruct (B c Hc) as (f & f' & B1 & B2 & B3). destruct (k_n (f_ks f)) as [n|] eqn:E; [|discriminate].
    cbn [need bind] in B2. injection B2 as <-. exists f, n. auto.
  - intros c Hc. apply C. rewrite in_comps. auto.
Qed.
Lemma Q_total : forall p F n nf, densities p F n -> p_nf p = Some nf -> exists p', calc_Q p = Ok p'.
Proof.
  intros p F n nf (HF & Hn) N. unfold calc_Q.
  destruct (forL_frags_total (fun c p f => do n <- need (k_n (f_ks f)); do nf <- have (p_nf p); Ok (fQ f (Some (fun k s => to_R (ndiv (f_scale f * n k s) (nf k s))))))
    (comps (p_ens p)) p ltac:(intros ? ? ? ?; reflexivity) (comps_nodup _)) as (p' & E).
  { intros c Hc. apply in_comps in Hc. exists (F c). rewrite (HF c Hc), (Hn c Hc), N. cbn [need have bind]. eauto. }
  exists p'. rewrite <- E. apply forL_ext. intros c q _. destruct (get_f q c) as [f|]; cbn [bind]; auto. destruct (need (k_n (f_ks f))); cbn [bind]; auto. destruct (have (p_nf q)); auto.
Qed.
Lemma ndiv_nz : forall x y, y <> 0 -> ndiv x y = Fin (x / y). Proof. intros. unfold ndiv. destruct (Req_EM_T y 0); congruence. Qed.
Lemma ndiv_z : forall x, to_R (ndiv x 0) = 0. Proof. intros. unfold ndiv. destruct (Req_EM_T 0 0); [|congruence]. destruct (Req_EM_T x 0); [reflexivity|]. destruct (Rlt_dec 0 x); reflexivity. Qed.
(** Q of component c, as stored. *)
Definition Q_of (p : part) (q : comp -> mat) : Prop := forall c, member (p_ens p) c -> exists f, p_f p c = Some f /\ f_Q f = Some (q c).
Lemma Q_values : forall p F n nf p', densities p F n -> p_nf p = Some nf -> calc_Q p = Ok p' ->
  exists q, Q_of p' q /\ (forall c k s, member (p_ens p) c -> nf k s <> 0 -> q c k s = f_scale (F c) * n c k s / nf k s) /\
    (forall c k s, member (p_ens p) c -> nf k s = 0 -> q c k s = 0).
Proof.
  intros p F n nf p' (HF & Hn) N H. apply Q_inv in H. destruct H as (nf' & N' & W & B & _). rewrite N in N'. injection N' as <-.
  exists (fun c k s => to_R (ndiv (f_scale (F c) * n c k s) (nf k s))). split; [|split].
  - intros c Hc. replace (p_ens p') with (p_ens p) in Hc by (rewrite W; reflexivity). destruct (B c Hc) as (f & m & B1 & B2 & B3).
    rewrite (HF c Hc) in B1. injection B1 as <-. rewrite (Hn c Hc) in B2. injection B2 as <-. eexists. split; [exact B3|reflexivity].
  - intros c k s Hc Z. rewrite ndiv_nz by auto. reflexivity.
  - intros c k s Hc Z. rewrite Z. apply ndiv_z.
Qed.
Lemma densities_dens : forall p F n na nb nf, densities p F n -> densities (set_dens p na nb nf) F n. Proof. intros p F n na nb nf H. exact H. Qed.
Lemma Q_unity : forall p F n p1 p2, densities p F n -> calc_protomolecule p = Ok p1 -> calc_Q p1 = Ok p2 ->
  exists q nf, p_nf p2 = Some nf /\ Q_of p2 q /\
  (forall k s, (s < p_pol p)%nat -> nf k s <> 0 -> lsum (comps (p_ens p)) (fun c => q c k s + (if po_ess (p_opt p) then q c k (p_pol p - 1 - s)%nat else 0)) = 1) /\
  (forall c k s, member (p_ens p) c -> nf k s = 0 -> q c k s = 0) /\
  ((forall c, member (p_ens p) c -> 0 <= f_scale (F c) /\ forall k s, 0 <= n c k s) ->
    forall c k s, member (p_ens p) c -> 0 <= q c k s <= 1 /\ q c k s * nf k s = f_scale (F c) * n c k s).
Proof.
  intros p F n p1 p2 D H1 H2. destruct (proto_spec p F n D) as (na & nb & E & Va & Vb). rewrite E in H1. injection H1 as <-.
  set (nf := fun k s => na k s + nb k s) in *.
  assert (V : forall k s, nf k s = group (po_ess (p_opt p)) (p_pol p) F n (comps (p_ens p)) k s).
  { intros. unfold nf. rewrite Va, Vb. unfold group. rewrite comps_split. reflexivity. }
  destruct (Q_values _ F n nf p2 (densities_dens p F n na nb nf D) eq_refl H2) as (q & Q1 & Q2 & Q3). cbn [set_dens p_ens] in Q2, Q3.
  pose proof (Q_inv _ _ H2) as (_ & _ & W & _). exists q, nf. split; [rewrite W; reflexivity|]. split; auto. split; [|split; [auto|]].
  - intros k s Hs Z.
    transitivity (lsum (comps (p_ens p)) (fun c => f_scale (F c) * (n c k s + (if po_ess (p_opt p) then n c k (p_pol p - 1 - s)%nat else 0)) / nf k s)).
    + apply lsum_ext. intros c Hc. apply in_comps in Hc. rewrite (Q2 c k s Hc Z). destruct (po_ess (p_opt p)) eqn:ES; [|lra].
      assert (Z' : nf k (p_pol p - 1 - s)%nat = nf k s) by (rewrite !V; apply group_flip; auto).
      rewrite (Q2 c k (p_pol p - 1 - s)%nat Hc) by (rewrite Z'; auto). rewrite Z'. field. auto.
    + rewrite lsum_div. fold (group (po_ess (p_opt p)) (p_pol p) F n (comps (p_ens p)) k s). rewrite <- V. field. auto.
  - intros P c k s Hc.
    assert (T : forall d, In d (comps (p_ens p)) -> 0 <= f_scale (F d) * (n d k s + (if po_ess (p_opt p) then n d k (p_pol p - 1 - s)%nat else 0))).
    { intros d Hd. apply in_comps in Hd. destruct (P d Hd) as (P1 & P2). apply Rmult_le_pos; auto. pose proof (P2 k s). destruct (po_ess (p_opt p)); [pose proof (P2 k (p_pol p - 1 - s)%nat)|]; lra. }
    pose proof (lsum_ge _ _ c (proj2 (in_comps _ _) Hc) T) as G. cbv beta in G. fold (group (po_ess (p_opt p)) (p_pol p) F n (comps (p_ens p)) k s) in G. rewrite <- V in G.
    destruct (P c Hc) as (P1 & P2). pose proof (P2 k s) as P3. pose proof (Rmult_le_pos _ _ P1 P3) as P4.
    assert (G' : f_scale (F c) * n c k s <= nf k s).
    { refine (Rle_trans _ _ _ _ G). apply Rmult_le_compat_l; auto. destruct (po_ess (p_opt p)); [pose proof (P2 k (p_pol p - 1 - s)%nat)|]; lra. }
    destruct (Req_dec (nf k s) 0) as [Z|Z].
    + rewrite (Q3 c k s Hc Z). rewrite Z in *. split; lra.
    + rewrite (Q2 c k s Hc Z). split; [|field; auto]. assert (0 < nf k s) by lra. split.
      * apply Rmult_le_pos; auto. left. apply Rinv_0_lt_compat; auto.
      * apply Rmult_le_reg_r with (nf k s); auto. unfold Rdiv. rewrite Rmult_assoc, Rinv_l by auto. lra.
Qed.

(** * mirror image *)
Lemma mirrored_mirror2 : forall g a, mirrored g a (mirror2 g a).
Proof. intros g a ia ir s H. apply mirror2_pos. auto. Qed.
Lemma mirrored1_mirror1 : forall g a, mirrored1 g a (mirror1 g a).
Proof. intros g a ia ir H. apply mirror1_pos. auto. Qed.
(** what mirrorAB makes of b *)
Definition mirror_of (g : grid) (a b b' : frag) : Prop :=
  (exists n n', k_n (f_ks a) = Some n /\ k_n (f_ks b') = Some n' /\ mirrored g n n') /\
  (exists v v', k_veff (f_ks a) = Some v /\ k_veff (f_ks b') = Some v' /\ mirrored g v v') /\
  (exists v v', k_vext (f_ks a) = Some v /\ k_vext (f_ks b') = Some v' /\ mirrored g v v') /\
  mirrored_opt g (f_Q a) (f_Q b') /\ (f_Q a = None -> f_Q b' = None) /\
  k_E (f_ks b') = k_E (f_ks a) /\ k_u (f_ks b') = k_u (f_ks a) /\ f_E b' = f_E a /\
  mirrored_opt g (V_vx (k_V (f_ks a))) (V_vx (k_V (f_ks b'))) /\ mirrored_opt g (V_vc (k_V (f_ks a))) (V_vc (k_V (f_ks b'))) /\
  mirrored_opt g (V_vh (k_V (f_ks a))) (V_vh (k_V (f_ks b'))) /\ mirrored_opt1 g (V_ex (k_V (f_ks a))) (V_ex (k_V (f_ks b'))) /\
  mirrored_opt1 g (V_ec (k_V (f_ks a))) (V_ec (k_V (f_ks b'))) /\ mirrored_opt1 g (V_eh (k_V (f_ks a))) (V_eh (k_V (f_ks b'))) /\
  mirrored_opt g (f_V a "vp"%string) (f_V b' "vp"%string) /\
  (* untouched *)
  k_vhxc (f_ks b') = k_vhxc (f_ks b) /\ k_sol (f_ks b') = k_sol (f_ks b) /\ k_vnuc (f_ks b') = k_vnuc (f_ks b) /\ f_scale b' = f_scale b /\
  f_frozen b' = f_frozen b /\ f_alpha b' = f_alpha b /\ f_homo b' = f_homo b /\ (forall nm, nm <> "vp"%string -> f_V b' nm = f_V b nm).
Lemma mopt : forall g a b, mirrored_opt g a (over (omap (mirror2 g) a) b).
Proof. intros g a b x ->. simpl. eexists. split; [reflexivity|]. apply mirrored_mirror2. Qed.
Lemma mopt1 : forall g a b, mirrored_opt1 g a (over (omap (mirror1 g) a) b).
Proof. intros g a b x ->. simpl. eexists. split; [reflexivity|]. apply mirrored1_mirror1. Qed.
Lemma mirror_frag_spec : forall g a b b', mirror_frag g a b = Ok b' -> mirror_of g a b b'.
Proof.
  intros g a b b' H. unfold mirror_frag in H. cbv zeta in H.
  destruct (have (k_n (f_ks a))) as [n|] eqn:E1; [|discriminate]. cbn [bind] in H.
  destruct (have (k_veff (f_ks a))) as [ve|] eqn:E2; [|discriminate]. cbn [bind] in H.
  destruct (have (k_vext (f_ks a))) as [vx|] eqn:E3; [|discriminate]. cbn [bind] in H. apply have_some in E1, E2, E3. injection H as <-.
  unfold mirror_of. destruct (f_V a "vp"%string) as [v|] eqn:VP.
  - split; [exists n, (mirror2 g n); repeat split; auto using mirrored_mirror2|]. split; [exists ve, (mirror2 g ve); repeat split; auto using mirrored_mirror2|].
    split; [exists vx, (mirror2 g vx); repeat split; auto using mirrored_mirror2|].
    split; [intros x E; cbn; rewrite E; eexists; split; [reflexivity|apply mirrored_mirror2]|]. split; [intros E; cbn; rewrite E; reflexivity|].
    do 3 (split; [reflexivity|]). do 3 (split; [apply mopt|]). do 3 (split; [apply mopt1|]). split; [intros x E; injection E as <-; eexists; split; [reflexivity|apply mirrored_mirror2]|].
    do 7 (split; [reflexivity|]). intros nm Hn. cbn. unfold aset. destruct (String.eqb_spec nm "vp"); [contradiction|reflexivity].
  - split; [exists n, (mirror2 g n); repeat split; auto using mirrored_mirror2|]. split; [exists ve, (mirror2 g ve); repeat split; auto using mirrored_mirror2|].
    split; [exists vx, (mirror2 g vx); repeat split; auto using mirrored_mirror2|].
    split; [intros x E; cbn; rewrite E; eexists; split; [reflexivity|apply mirrored_mirror2]|]. split; [intros E; cbn; rewrite E; reflexivity|].
    do 3 (split; [reflexivity|]). do 3 (split; [apply mopt|]). do 3 (split; [apply mopt1|]). split; [intros x E; discriminate|].
    do 7 (split; [reflexivity|]). reflexivity.
Qed.
Lemma mirrorAB_inv : forall g p p', mirrorAB g p = Ok p' ->
  p' = with_f p (p_f p') /\
  (forall c, member (p_ens p) c -> of_a c -> p_f p' c = p_f p c /\
     exists a b b', p_f p c = Some a /\ p_f p (twin c) = Some b /\ mirror_frag g a b = Ok b' /\ p_f p' (twin c) = Some b') /\
  (forall c, ~ member (p_ens p) c -> p_f p' c = p_f p c).
Proof.
  intros g p p' H. unfold mirrorAB in H. destruct (p_ens p) eqn:En; cbn [comps_a comps_b combine forL fst snd] in H.
  - destruct (get_f p Ca) as [a|] eqn:A; [|discriminate]. cbn [bind] in H. destruct (get_f p Cb) as [b|] eqn:B; [|discriminate]. cbn [bind] in H.
    destruct (mirror_frag g a b) as [b'|] eqn:M; [|discriminate]. cbn [bind] in H. apply get_f_some in A, B.
    destruct (get_f (set_frag p Cb b') CA) as [a2|] eqn:A2; [|discriminate]. cbn [bind] in H. destruct (get_f (set_frag p Cb b') CB) as [b2|] eqn:B2; [|discriminate]. cbn [bind] in H.
    destruct (mirror_frag g a2 b2) as [b2'|] eqn:M2; [|discriminate]. cbn [bind] in H. injection H as <-. apply get_f_some in A2, B2. simpl in A2, B2.
    split; [reflexivity|]. split.
    + intros c Hc [->| ->]; split; try reflexivity; simpl.
      * exists a, b, b'. auto.
      * exists a2, b2, b2'. auto.
    + intros c Hc. destruct c; simpl in Hc; try (exfalso; apply Hc; auto; fail).
  - destruct (get_f p Ca) as [a|] eqn:A; [|discriminate]. cbn [bind] in H. destruct (get_f p Cb) as [b|] eqn:B; [|discriminate]. cbn [bind] in H.
    destruct (mirror_frag g a b) as [b'|] eqn:M; [|discriminate]. cbn [bind] in H. injection H as <-. apply get_f_some in A, B.
    split; [reflexivity|]. split.
    + intros c Hc [->| ->]; [|simpl in Hc; discriminate]. split; [reflexivity|]. simpl. exists a, b, b'. auto.
    + intros c Hc. destruct c; simpl in Hc; try (exfalso; apply Hc; auto; fail); reflexivity.
Qed.
Lemma mirror_total : forall g p, (forall c, member (p_ens p) c -> exists f, p_f p c = Some f) ->
  (forall c, member (p_ens p) c -> of_a c -> exists f, p_f p c = Some f /\ k_n (f_ks f) <> None /\ k_veff (f_ks f) <> None /\ k_vext (f_ks f) <> None) ->
  exists p', mirrorAB g p = Ok p'.
Proof.
  intros g p H1 H2. unfold mirrorAB.
  assert (X : forall a b, k_n (f_ks a) <> None -> k_veff (f_ks a) <> None -> k_vext (f_ks a) <> None -> exists b', mirror_frag g a b = Ok b').
  { intros a b N1 N2 N3. unfold mirror_frag. cbv zeta. destruct (k_n (f_ks a)); [|congruence]. destruct (k_veff (f_ks a)); [|congruence]. destruct (k_vext (f_ks a)); [|congruence]. cbn [have bind]. eauto. }
  destruct (p_ens p) eqn:En; cbn [comps_a comps_b combine forL fst snd].
  - destruct (H2 Ca) as (a & A & N1 & N2 & N3); [exact Logic.I|left; auto|]. destruct (H1 Cb Logic.I) as (b & B). unfold get_f. rewrite A, B. cbn [have bind].
    destruct (X a b N1 N2 N3) as (b' & ->). cbn [bind]. simpl.
    destruct (H2 CA) as (a2 & A2 & N4 & N5 & N6); [reflexivity|right; auto|]. destruct (H1 CB eq_refl) as (b2 & B2). rewrite A2, B2. cbn [have bind].
    destruct (X a2 b2 N4 N5 N6) as (b2' & ->). cbn [bind]. eauto.
  - destruct (H2 Ca) as (a & A & N1 & N2 & N3); [exact Logic.I|left; auto|]. destruct (H1 Cb Logic.I) as (b & B). unfold get_f. rewrite A, B. cbn [have bind].
    destruct (X a b N1 N2 N3) as (b' & ->). cbn [bind]. eauto.
Qed.
(** the protomolecule of mirrored fragments with equal weights *)
Lemma proto_symmetric : forall g p F n p' nf, densities p F n -> calc_protomolecule p = Ok p' -> p_nf p' = Some nf ->
  (forall c, member (p_ens p) c -> of_a c -> f_scale (F (twin c)) = f_scale (F c) /\ mirrored g (n c) (n (twin c))) -> mirrored g nf nf.
Proof.
  intros g p F n p' nf D H E M ia ir s Hp. destruct (proto_density p F n p' D H) as (na & nb & nf' & _ & _ & E' & _ & _ & _ & V & _).
  rewrite E in E'. injection E' as <-. rewrite !V. unfold group.
  pose proof (mirror_point g ia ir Hp) as Hp'.
  assert (B : (Na g - 1 - (Na g - 1 - ia) = ia)%nat) by (destruct Hp; lia).
  assert (K : forall c, member (p_ens p) c -> of_a c -> forall s, n (twin c) (pos g ia ir) s = n c (pos g (Na g - 1 - ia) ir) s /\ n (twin c) (pos g (Na g - 1 - ia) ir) s = n c (pos g ia ir) s).
  { intros c Hc Ha t. destruct (M c Hc Ha) as (_ & X). rewrite (X ia ir t Hp), (X (Na g - 1 - ia)%nat ir t Hp'), B. auto. }
  destruct (p_ens p) eqn:En; simpl.
  - destruct (M Ca Logic.I (or_introl eq_refl)) as (S1 & _), (M CA eq_refl (or_intror eq_refl)) as (S2 & _). simpl in S1, S2. rewrite S1, S2.
    pose proof (K Ca Logic.I (or_introl eq_refl)) as K1. pose proof (K CA eq_refl (or_intror eq_refl)) as K2. simpl in K1, K2.
    destruct (K1 s) as (-> & ->), (K2 s) as (-> & ->), (K1 (p_pol p - 1 - s)%nat) as (-> & ->), (K2 (p_pol p - 1 - s)%nat) as (-> & ->). ring.
  - destruct (M Ca Logic.I (or_introl eq_refl)) as (S1 & _). simpl in S1. rewrite S1. pose proof (K Ca Logic.I (or_introl eq_refl)) as K1. simpl in K1.
    destruct (K1 s) as (-> & ->), (K1 (p_pol p - 1 - s)%nat) as (-> & ->). ring.
Qed.
