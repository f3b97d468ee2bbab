(** Partition: construction, mirror image, protomolecule, Q functions. *)
From Coq Require Import Reals List Arith Lia Lra ZArith Bool String.
From Verif Require Import Base BaseLemmas GridModel GridSpec GridProofs HartreeModel SolverModel SolverSpec LibxcModel OptionsModel OptionsProofs KSModel KSSpec KSProofs KSLoop KSEnergy KSTotal
  InverterModel PartitionModel PartitionSpec PartitionBase.
Import ListNotations.
Local Open Scope R_scope.

(** * construction *)
Lemma scales_inv : forall p p', calc_scale_factors p = Ok p' ->
  p' = with_f p (p_f p') /\
  (forall c, member (p_ens p) c -> exists f, p_f p c = Some f /\
     p_f p' c = Some (fscale f (scale0 (p_ens p) (p_nua p) (p_nub p) c * (if po_ess (p_opt p) then / 2 else 1)))) /\
  (forall c, ~ member (p_ens p) c -> p_f p' c = p_f p c).
Proof.
  intros p p' H. unfold calc_scale_factors in H.
  set (half := if po_ess (p_opt p) then _ else _) in H.
  assert (HH : forall x, half x = x * (if po_ess (p_opt p) then / 2 else 1)) by (intros; unfold half; destruct (po_ess (p_opt p)); lra).
  pose proof (forL_frags (fun c p f => Ok (fscale f (half (scale0 (p_ens p) (p_nua p) (p_nub p) c)))) (comps (p_ens p)) p p' ltac:(intros ? ? ? ?; reflexivity) (comps_nodup _)) as L.
  cbv beta in L. cbn [bind] in L. specialize (L H). destruct L as (A & B & C). split; auto. split.
  - intros c Hc. destruct (B c (proj2 (in_comps _ _) Hc)) as (f & f' & B1 & B2 & B3). exists f. split; auto. injection B2 as <-. rewrite <- HH. auto.
  - intros c Hc. apply C. rewrite in_comps. auto.
Qed.

Lemma ks_config : forall o k, configure KohnShamOptions
    [("interaction_type"%string, VS (po_int o)); ("sym"%string, VB (po_sym o)); ("fractional"%string, VB (po_frac o));
     ("xfunc_id"%string, VZ (Z.of_nat (po_xid o))); ("cfunc_id"%string, VZ (Z.of_nat (po_cid o))); ("xc_family"%string, VS (po_fam o))] = Ok k ->
  getS k "interaction_type" = po_int o /\ getB k "sym" = po_sym o /\ getB k "fractional" = po_frac o /\
  getZ k "xfunc_id" = Z.of_nat (po_xid o) /\ getZ k "cfunc_id" = Z.of_nat (po_cid o) /\ getS k "xc_family" = po_fam o.
Proof.
  intros o k H.
  change ((if existsb (String.eqb (po_int o)) ["dft"%string; "ni"%string] then
      Ok [("interaction_type"%string, VS (po_int o)); ("sym"%string, VB (po_sym o)); ("fractional"%string, VB (po_frac o));
     ("xfunc_id"%string, VZ (Z.of_nat (po_xid o))); ("cfunc_id"%string, VZ (Z.of_nat (po_cid o))); ("xc_family"%string, VS (po_fam o))] else Err ValueError) = Ok k) in H.
  destruct (existsb _ _); [|discriminate]. injection H as <-. repeat split; reflexivity.
Qed.
Lemma frag_init_inv : forall g o Za Zb pol s f, frag_init g o Za Zb pol s = Ok f ->
  exists k, f = new_frag k /\ k_Za k = Za /\ k_Zb k = Zb /\ k_pol k = pol /\ k_lv k = fs_lv s /\ k_cols k = fs_cols s /\ k_n k = None /\ k_E k = None /\
  k_vext k = None /\ k_vhxc k = None /\ k_veff k = None /\ k_u k = None /\
  o_int (k_opt k) = po_int o /\ o_sym (k_opt k) = po_sym o /\ o_frac (k_opt k) = po_frac o /\ o_xid (k_opt k) = po_xid o /\
  o_cid (k_opt k) = po_cid o /\ o_fam (k_opt k) = po_fam o /\
  forall i j, place k i j -> s_m (k_sol k i j) = Z.of_nat i /\ s_N (k_sol k i j) = fs_N s i j /\ s_Nmo (k_sol k i j) = fs_Nmo s i j.
Proof.
  intros g o Za Zb pol s f H. unfold frag_init in H.
  destruct (ks_init _ _ _ _ _ _ _ _ _ _ _) as [k|] eqn:E; [|discriminate]. cbn [bind] in H. injection H as <-.
  exists k. split; auto. apply init_spec in E.
  destruct E as (d & C & L1 & L2 & K1 & K2 & K3 & K4 & K5 & O1 & O2 & O3 & O4 & O5 & O6 & V1 & V2 & V3 & V4 & V5 & V6 & W).
  apply ks_config in C. destruct C as (C1 & C2 & C3 & C4 & C5 & C6). rewrite C4, Nat2Z.id in O4. rewrite C5, Nat2Z.id in O5.
  repeat (split; [congruence|]). intros i j P. destruct (W i j P) as (_ & W1 & W2 & W3 & W4 & _). auto.
Qed.
Definition nu_one (x : R) : bool := if Req_EM_T x 1 then true else false.
Lemma init_inv : forall g Za Zb pol spec nua nub opt p, partition_init g Za Zb pol spec nua nub opt = Ok p ->
  exists d, configure PartitionOptions opt = Ok d /\
  p_opt p = mkPO (getS d "interaction_type") (getB d "sym") (getB d "fractional") (Z.to_nat (getZ d "xfunc_id")) (Z.to_nat (getZ d "cfunc_id"))
             (getS d "xc_family") (getS d "vp_calc_type") (getS d "hxc_part_type") (getS d "kinetic_part_type")
             (getS d "k_family") (Z.to_nat (getZ d "ke_func_id")) (getB d "ab_sym") (getB d "ens_spin_sym") (getB d "isolated") /\
  (getB d "ab_sym" = true -> Za = Zb) /\ p_pol p = pol /\ p_Za p = Za /\ p_Zb p = Zb /\ p_nua p = nua /\ p_nub p = nub /\ (0 < pol)%nat /\
  p_va p = coulomb g Za 0 /\ p_vb p = coulomb g 0 Zb /\ p_V p "vext"%string = Some (p_vext g pol Za Zb) /\
  ((nua = 1 /\ nub = 1 /\ p_ens p = false /\ p_f p CA = None /\ p_f p CB = None) \/ (nua <> 1 /\ nub <> 1 /\ p_ens p = true)) /\
  (forall c, member (p_ens p) c -> exists f, frag_init g (p_opt p) (match c with Ca | CA => Za | _ => 0 end) (match c with Ca | CA => 0 | _ => Zb end) pol (spec c) = Ok f /\
     p_f p c = Some (fscale f (weight (p_ens p) (po_ess (p_opt p)) nua nub c))).
Proof.
  intros g Za Zb pol spec nua nub opt p H. unfold partition_init in H.
  destruct (configure PartitionOptions opt) as [d|] eqn:C; [|discriminate]. cbn [bind] in H. exists d. split; auto.
  set (o := mkPO _ _ _ _ _ _ _ _ _ _ _ _ _ _) in *. cbv zeta in H.
  set (ens := if Req_EM_T nua 1 then (if Req_EM_T nub 1 then false else true) else true) in H. set (both := if Req_EM_T nua 1 then false else if Req_EM_T nub 1 then false else true) in H.
  destruct (po_ab o && _)%bool eqn:AB; [discriminate|].
  destruct (frag_init g o Za 0 pol (spec Ca)) as [fa|] eqn:Ea; [|discriminate]. cbn [bind] in H.
  destruct (frag_init g o 0 Zb pol (spec Cb)) as [fb|] eqn:Eb; [|discriminate]. cbn [bind] in H.
  match type of H with bind ?m _ = _ => destruct m as [[oA oB]|] eqn:EAB; [|discriminate] end. cbn [bind fst snd] in H.
  destruct (calc_scale_factors _) as [p1|] eqn:S; [|discriminate]. cbn [bind] in H.
  destruct (String.eqb (po_kin o) "paramke"); [discriminate|]. destruct (Nat.eqb_spec pol 0); [discriminate|]. injection H as <-.
  apply scales_inv in S. cbn [p_ens p_nua p_nub p_opt p_f] in S. destruct S as (S1 & S2 & S3).
  assert (X1 : p_opt p1 = o) by (rewrite S1; reflexivity). assert (X2 : p_pol p1 = pol) by (rewrite S1; reflexivity).
  assert (X3 : p_ens p1 = ens) by (rewrite S1; reflexivity).
  cbn [set_V p_opt p_pol p_Za p_Zb p_nua p_nub p_ens p_va p_vb p_f p_V].
  split; auto. split.
  { intros HB. change (po_ab o = true) in HB. rewrite HB in AB. simpl in AB. destruct (Req_EM_T Za Zb); auto. discriminate. }
  split; auto. do 4 (split; [rewrite S1; reflexivity|]). split; [lia|]. do 2 (split; [rewrite S1; reflexivity|]).
  split; [reflexivity|]. rewrite X1, X3. split.
  - unfold ens, both in *. destruct (Req_EM_T nua 1), (Req_EM_T nub 1).
    + left. injection EAB as <- <-. split; [auto|]. split; [auto|]. split; [auto|]. split; (rewrite S3; [reflexivity|simpl; congruence]).
    + exfalso. destruct (S2 CA) as (f & F & _); [reflexivity|]. injection EAB as <- <-. discriminate.
    + exfalso. destruct (S2 CA) as (f & F & _); [reflexivity|]. injection EAB as <- <-. discriminate.
    + right. auto.
  - intros c Hc. destruct (S2 c Hc) as (f & F1 & F2). exists f. split.
    + destruct c; [injection F1 as <-; exact Ea| |injection F1 as <-; exact Eb|].
      * unfold both in EAB. simpl in Hc. unfold ens in Hc. destruct (Req_EM_T nua 1), (Req_EM_T nub 1); try discriminate; try (injection EAB as <- <-; discriminate).
        destruct (frag_init g o Za 0 pol (spec CA)) as [A|]; [|discriminate]. cbn [bind] in EAB.
        destruct (frag_init g o 0 Zb pol (spec CB)) as [B|]; [|discriminate]. cbn [bind] in EAB. injection EAB as <- <-. injection F1 as <-. reflexivity.
      * unfold both in EAB. simpl in Hc. unfold ens in Hc. destruct (Req_EM_T nua 1), (Req_EM_T nub 1); try discriminate; try (injection EAB as <- <-; discriminate).
        destruct (frag_init g o Za 0 pol (spec CA)) as [A|]; [|discriminate]. cbn [bind] in EAB.
        destruct (frag_init g o 0 Zb pol (spec CB)) as [B|]; [|discriminate]. cbn [bind] in EAB. injection EAB as <- <-. injection F1 as <-. reflexivity.
    + rewrite F2. f_equal. f_equal. unfold weight. f_equal. unfold scale0. unfold ens in *. destruct (Req_EM_T nua 1), (Req_EM_T nub 1); auto.
      destruct c; simpl in Hc; congruence.
Qed.
(** exactly one nu equal to 1 *)
Lemma init_one_nu : forall g Za Zb pol spec nua nub opt p, (nua = 1 /\ nub <> 1) \/ (nua <> 1 /\ nub = 1) -> partition_init g Za Zb pol spec nua nub opt <> Ok p.
Proof. intros g Za Zb pol spec nua nub opt p H E. apply init_inv in E. destruct E as (d & _ & _ & _ & _ & _ & _ & _ & _ & _ & _ & _ & _ & [X|X] & _); intuition. Qed.
Lemma init_one_nu_error : forall g Za Zb pol spec nua nub opt p, (nua = 1 /\ nub <> 1) \/ (nua <> 1 /\ nub = 1) ->
  partition_init g Za Zb pol spec 1 1 opt = Ok p -> partition_init g Za Zb pol spec nua nub opt = Err AttributeError.
Proof.
  intros g Za Zb pol spec nua nub opt p H E. unfold partition_init in *.
  destruct (configure PartitionOptions opt) as [d|]; [|discriminate]. cbn [bind] in *.
  set (o := mkPO _ _ _ _ _ _ _ _ _ _ _ _ _ _) in *. cbv zeta in *.
  destruct (po_ab o && _)%bool; [discriminate|].
  destruct (frag_init g o Za 0 pol (spec Ca)) as [fa|]; [|discriminate]. cbn [bind] in *.
  destruct (frag_init g o 0 Zb pol (spec Cb)) as [fb|]; [|discriminate]. cbn [bind] in *.
  destruct (Req_EM_T nua 1), (Req_EM_T nub 1); try (exfalso; intuition congruence); reflexivity.
Qed.
Lemma init_ab_charges : forall g Za Zb pol spec nua nub opt d, configure PartitionOptions opt = Ok d -> getB d "ab_sym" = true -> Za <> Zb ->
  partition_init g Za Zb pol spec nua nub opt = Err ValueError.
Proof.
  intros. unfold partition_init. rewrite H. cbn [bind]. cbv zeta. cbn [po_ab]. rewrite H0. destruct (Req_EM_T Za Zb); [contradiction|]. reflexivity.
Qed.
Lemma init_unknown_opt : forall g Za Zb pol spec nua nub opt key, In key (map fst opt) -> ~ In (lower key) (map f_name PartitionOptions) ->
  partition_init g Za Zb pol spec nua nub opt = Err ValueError.
Proof. intros. unfold partition_init. rewrite (configure_unknown PartitionOptions opt key); auto. Qed.
Lemma init_paramke : forall g Za Zb pol spec nua nub opt d p, configure PartitionOptions opt = Ok d -> getS d "kinetic_part_type" = "paramke"%string ->
  partition_init g Za Zb pol spec nua nub opt <> Ok p.
Proof.
  intros g Za Zb pol spec nua nub opt d p C K H. unfold partition_init in H. rewrite C in H. cbn [bind] in H.
  set (o := mkPO _ _ _ _ _ _ _ _ _ _ _ _ _ _) in *. cbv zeta in H.
  destruct (po_ab o && _)%bool; [discriminate|].
  destruct (frag_init g o Za 0 pol (spec Ca)) as [fa|]; [|discriminate]. cbn [bind] in H.
  destruct (frag_init g o 0 Zb pol (spec Cb)) as [fb|]; [|discriminate]. cbn [bind] in H.
  match type of H with bind ?m _ = _ => destruct m as [[oA oB]|]; [|discriminate] end. cbn [bind fst snd] in H.
  destruct (calc_scale_factors _) as [p1|]; [|discriminate]. cbn [bind] in H.
  change (po_kin o) with (getS d "kinetic_part_type") in H. rewrite K in H. discriminate.
Qed.
