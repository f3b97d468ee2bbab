(** Partition: the two-orbital kinetic functional. *)
From Coq Require Import Reals List Arith Lia Lra ZArith Bool String.
From Verif Require Import Base BaseLemmas GridModel GridSpec GridProofs HartreeModel SolverModel SolverSpec LibxcModel OptionsModel KSModel KSSpec KSProofs KSLoop KSEnergy
  InverterModel PartitionModel PartitionSpec PartitionBase PartitionConstr PartitionDens PartitionFrame PartitionEnergy PartitionEp PartitionKin.
Import ListNotations.
Local Open Scope R_scope.

(** Kinetic energy of one orbital: integral of f times minus one half of its Laplacian. *)
Definition kin_energy (g : grid) (f : vec) : R := integrate1 g (fun k => f k * (half_lap g f k / gw g k)).

Lemma all_pos_ok : forall n f, all_pos n f = true -> forall k, (k < n)%nat -> 0 < f k.
Proof.
  intros n f H k K. unfold all_pos in H. rewrite forallb_forall in H. specialize (H k). rewrite in_seq in H. specialize (H ltac:(lia)).
  destruct (Rlt_dec 0 (f k)); [assumption|discriminate].
Qed.
Lemma two_T_kin : forall g f, two_T g f = kin_energy g f.
Proof. intros. unfold two_T, kin_energy. apply integrate1_ext. intros k K. rewrite (kinop_half g f f) by auto. unfold Rdiv. ring. Qed.
Lemma half_lap_ext : forall g f f' k, (forall j, (j < Nelem g)%nat -> f j = f' j) -> half_lap g f k = half_lap g f' k.
Proof. intros g f f' k H. unfold half_lap. f_equal. apply sumR_ext. intros j Hj. rewrite H by auto. reflexivity. Qed.
Lemma kin_energy_ext : forall g f f', (forall j, (j < Nelem g)%nat -> f j = f' j) -> kin_energy g f = kin_energy g f'.
Proof. intros g f f' H. unfold kin_energy. apply integrate1_ext. intros k K. rewrite H, (half_lap_ext g f f') by auto. reflexivity. Qed.

(** The orbitals of the energy. *)
Lemma two_phi_ok : forall g n1 n2 f1 f2, two_phi g n1 n2 = Ok (f1, f2) ->
  (forall k, (k < Nelem g)%nat -> 0 < n1 k /\ 0 < n2 k) /\
  (forall k, (k < Nelem g)%nat -> f1 k ^ 2 + f2 k ^ 2 = n1 k + n2 k) /\
  integrate1 g (fun k => f1 k ^ 2) = integrate1 g (fun k => n1 k + n2 k) / 2 /\
  integrate1 g (fun k => f2 k ^ 2) = integrate1 g (fun k => n1 k + n2 k) / 2 /\
  (exists c, 0 < two_C g (fun k => sqrt (n1 k)) (fun k => sqrt (n2 k)) /\ forall k, f1 k = c * (sqrt (n1 k) - sqrt (n2 k))) /\
  (forall k, 0 <= f2 k).
Proof.
  intros g n1 n2 f1 f2 H. unfold two_phi in H. cbv zeta in H.
  set (C := two_C g (fun k => sqrt (n1 k)) (fun k => sqrt (n2 k))) in *. set (N := integrate1 g (fun k => n1 k + n2 k)) in *.
  destruct (_ && _)%bool eqn:E; [|discriminate]. cbn [negb] in H. injection H as <- <-.
  apply andb_prop in E. destruct E as (E & E5). apply andb_prop in E. destruct E as (E & E4). apply andb_prop in E. destruct E as (E & E3). apply andb_prop in E. destruct E as (E1 & E2).
  destruct (Rlt_dec 0 C) as [PC|]; [|discriminate]. destruct (Rle_dec 0 N) as [PN|]; [|discriminate].
  pose proof (all_pos_ok _ _ E1) as P1. pose proof (all_pos_ok _ _ E2) as P2. clear E1 E2 E3 E4.
  assert (SC : sqrt C * sqrt C = C) by (apply sqrt_sqrt; lra). assert (SP : 0 < sqrt C) by (apply sqrt_lt_R0; auto).
  assert (SN : sqrt (N / 2) * sqrt (N / 2) = N / 2) by (apply sqrt_sqrt; lra).
  assert (SQ : forall k, (k < Nelem g)%nat -> sqrt (n1 k + n2 k - (sqrt (N / 2) * (sqrt (n1 k) - sqrt (n2 k)) / sqrt C) ^ 2) ^ 2 = n1 k + n2 k - (sqrt (N / 2) * (sqrt (n1 k) - sqrt (n2 k)) / sqrt C) ^ 2).
  { intros k K. rewrite forallb_forall in E5. specialize (E5 k). rewrite in_seq in E5. specialize (E5 ltac:(lia)). destruct (Rle_dec _ _) as [L|]; [|discriminate].
    apply pow2_sqrt. exact L. }
  assert (I1 : integrate1 g (fun k => (sqrt (N / 2) * (sqrt (n1 k) - sqrt (n2 k)) / sqrt C) ^ 2) = N / 2).
  { transitivity (integrate1 g (fun k => N / 2 / C * (sqrt (n1 k) - sqrt (n2 k)) ^ 2)).
    - apply integrate1_ext. intros k K. unfold Rdiv at 1. rewrite !Rpow_mult_distr, pow_inv. cbn [pow]. rewrite !Rmult_1_r, SN, SC. field. lra.
    - rewrite integrate1_scal. change (integrate1 g (fun k => (sqrt (n1 k) - sqrt (n2 k)) ^ 2)) with C. field. lra. }
  split; [auto|]. split; [|split; [exact I1|split; [|split]]].
  - intros k K. rewrite SQ by auto. ring.
  - transitivity (integrate1 g (fun k => (n1 k + n2 k) + (-1) * (sqrt (N / 2) * (sqrt (n1 k) - sqrt (n2 k)) / sqrt C) ^ 2)).
    + apply integrate1_ext. intros k K. rewrite SQ by auto. ring.
    + rewrite integrate1_plus, integrate1_scal, I1. fold N. lra.
  - exists (sqrt (N / 2) / sqrt C). split; [exact PC|]. intros k. unfold Rdiv. ring.
  - intros k. apply sqrt_pos.
Qed.

(** What one component adds to the fragment part of V.ep_kin. *)
Definition two_part (g : grid) (F : comp -> frag) (q : comp -> mat) (n : comp -> mat) (c : comp) (k : nat) : R :=
  q c k 0%nat * (f_scale (F c) * sqrt (n c k 0%nat) * half_lap g (fun j => sqrt (n c j 0%nat)) k / (gw g k * n c k 0%nat)).

Lemma sum_cols_one : forall (n : mat) k, sum_cols 1 n k = n k 0%nat.
Proof. intros. unfold sum_cols. cbn [sumR]. ring. Qed.

Lemma two_ts_val : forall g s m (x : vec) k, (forall j, m j = x j) -> two_ts g s m k = s * sqrt (x k) * half_lap g (fun j => sqrt (x j)) k / (gw g k * x k).
Proof. intros g s m x k H. unfold two_ts. rewrite (kinop_half g _ (fun j => sqrt (x j))) by (intros; rewrite H; reflexivity). rewrite H. reflexivity. Qed.
Lemma two_vw : forall g m (x : vec), grid_ok g -> (forall j, m j = x j) ->
  iprefac g * sumR (Nelem g) (fun k => gwi g k * sqrt (m k) * kinop g (fun j => sqrt (m j)) k) = vw_energy g x.
Proof.
  intros g m x G H. unfold vw_energy, integrate1. f_equal. apply sumR_ext. intros k K. pose proof (gw_pos g k G K) as W.
  rewrite (kinop_half g _ (fun j => sqrt (x j))) by (intros; rewrite H; reflexivity). rewrite H. field. lra.
Qed.

Lemma epk_two_inv : forall g p F n na nb nf q p1 Tm tm Tf tf, grid_ok g -> settled g p F n na nb nf q -> p_pol p = 1%nat ->
  epk_two g p = Ok (p1, (Tm, tm, Tf, tf)) ->
  exists f1 f2, two_phi g (fun k => na k 0%nat) (fun k => nb k 0%nat) = Ok (f1, f2) /\
    p1 = set_V (set_V p "phi1" (fun k _ => f1 k)) "phi2" (fun k _ => f2 k) /\
    (forall c, In c (if po_ab (p_opt p) then [Ca] else [Ca; Cb]) -> forall k, (k < Nelem g)%nat -> 0 < n c k 0%nat) /\
    Tm = SC (kin_energy g f1 + kin_energy g f2) /\
    Tf = SC ((if po_ab (p_opt p) then 2 else 1) * lsum (if po_ab (p_opt p) then [Ca] else [Ca; Cb]) (fun c => f_scale (F c) * vw_energy g (fun k => n c k 0%nat))) /\
    (exists t, tm = A2 1 (fun k _ => t k) /\ forall k, (k < Nelem g)%nat -> t k = Fin ((f1 k * half_lap g f1 k + f2 k * half_lap g f2 k) / gw g k / nf k 0%nat)) /\
    (exists t, tf = A2 1 (fun k _ => Fin (t k)) /\ forall k, (k < Nelem g)%nat -> t k =
       if po_ab (p_opt p) then 2 * two_part g F q n Ca k + mirror1 g (two_part g F q n Ca) k else two_part g F q n Ca k + two_part g F q n Cb k).
Proof.
  intros g p F n na nb nf q p1 Tm tm Tf tf G (D & (PA & PB & PF & VA & VB & VF) & HQ & _) P1 H. unfold epk_two in H. rewrite PA, PB, PF, P1 in H. cbn [have bind] in H.
  destruct (two_phi g (fun k => na k 0%nat) (fun k => nb k 0%nat)) as [[f1 f2]|] eqn:E; [|discriminate]. cbn [bind] in H. exists f1, f2. split; [reflexivity|].
  pose proof (two_phi_ok _ _ _ _ _ E) as (P & _).
  assert (Da : forall c, member (p_ens p) c -> p_f p c = Some (F c) /\ k_n (f_ks (F c)) = Some (n c) /\ f_Q (F c) = Some (q c)).
  { intros c M. destruct D as (D1 & D2). destruct (HQ c M) as (Q & _). auto. }
  assert (TM : exists t, A2 1 (fun k _ : nat => ndiv ((f1 k * kinop g f1 k + f2 k * kinop g f2 k) / gw g k) (sum_cols 1 nf k)) = A2 1 (fun k _ => t k) /\
     forall k, (k < Nelem g)%nat -> t k = Fin ((f1 k * half_lap g f1 k + f2 k * half_lap g f2 k) / gw g k / nf k 0%nat)).
  { eexists. split; [reflexivity|]. intros k K. cbv beta. rewrite sum_cols_one, VF. destruct (P k K). unfold ndiv. destruct (Req_EM_T _ 0); [lra|].
    rewrite !(kinop_half g _ _ k (fun j _ => eq_refl)). reflexivity. }
  destruct (Da Ca Logic.I) as (A1 & A2 & A3). destruct (Da Cb Logic.I) as (B1 & B2 & B3). unfold get_f in H.
  destruct (po_ab (p_opt p)) eqn:AB; cbn [forL] in H.
  - rewrite A1 in H. cbn [have bind] in H. rewrite A2 in H. cbn [axis1 bind] in H. unfold getQ in H. rewrite A3 in H. cbn [bind] in H.
    destruct (all_pos (Nelem g) (sum_cols 1 (n Ca))) eqn:PS; [|discriminate]. cbn [negb bind] in H. cbn [fst snd] in H. injection H as <- <- <- <- <-.
    split; [reflexivity|]. split; [|split; [|split; [|split; [exact TM|]]]].
    + intros c [<-|[]] k K. rewrite <- sum_cols_one. apply (all_pos_ok _ _ PS); auto.
    + rewrite !two_T_kin. reflexivity.
    + f_equal. cbn [lsum]. rewrite <- (two_vw g (sum_cols 1 (n Ca)) _ G) by (intros; apply sum_cols_one). ring.
    + eexists. split; [reflexivity|]. intros k K. cbv beta. rewrite (two_ts_val g _ _ (fun j => n Ca j 0%nat)) by (intros; apply sum_cols_one).
      destruct (mirror1_index g k K) as (k' & K' & I1 & _). rewrite !I1. rewrite (two_ts_val g _ _ (fun j => n Ca j 0%nat)) by (intros; apply sum_cols_one). unfold two_part. ring.
  - rewrite A1 in H. cbn [have bind] in H. rewrite A2 in H. cbn [axis1 bind] in H. unfold getQ in H. rewrite A3 in H. cbn [bind] in H.
    destruct (all_pos (Nelem g) (sum_cols 1 (n Ca))) eqn:PS; [|discriminate]. cbn [negb bind] in H. rewrite B1 in H. cbn [have bind] in H. rewrite B2 in H. cbn [axis1 bind] in H. rewrite B3 in H. cbn [bind] in H.
    destruct (all_pos (Nelem g) (sum_cols 1 (n Cb))) eqn:PS2; [|discriminate]. cbn [negb bind] in H. cbn [fst snd] in H. injection H as <- <- <- <- <-.
    split; [reflexivity|]. split; [|split; [|split; [|split; [exact TM|]]]].
    + intros c [<-|[<-|[]]] k K; rewrite <- sum_cols_one; [apply (all_pos_ok _ _ PS)|apply (all_pos_ok _ _ PS2)]; auto.
    + rewrite !two_T_kin. reflexivity.
    + f_equal. cbn [lsum]. rewrite <- (two_vw g (sum_cols 1 (n Ca)) _ G) by (intros; apply sum_cols_one). rewrite <- (two_vw g (sum_cols 1 (n Cb)) _ G) by (intros; apply sum_cols_one). ring.
    + eexists. split; [reflexivity|]. intros k K. cbv beta. rewrite (two_ts_val g _ _ (fun j => n Ca j 0%nat)) by (intros; apply sum_cols_one).
      rewrite (two_ts_val g _ _ (fun j => n Cb j 0%nat)) by (intros; apply sum_cols_one). unfold two_part. ring.
Qed.

Lemma ep_two_inv : forall g p p', ep_kinetic g p = Ok p' -> po_kin (p_opt p) = "twoorbital"%string -> exists p1 Tm tm Tf tf,
  epk_two g p = Ok (p1, (Tm, tm, Tf, tf)) /\
  p' = set_epk (set_T p1 "Ep_kin" (sv_op Rminus Tm (if po_ess (p_opt p) then sv_op Rmult Tf (SC 2) else Tf))) (arr_map2 nsub tm (if po_ess (p_opt p) then arr_map2 nadd tf tf else tf)).
Proof.
  intros g p p' H K. unfold ep_kinetic in H. rewrite K in H. cbn [String.eqb Ascii.eqb Bool.eqb orb] in H. cbv zeta in H.
  destruct (epk_two g p) as [[p1 [[[Tm tm] Tf] tf]]|]; [|discriminate]. cbn [bind] in H. injection H as <-. do 5 eexists. split; reflexivity.
Qed.

(** Half of the electrons in each of two orbitals that reproduce the density; the partition energy is their kinetic energy
    minus the weighted von Weizsaecker energies of KSa and KSb. *)
Theorem two_energy : forall g p F n na nb nf q p', grid_ok g -> settled g p F n na nb nf q -> p_pol p = 1%nat -> po_kin (p_opt p) = "twoorbital"%string ->
  ep_kinetic g p = Ok p' ->
  exists f1 f2 : vec,
    p_V p' "phi1"%string = Some (fun k _ => f1 k) /\ p_V p' "phi2"%string = Some (fun k _ => f2 k) /\
    (forall k, (k < Nelem g)%nat -> f1 k ^ 2 + f2 k ^ 2 = nf k 0%nat) /\
    integrate1 g (fun k => f1 k ^ 2) = integrate1 g (fun k => nf k 0%nat) / 2 /\
    integrate1 g (fun k => f2 k ^ 2) = integrate1 g (fun k => nf k 0%nat) / 2 /\
    p_T p' "Ep_kin"%string = Some (SC (kin_energy g f1 + kin_energy g f2 -
      share (po_ess (p_opt p)) F (if po_ab (p_opt p) then [Ca; Ca] else [Ca; Cb]) (fun c => vw_energy g (fun k => n c k 0%nat)))).
Proof.
  intros g p F n na nb nf q p' G S P1 K H. destruct (ep_two_inv _ _ _ H K) as (p1 & Tm & tm & Tf & tf & E & ->).
  pose proof S as (_ & (_ & _ & _ & _ & _ & VF) & _). destruct (epk_two_inv _ _ _ _ _ _ _ _ _ _ _ _ _ G S P1 E) as (f1 & f2 & PH & -> & _ & -> & -> & _).
  destruct (two_phi_ok _ _ _ _ _ PH) as (_ & I1 & I2 & I3 & _). exists f1, f2. split; [reflexivity|]. split; [reflexivity|].
  assert (X : integrate1 g (fun k => na k 0%nat + nb k 0%nat) = integrate1 g (fun k => nf k 0%nat)) by (apply integrate1_ext; intros; rewrite VF; reflexivity).
  split; [intros k KK; rewrite VF; auto|]. split; [rewrite <- X; auto|]. split; [rewrite <- X; auto|].
  change (p_T _ "Ep_kin"%string) with (Some (sv_op Rminus (SC (kin_energy g f1 + kin_energy g f2)) (if po_ess (p_opt p) then sv_op Rmult (SC ((if po_ab (p_opt p) then 2 else 1) * lsum (if po_ab (p_opt p) then [Ca] else [Ca; Cb]) (fun c => f_scale (F c) * vw_energy g (fun k => n c k 0%nat)))) (SC 2) else SC ((if po_ab (p_opt p) then 2 else 1) * lsum (if po_ab (p_opt p) then [Ca] else [Ca; Cb]) (fun c => f_scale (F c) * vw_energy g (fun k => n c k 0%nat)))))).
  f_equal. unfold share. destruct (po_ess (p_opt p)), (po_ab (p_opt p)); cbn [sv_op lsum]; f_equal; ring.
Qed.

(** The energy density. *)
Theorem two_density : forall g p F n na nb nf q p', grid_ok g -> settled g p F n na nb nf q -> p_pol p = 1%nat -> po_kin (p_opt p) = "twoorbital"%string ->
  po_ab (p_opt p) = false -> po_ess (p_opt p) = false -> ep_kinetic g p = Ok p' ->
  exists (f1 f2 : vec) t, p_V p' "phi1"%string = Some (fun k _ => f1 k) /\ p_V p' "phi2"%string = Some (fun k _ => f2 k) /\ p_epk p' = Some (A2 1 t) /\
    (forall k, (k < Nelem g)%nat -> exists x, t k 0%nat = Fin x) /\
    integrate1 g (fun k => nf k 0%nat * to_R (t k 0%nat)) =
    kin_energy g f1 + kin_energy g f2 - lsum [Ca; Cb] (fun c => f_scale (F c) ^ 2 * vw_energy g (fun k => n c k 0%nat)).
Proof.
  intros g p F n na nb nf q p' G S P1 K AB ES H. destruct (ep_two_inv _ _ _ H K) as (p1 & Tm & tm & Tf & tf & E & ->).
  pose proof S as (_ & (_ & _ & _ & _ & _ & VF) & HQ & _). destruct (epk_two_inv _ _ _ _ _ _ _ _ _ _ _ _ _ G S P1 E) as (f1 & f2 & PH & -> & PN & _ & _ & (t & -> & Ht) & (u & -> & Hu)).
  rewrite AB in PN, Hu. rewrite ES. destruct (two_phi_ok _ _ _ _ _ PH) as (P & _). exists f1, f2, (fun k _ => nsub (t k) (Fin (u k))). do 3 (split; [reflexivity|]).
  assert (V : forall k, (k < Nelem g)%nat -> nsub (t k) (Fin (u k)) = Fin ((f1 k * half_lap g f1 k + f2 k * half_lap g f2 k) / gw g k / nf k 0%nat - u k)) by (intros k KK; rewrite Ht by auto; reflexivity).
  split; [intros k KK; eexists; apply V; auto|].
  transitivity (integrate1 g (fun k => (f1 k * (half_lap g f1 k / gw g k) + f2 k * (half_lap g f2 k / gw g k)) +
     (-1) * (f_scale (F Ca) ^ 2 * (sqrt (n Ca k 0%nat) * (half_lap g (fun j => sqrt (n Ca j 0%nat)) k / gw g k)) + f_scale (F Cb) ^ 2 * (sqrt (n Cb k 0%nat) * (half_lap g (fun j => sqrt (n Cb j 0%nat)) k / gw g k))))).
  - apply integrate1_ext. intros k KK. rewrite V by auto. cbn [to_R]. rewrite Hu by auto. destruct (P k KK) as (Pa & Pb).
    assert (NF : nf k 0%nat <> 0) by (rewrite VF; lra). pose proof (gw_pos g k G KK) as W.
    destruct (HQ Ca Logic.I) as (_ & QA). destruct (QA k 0%nat) as (QA1 & _). destruct (HQ Cb Logic.I) as (_ & QB). destruct (QB k 0%nat) as (QB1 & _).
    unfold two_part. rewrite QA1, QB1 by auto. pose proof (PN Ca (or_introl eq_refl) k KK). pose proof (PN Cb (or_intror (or_introl eq_refl)) k KK). field. repeat split; lra.
  - rewrite integrate1_plus, integrate1_plus, integrate1_scal, integrate1_plus, !integrate1_scal. cbn [lsum]. unfold vw_energy. fold (kin_energy g f1). fold (kin_energy g f2). ring.
Qed.

(** With ab_sym fragment A is counted twice in the energy density. *)
Theorem two_density_ab : forall g p F n na nb nf q p', grid_ok g -> settled g p F n na nb nf q -> p_pol p = 1%nat -> po_kin (p_opt p) = "twoorbital"%string ->
  po_ab (p_opt p) = true -> po_ess (p_opt p) = false -> ep_kinetic g p = Ok p' ->
  exists (f1 f2 : vec) t, p_V p' "phi1"%string = Some (fun k _ => f1 k) /\ p_V p' "phi2"%string = Some (fun k _ => f2 k) /\ p_epk p' = Some (A2 1 t) /\
   forall k, (k < Nelem g)%nat -> t k 0%nat = Fin ((f1 k * half_lap g f1 k + f2 k * half_lap g f2 k) / gw g k / nf k 0%nat
     - (2 * two_part g F q n Ca k + mirror1 g (two_part g F q n Ca) k)).
Proof.
  intros g p F n na nb nf q p' G S P1 K AB ES H. destruct (ep_two_inv _ _ _ H K) as (p1 & Tm & tm & Tf & tf & E & ->).
  destruct (epk_two_inv _ _ _ _ _ _ _ _ _ _ _ _ _ G S P1 E) as (f1 & f2 & PH & -> & PN & _ & _ & (t & -> & Ht) & (u & -> & Hu)).
  rewrite AB in PN, Hu. rewrite ES. exists f1, f2, (fun k _ => nsub (t k) (Fin (u k))). do 3 (split; [reflexivity|]).
  intros k KK. rewrite Ht, Hu by auto. reflexivity.
Qed.
