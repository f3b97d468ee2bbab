(** Partition: the von Weizsaecker kinetic partition energy. *)
From Coq Require Import Reals List Arith Lia Lra ZArith Bool String.
From Verif Require Import Base BaseLemmas GridModel GridSpec GridProofs HartreeModel SolverModel SolverSpec LibxcModel OptionsModel KSModel KSSpec KSProofs KSLoop KSEnergy
  InverterModel PartitionModel PartitionSpec PartitionBase PartitionConstr PartitionDens PartitionFrame PartitionEnergy PartitionEp.
Import ListNotations.
Local Open Scope R_scope.

Lemma finite_ok : forall a b f m, finite a b f = Ok m -> (forall k s, (k < a)%nat -> (s < b)%nat -> f k s = Fin (m k s)) /\ forall k s, m k s = to_R (f k s).
Proof.
  intros a b f m H. unfold finite in H. destruct (forallb _ _) eqn:E; [|discriminate]. injection H as <-. split; [|reflexivity]. intros k s Hk Hs.
  rewrite forallb_forall in E. specialize (E k). rewrite in_seq in E. specialize (E ltac:(lia)). rewrite forallb_forall in E. specialize (E s). rewrite in_seq in E. specialize (E ltac:(lia)).
  destruct (f k s); try discriminate. reflexivity.
Qed.
Lemma np_sqrt_ok : forall a b n m, np_sqrt a b n = Ok m -> forall k s, (k < a)%nat -> (s < b)%nat -> 0 <= n k s /\ m k s = sqrt (n k s).
Proof.
  intros a b n m H k s Hk Hs. apply finite_ok in H. destruct H as (H & _). specialize (H k s Hk Hs). cbv beta in H. destruct (Rlt_dec (n k s) 0); [discriminate|]. injection H as <-. split; [lra|reflexivity].
Qed.
Lemma np_sqrt1_ok : forall a n m, np_sqrt1 a n = Ok m -> forall k, (k < a)%nat -> 0 <= n k /\ m k = sqrt (n k).
Proof.
  intros a n m H k Hk. unfold np_sqrt1 in H. destruct (np_sqrt a 1 (fun k _ => n k)) as [f|] eqn:E; [|discriminate]. cbn [bind] in H. injection H as <-.
  apply (np_sqrt_ok _ _ _ _ E k 0%nat); auto.
Qed.
(** weight times one half of the Laplacian, with a minus sign *)
Definition half_lap (g : grid) (f : vec) (k : nat) : R := - / 2 * sumR (Nelem g) (fun j => elap g k j * f j).
Lemma kinop_half : forall g f f' k, (forall j, (j < Nelem g)%nat -> f j = f' j) -> kinop g f k = half_lap g f' k.
Proof.
  intros g f f' k H. unfold kinop, gapply, matvec, half_lap. rewrite <- sumR_scal. apply sumR_ext. intros j Hj. rewrite H by auto. lra.
Qed.
(** von Weizsaecker kinetic energy of a density *)
Definition vw_energy (g : grid) (n : vec) : R := integrate1 g (fun k => sqrt (n k) * (half_lap g (fun j => sqrt (n j)) k / gw g k)).
Definition tvec (pol : nat) (n : mat) : vec := fun k => sumR pol (fun s => n k s).
Lemma vw_mol_spec : forall g n r, grid_ok g -> np_sqrt1 (Nelem g) n = Ok r -> vw_mol g r = - vw_energy g n.
Proof.
  intros g n r G H. pose proof (np_sqrt1_ok _ _ _ H) as R. unfold vw_mol, vw_energy, integrate1. rewrite Ropp_mult_distr_r. f_equal.
  replace (- sumR (Nelem g) (fun k => gwi g k * gw g k * (sqrt (n k) * (half_lap g (fun j => sqrt (n j)) k / gw g k))))
     with ((-1) * sumR (Nelem g) (fun k => gwi g k * gw g k * (sqrt (n k) * (half_lap g (fun j => sqrt (n j)) k / gw g k)))) by ring.
  rewrite <- sumR_scal. apply sumR_ext. intros k Hk. destruct (R k Hk) as (_ & ->). pose proof (gw_pos g k G Hk) as W.
  replace (gapply g (fun i j => 1 / 2 * elap g i j) r k) with (- half_lap g (fun j => sqrt (n j)) k).
  - field. lra.
  - unfold half_lap, gapply, matvec. rewrite Ropp_mult_distr_l, Ropp_involutive. rewrite <- sumR_scal. apply sumR_ext. intros j Hj. destruct (R j Hj) as (_ & ->). lra.
Qed.
(** fragment term: a number times an array *)
Definition vw_wrong (g : grid) (F : comp -> frag) (n : comp -> vec) (c : comp) (k : nat) : R :=
  f_scale (F c) * (iprefac g * sumR (Nelem g) (fun j => gwi g j * sqrt (n c j))) * half_lap g (fun j => sqrt (n c j)) k.
Lemma epk_vonweiz_inv : forall g p F n nf q Tm tm Tf tf, grid_ok g -> densities p F n -> p_nf p = Some nf ->
  epk_vonweiz g p = Ok (q, (Tm, tm, Tf, tf)) ->
  q = p /\ Tm = SC (- vw_energy g (tvec (p_pol p) nf)) /\
  (exists a, Tf = AR a /\ forall k, a k = lsum (if p_ens p then [Ca; CA; Cb; CB] else [Ca; Cb]) (fun c => vw_wrong g F (fun c => tvec (p_pol p) (n c)) c k)) /\
  (exists t, tm = A1 t /\ forall k, (k < Nelem g)%nat -> 0 < tvec (p_pol p) nf k -> t k = Fin (half_lap g (fun j => sqrt (tvec (p_pol p) nf j)) k / gw g k / sqrt (tvec (p_pol p) nf k))).
Proof.
  intros g p F n nf q Tm tm Tf tf G (HF & HD) HN H. unfold epk_vonweiz in H. rewrite HN in H. cbn [have bind] in H.
  destruct (np_sqrt1 (Nelem g) (sum_cols (p_pol p) nf)) as [r|] eqn:R; [|discriminate]. cbn [bind] in H.
  match type of H with bind ?m _ = _ => destruct m as [a|] eqn:E1; [|discriminate] end. cbn [bind] in H. injection H as <- <- <- <- <-.
  split; [reflexivity|]. split; [f_equal; apply vw_mol_spec; auto|]. split.
  - exists (fst a). split; [reflexivity|]. intros k.
    assert (X : forall l acc b, (forall c, In c l -> member (p_ens p) c) ->
      forL l (fun c (acc : vec * (nat -> num)) =>
        do f <- get_f p c; do n <- axis1 (k_n (f_ks f)); do rf <- np_sqrt1 (Nelem g) (sum_cols (p_pol p) n); do Q <- getQ f;
        Ok (fun k => fst acc k + vw_fragv g (f_scale f) rf k,
            fun k => nadd (snd acc k) (nmulr (vw_dens g rf k) (f_scale f * sum_cols (p_pol p) Q k)))) acc = Ok b ->
      fst b k = fst acc k + lsum l (fun c => vw_wrong g F (fun c => tvec (p_pol p) (n c)) c k)).
    { clear E1 a. induction l as [|c l IH]; intros acc b HL H; cbn [forL lsum] in *; [injection H as <-; ring|].
      pose proof (HL c (or_introl eq_refl)) as M. unfold get_f in H at 1. rewrite (HF c M) in H. cbn [have bind] in H. unfold axis1 in H at 1. rewrite (HD c M) in H. cbn [bind] in H.
      destruct (np_sqrt1 (Nelem g) (sum_cols (p_pol p) (n c))) as [rf|] eqn:RF; [|discriminate]. cbn [bind] in H. destruct (getQ (F c)) as [Q|]; [|discriminate]. cbn [bind] in H.
      apply IH in H; [|intros; apply HL; right; auto]. rewrite H. cbn [fst]. pose proof (np_sqrt1_ok _ _ _ RF) as RR.
      rewrite Rplus_assoc. f_equal. f_equal. unfold vw_fragv, vw_wrong. rewrite (kinop_half g rf (fun j => sqrt (tvec (p_pol p) (n c) j)) k) by (intros j Hj; apply RR; auto). f_equal.
      rewrite Rmult_assoc. f_equal. f_equal. apply sumR_ext. intros j Hj. f_equal. apply RR; auto. }
    apply X in E1; [|intros c Hc; apply in_comps; exact Hc]. cbn [fst] in E1. etransitivity; [exact E1|]. rewrite Rplus_0_l. reflexivity.
  - eexists. split; [reflexivity|]. intros k Hk P. unfold vw_dens. pose proof (np_sqrt1_ok _ _ _ R) as RR.
    rewrite (kinop_half g r (fun j => sqrt (tvec (p_pol p) nf j)) k) by (intros j Hj; apply RR; auto). destruct (RR k Hk) as (_ & ->). change (sum_cols (p_pol p) nf k) with (tvec (p_pol p) nf k).
    pose proof (sqrt_lt_R0 _ P) as S. pose proof (gw_pos g k G Hk) as W. unfold ndiv at 1. destruct (Req_EM_T (sqrt (tvec (p_pol p) nf k)) 0); [lra|].
    cbn [ndivn]. unfold ndiv. destruct (Req_EM_T (gw g k) 0); [lra|]. cbn [nmulr]. f_equal. field. split; lra.
Qed.
Theorem vonweiz_energy : forall g p F n nf p', grid_ok g -> densities p F n -> p_nf p = Some nf -> po_kin (p_opt p) = "vonweiz"%string -> ep_kinetic g p = Ok p' ->
  exists a, p_T p' "Ep_kin"%string = Some (AR a) /\
    forall k, a k = - vw_energy g (tvec (p_pol p) nf)
        - (if po_ess (p_opt p) then 2 else 1) * lsum (if p_ens p then [Ca; CA; Cb; CB] else [Ca; Cb]) (fun c => vw_wrong g F (fun c => tvec (p_pol p) (n c)) c k).
Proof.
  intros g p F n nf p' G D HN HK H. destruct (ep_kinetic_inv g p p' H) as (r1 & Tm & tm & Tf & tf & K1 & _ & _ & K3). rewrite HK in K3.
  assert (K4 : epk_vonweiz g p = Ok (r1, (Tm, tm, Tf, tf))) by (destruct K3 as [[_ ?]|[[[?|?] _]|[[? _]|[[? _]|[? _]]]]]; try discriminate; auto). clear K3.
  destruct (epk_vonweiz_inv g p F n nf _ _ _ _ _ G D HN K4) as (_ & T1 & (a & T2 & A) & _). rewrite K1, T1, T2. destruct (po_ess (p_opt p)); cbn [sv_op]; eexists; (split; [reflexivity|]); intros k; cbv beta; rewrite A; ring.
Qed.
(** its own molecular energy density integrates to plus the von Weizsaecker energy *)
Theorem vonweiz_density : forall g p F n nf p', grid_ok g -> densities p F n -> p_nf p = Some nf -> po_kin (p_opt p) = "vonweiz"%string -> ep_kinetic g p = Ok p' ->
  (forall k, (k < Nelem g)%nat -> 0 < tvec (p_pol p) nf k) ->
  exists t tf, p_epk p' = Some (A1 (fun k => nsub (t k) (tf k))) /\
    (forall k, (k < Nelem g)%nat -> exists x, t k = Fin x) /\ integrate1 g (fun k => tvec (p_pol p) nf k * to_R (t k)) = vw_energy g (tvec (p_pol p) nf).
Proof.
  intros g p F n nf p' G D HN HK H P. destruct (ep_kinetic_inv g p p' H) as (r1 & Tm & tm & Tf & tf & _ & K1 & _ & K3). rewrite HK in K3.
  assert (K4 : epk_vonweiz g p = Ok (r1, (Tm, tm, Tf, tf))) by (destruct K3 as [[_ ?]|[[[?|?] _]|[[? _]|[[? _]|[? _]]]]]; try discriminate; auto). clear K3.
  destruct (epk_vonweiz_inv g p F n nf _ _ _ _ _ G D HN K4) as (_ & _ & _ & (t & T1 & T2)).
  assert (TF : exists u, tf = A1 u).
  { unfold epk_vonweiz in K4. rewrite HN in K4. cbn [have bind] in K4. destruct (np_sqrt1 _ _); [|discriminate]. cbn [bind] in K4.
    match type of K4 with bind ?m _ = _ => destruct m as [acc|]; [|discriminate] end. cbn [bind] in K4. injection K4 as <- <- <- <- <-. eauto. }
  destruct TF as (u & ->). rewrite K1, T1. exists t, (fun k => if po_ess (p_opt p) then nadd (u k) (u k) else u k). split; [destruct (po_ess (p_opt p)); reflexivity|].
  split; [intros k Hk; rewrite (T2 k Hk (P k Hk)); eauto|]. unfold vw_energy. apply integrate1_ext. intros k Hk. rewrite (T2 k Hk (P k Hk)). cbn [to_R].
  pose proof (sqrt_lt_R0 _ (P k Hk)) as S. pose proof (gw_pos g k G Hk) as W. rewrite <- (sqrt_sqrt (tvec (p_pol p) nf k)) at 1 by (apply Rlt_le; auto). field. split; lra.
Qed.
