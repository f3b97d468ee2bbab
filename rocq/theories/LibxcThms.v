(** Statements about get_xc assembled from LibxcProofs; example libraries. *)
From Coq Require Import Reals List Arith Lia Lra ZArith Bool String FunctionalExtensionality.
From Coquelicot Require Import Coquelicot.
From Verif Require Import Base BaseLemmas GridModel Poly GridSpec GridProofs NCProofs FDProofs OpProofs GridWitness GridMore
  HartreeModel LibxcModel LibxcSpec Green LibxcProofs.
Import ListNotations.
Local Open Scope R_scope.

(** Density moved along a direction. *)
Definition line (n d : mat) (t : R) : mat := fun k s => n k s + t * d k s.

Lemma lda1_at : forall g lib id F (e v : R -> R) (n d : mat), lib id 1%nat = Ok F ->
  (forall n k, xc_zk (F n None) k = e (n k 0%nat)) -> (forall n k, xc_vrho (F n None) k 0%nat = v (n k 0%nat)) ->
  (forall k, (k < Nelem g)%nat -> is_derive (fun r => r * e r) (n k 0%nat) (v (n k 0%nat))) ->
  exists E eps vx, (forall t, get_xc g lib "lda" id 1 (line n d t) = Ok (E t, eps t, vx t)) /\
    is_derive E 0 (integrate1 g (fun k => vx 0 k 0%nat * d k 0%nat)).
Proof.
  intros g lib id F e v n d HF He Hv HD.
  exists (fun t => integrate1 g (fun k => e (n k 0%nat + t * d k 0%nat) * (n k 0%nat + t * d k 0%nat))),
         (fun t => xc_zk (F (line n d t) None)), (fun t => xc_vrho (F (line n d t) None)).
  split.
  - intros t. rewrite (get_xc_lda _ _ _ _ _ F HF). apply ok3. apply integrate1_ext. intros k Hk.
    unfold sum_cols. cbn [sumR]. rewrite He. unfold line. ring.
  - rewrite (integrate1_ext g _ (fun k => v (n k 0%nat) * d k 0%nat)).
    + apply (lda_derivative g e v (fun k => n k 0%nat) (fun k => d k 0%nat)). exact HD.
    + intros k Hk. rewrite Hv. unfold line. f_equal. f_equal. ring.
Qed.

Lemma lda2_derivative : forall g (e v0 v1 : R -> R -> R) (a b da db : vec),
  (forall k, (k < Nelem g)%nat -> differentiable_pt_lim (fun x y => (x + y) * e x y) (a k) (b k) (v0 (a k) (b k)) (v1 (a k) (b k))) ->
  is_derive (fun t => integrate1 g (fun k => e (a k + t * da k) (b k + t * db k) * ((a k + t * da k) + (b k + t * db k)))) 0
    (integrate1 g (fun k => v0 (a k) (b k) * da k + v1 (a k) (b k) * db k)).
Proof.
  intros g e v0 v1 a b da db H. unfold integrate1.
  apply (is_derive_scal (fun t => sumR (Nelem g) (fun k => gwi g k * gw g k * (e (a k + t * da k) (b k + t * db k) * ((a k + t * da k) + (b k + t * db k))))) 0 (iprefac g)).
  apply sum_derive. intros k Hk.
  apply (is_derive_scal (fun t => e (a k + t * da k) (b k + t * db k) * ((a k + t * da k) + (b k + t * db k))) 0 (gwi g k * gw g k)).
  assert (D1' : is_derive (fun t => a k + t * da k) 0 (da k)) by (auto_derive; auto; ring).
  assert (D2' : is_derive (fun t => b k + t * db k) 0 (db k)) by (auto_derive; auto; ring).
  apply is_derive_Reals in D1'. apply is_derive_Reals in D2'. specialize (H k Hk).
  replace (a k) with (a k + 0 * da k) in H at 1 by ring.
  replace (b k) with (b k + 0 * db k) in H at 1 by ring.
  pose proof (derivable_pt_lim_comp_2d (fun x y => (x + y) * e x y) (fun t => a k + t * da k) (fun t => b k + t * db k) 0 _ _ _ _ H D1' D2') as C.
  apply is_derive_Reals in C. eapply is_derive_ext; [|exact C]. intros t. simpl. ring.
Qed.
Lemma lda2_at : forall g lib id F (e v0 v1 : R -> R -> R) (n d : mat), lib id 2%nat = Ok F ->
  (forall n k, xc_zk (F n None) k = e (n k 0%nat) (n k 1%nat)) ->
  (forall n k, xc_vrho (F n None) k 0%nat = v0 (n k 0%nat) (n k 1%nat)) ->
  (forall n k, xc_vrho (F n None) k 1%nat = v1 (n k 0%nat) (n k 1%nat)) ->
  (forall k, (k < Nelem g)%nat -> differentiable_pt_lim (fun x y => (x + y) * e x y) (n k 0%nat) (n k 1%nat)
     (v0 (n k 0%nat) (n k 1%nat)) (v1 (n k 0%nat) (n k 1%nat))) ->
  exists E eps vx, (forall t, get_xc g lib "lda" id 2 (line n d t) = Ok (E t, eps t, vx t)) /\
    is_derive E 0 (integrate1 g (fun k => vx 0 k 0%nat * d k 0%nat + vx 0 k 1%nat * d k 1%nat)).
Proof.
  intros g lib id F e v0 v1 n d HF He H0 H1 HD.
  exists (fun t => integrate1 g (fun k => e (n k 0%nat + t * d k 0%nat) (n k 1%nat + t * d k 1%nat) * ((n k 0%nat + t * d k 0%nat) + (n k 1%nat + t * d k 1%nat)))),
         (fun t => xc_zk (F (line n d t) None)), (fun t => xc_vrho (F (line n d t) None)).
  split.
  - intros t. rewrite (get_xc_lda _ _ _ _ _ F HF). apply ok3. apply integrate1_ext. intros k Hk.
    unfold sum_cols. cbn [sumR]. rewrite He. unfold line. ring.
  - rewrite (integrate1_ext g _ (fun k => v0 (n k 0%nat) (n k 1%nat) * d k 0%nat + v1 (n k 0%nat) (n k 1%nat) * d k 1%nat)).
    + apply (lda2_derivative g e v0 v1 (fun k => n k 0%nat) (fun k => n k 1%nat) (fun k => d k 0%nat) (fun k => d k 1%nat)). exact HD.
    + intros k Hk. rewrite H0, H1. unfold line. f_equal; f_equal; f_equal; ring.
Qed.

Lemma gga1_at : forall g b lib id F (e vr vs : R -> R -> R) (n d : mat), grid_ok g -> fd_ok g b -> (b <= Na g)%nat -> lib id 1%nat = Ok F ->
  (forall n sg k, xc_zk (F n (Some sg)) k = e (n k 0%nat) (sg k 0%nat)) ->
  (forall n sg k, xc_vrho (F n (Some sg)) k 0%nat = vr (n k 0%nat) (sg k 0%nat)) ->
  (forall n sg k, xc_vsigma (F n (Some sg)) k 0%nat = vs (n k 0%nat) (sg k 0%nat)) ->
  (forall x y, differentiable_pt_lim (fun r s => r * e r s) x y (vr x y) (vs x y)) ->
  exists E eps vx, (forall t, get_xc g lib "gga" id 1 (line n d t) = Ok (E t, eps t, vx t)) /\
    is_derive (fun t => vdot g (col (line n d t) 0) (eps t)) 0 (vdot g (col d 0) (col (vx 0) 0)).
Proof.
  intros g b lib id F e vr vs n d Hg Hf Hb HF He Hvr Hvs HD.
  assert (X : forall n, exists E eps vx, get_xc g lib "gga" id 1 n = Ok (E, eps, vx) /\
     (forall k, eps k = e (n k 0%nat) (gapply g (grada g) (col n 0) k ^ 2 + gapply g (gradr g) (col n 0) k ^ 2)) /\
     forall u, vdot g u (col vx 0) = vdot g u (fun k => vr (n k 0%nat) (gapply g (grada g) (col n 0) k ^ 2 + gapply g (gradr g) (col n 0) k ^ 2))
       + 2 * dirichlet g (fun k => vs (n k 0%nat) (gapply g (grada g) (col n 0) k ^ 2 + gapply g (gradr g) (col n 0) k ^ 2)) u (col n 0)).
  { intros n0. destruct (get_xc_gga1 g b lib id n0 F Hg Hf Hb HF) as (sg & E & eps & vx & Es & Ex & _ & -> & Hv).
    destruct (sigma_pol1 g n0) as (sg' & Es' & Hs). rewrite Es' in Es. injection Es as ->.
    exists E. do 2 eexists. split; [exact Ex|]. split.
    - intros k. rewrite He. destruct (Hs k) as (-> & _). reflexivity.
    - intros u. rewrite Hv. f_equal.
      + apply vdot_ext. intros k Hk. unfold col. rewrite Hvr. destruct (Hs k) as (-> & _). reflexivity.
      + f_equal. unfold dirichlet. apply sumR_ext. intros k Hk. unfold col at 1. rewrite Hvs. destruct (Hs k) as (-> & _). reflexivity. }
  assert (Y : exists E eps vx, forall t, get_xc g lib "gga" id 1 (line n d t) = Ok (E t, eps t, vx t)).
  { exists (fun t => match get_xc g lib "gga" id 1 (line n d t) with Ok (E, _, _) => E | _ => 0 end),
           (fun t => match get_xc g lib "gga" id 1 (line n d t) with Ok (_, e, _) => e | _ => fun _ => 0 end),
           (fun t => match get_xc g lib "gga" id 1 (line n d t) with Ok (_, _, v) => v | _ => fun _ _ => 0 end).
    intros t. destruct (X (line n d t)) as (E & eps & vx & -> & _). reflexivity. }
  destruct Y as (E & eps & vx & Q). exists E, eps, vx. split; auto.
  destruct (X (line n d 0)) as (E0 & eps0 & vx0 & Q0 & _ & V0). rewrite Q in Q0. injection Q0 as _ _ ->.
  rewrite V0.
  assert (L0 : line n d 0 = n) by (extensionality k; extensionality s; unfold line; ring). rewrite L0.
  eapply is_derive_ext; [|apply (gga_derivative g b e vr vs (col n 0) (col d 0) Hg Hf Hb); intros; apply HD].
  intros t. destruct (X (line n d t)) as (E1 & eps1 & vx1 & Q1 & P1 & _). rewrite Q in Q1. injection Q1 as _ -> _.
  unfold vdot. apply sumR_ext. intros k Hk. rewrite P1. reflexivity.
Qed.

(** A model exchange functional: e(r) = r (so the energy density is n^2 and the potential 2 n), alike for both spins;
    with a gradient term r*s in the gga case. *)
Definition lib_ex : libfun := fun id pol =>
  if ((pol =? 1) || (pol =? 2))%nat%bool then
    Ok (fun n sg => let tot := fun k => sum_cols pol n k in
       match sg with
       | None => mkXc tot (fun k s => 2 * tot k) (fun _ _ => 0)
       | Some s => mkXc (fun k => tot k + (if (pol =? 1)%nat then s k 0%nat else s k 0%nat + s k 2%nat))
                        (fun k _ => 2 * tot k + (if (pol =? 1)%nat then s k 0%nat else s k 0%nat + s k 2%nat))
                        (fun k j => if (j =? 1)%nat then 0 else tot k)
       end)
  else Err ValueError.
Definition ex_F (pol : nat) : mat -> option mat -> xcout :=
  match lib_ex 0%nat pol with Ok F => F | Err _ => fun _ _ => mkXc (fun _ => 0) (fun _ _ => 0) (fun _ _ => 0) end.
Lemma ex_spin : lib_ex 0%nat 2%nat = Ok (ex_F 2) /\ spin_symmetric (ex_F 2).
Proof.
  split; [reflexivity|]. unfold spin_symmetric, ex_F, lib_ex. cbn [Nat.eqb orb]. unfold sum_cols, swap2. cbn [sumR xc_zk xc_vrho xc_vsigma].
  split; [intros; simpl; ring|]. split; [intros; simpl; ring|]. intros n sg sg' H. split; [|split].
  - intros k. rewrite (H k 0%nat), (H k 2%nat) by lia. simpl. ring.
  - intros k s Hs. rewrite (H k 0%nat), (H k 2%nat) by lia. simpl. ring.
  - intros k s Hs. destruct s as [|[|[|]]]; try lia; simpl; ring.
Qed.
Lemma ex_point : forall pol, (pol = 1 \/ pol = 2)%nat -> lib_ex 0%nat pol = Ok (ex_F pol) /\ pointwise pol (2 * pol - 1) (ex_F pol).
Proof.
  intros pol Hp. split; [destruct Hp as [-> | ->]; reflexivity|].
  intros n n' sg sg' k k' Hn Hs. destruct Hp as [-> | ->]; unfold ex_F, lib_ex; cbn [Nat.eqb orb]; unfold sum_cols.
  - assert (T : sumR 1 (fun s => n k s) = sumR 1 (fun s => n' k' s)) by (apply sumR_ext; auto).
    destruct sg as [s|], sg' as [s'|]; simpl in Hs; try contradiction; cbn [xc_zk xc_vrho xc_vsigma]; rewrite T;
    [rewrite (Hs 0%nat) by lia|]; repeat split; auto.
  - assert (T : sumR 2 (fun s => n k s) = sumR 2 (fun s => n' k' s)) by (apply sumR_ext; auto).
    destruct sg as [s|], sg' as [s'|]; simpl in Hs; try contradiction; cbn [xc_zk xc_vrho xc_vsigma]; rewrite T;
    [rewrite (Hs 0%nat), (Hs 2%nat) by lia|]; repeat split; auto.
Qed.
Lemma ex_lda : forall n k, xc_zk (ex_F 1 n None) k = n k 0%nat /\ xc_vrho (ex_F 1 n None) k 0%nat = 2 * n k 0%nat /\
  is_derive (fun r => r * r) (n k 0%nat) (2 * n k 0%nat).
Proof.
  intros. unfold ex_F, lib_ex, sum_cols. cbn [Nat.eqb orb sumR xc_zk xc_vrho]. split; [ring|]. split; [ring|]. auto_derive; auto; ring.
Qed.
Lemma ex_gga : (forall n sg k, xc_zk (ex_F 1 n (Some sg)) k = n k 0%nat + sg k 0%nat /\
    xc_vrho (ex_F 1 n (Some sg)) k 0%nat = 2 * n k 0%nat + sg k 0%nat /\ xc_vsigma (ex_F 1 n (Some sg)) k 0%nat = n k 0%nat) /\
  forall x y, differentiable_pt_lim (fun r s => r * (r + s)) x y (2 * x + y) x.
Proof.
  split.
  - intros. unfold ex_F, lib_ex, sum_cols. cbn [Nat.eqb orb sumR xc_zk xc_vrho xc_vsigma]. repeat split; ring.
  - intros x y eps. exists (mkposreal (eps / 2) ltac:(destruct eps; simpl; lra)). simpl. intros u v Hu Hv.
    replace (u * (u + v) - x * (x + y) - ((2 * x + y) * (u - x) + x * (v - y))) with ((u - x) * ((u - x) + (v - y))) by ring.
    rewrite Rabs_mult. pose proof (Rabs_pos (u - x)). pose proof (Rabs_pos (v - y)). pose proof (Rabs_triang (u - x) (v - y)).
    pose proof (Rmax_l (Rabs (u - x)) (Rabs (v - y))). pose proof (Rmax_r (Rabs (u - x)) (Rabs (v - y))).
    apply Rle_trans with (Rabs (u - x) * eps); [apply Rmult_le_compat_l; lra|]. rewrite Rmult_comm.
    apply Rmult_le_compat_l; [destruct eps; simpl; lra|lra].
Qed.
