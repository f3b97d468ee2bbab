(** Lemmas about CADMium/libxc/libxc.py. *)
From Coq Require Import Reals List Arith Lia Lra ZArith Bool String.
From Coquelicot Require Import Coquelicot.
From Verif Require Import Base BaseLemmas GridModel GridSpec GridProofs FDProofs OpProofs GridMore HartreeModel
  Green LibxcModel LibxcSpec.
Local Open Scope R_scope.
Local Opaque sinh cosh.

Lemma vdot_scal : forall g c u f, vdot g u (fun k => c * f k) = c * vdot g u f.
Proof. intros. unfold vdot. rewrite <- sumR_scal. apply sumR_ext. intros; ring. Qed.
Lemma vdot_plus : forall g u f f', vdot g u (fun k => f k + f' k) = vdot g u f + vdot g u f'.
Proof. intros. unfold vdot. rewrite <- sumR_plus. apply sumR_ext. intros; ring. Qed.
Lemma vdot_minus : forall g u f f', vdot g u (fun k => f k - f' k) = vdot g u f - vdot g u f'.
Proof. intros. unfold vdot. rewrite <- sumR_minus. apply sumR_ext. intros; ring. Qed.
Lemma vdot_ext : forall g u f f', (forall k, (k < Nelem g)%nat -> f k = f' k) -> vdot g u f = vdot g u f'.
Proof. intros. unfold vdot. apply sumR_ext. intros. rewrite H; auto. Qed.

(** The pairing determines a function. *)
Lemma vdot_inj : forall g f f', grid_ok g -> (forall u, vdot g u f = vdot g u f') -> forall k, (k < Nelem g)%nat -> f k = f' k.
Proof.
  intros g f f' Hg H k Hk. specialize (H (fun j => if (j =? k)%nat then 1 else 0)). unfold vdot in H.
  rewrite (sumR_single _ k), (sumR_single _ k) in H; auto.
  - rewrite Nat.eqb_refl in H. pose proof (gw_pos g k Hg Hk). nra.
  - intros i _ Hi. destruct (Nat.eqb_spec i k); [congruence|ring].
  - intros i _ Hi. destruct (Nat.eqb_spec i k); [congruence|ring].
Qed.

Lemma green_s : forall g b s u f, grid_ok g -> fd_ok g b -> (b <= Na g)%nat ->
  vdot g u (div_s_grad g s f) = - dirichlet g s u f.
Proof.
  intros g b s u f Hg H Hb. unfold vdot, div_s_grad.
  rewrite (sumR_ext _ _ (fun k => gw g k * (u k * gapply g (diva g) (fun j => s j * gapply g (grada g) f j) k)
     + gw g k * (u k * gapply g (divr g) (fun j => s j * gapply g (gradr g) f j) k))) by (intros; ring).
  rewrite sumR_plus, (green_a g b), (green_r g b) by auto. unfold dirichlet.
  rewrite <- Ropp_plus_distr, <- sumR_plus. f_equal. apply sumR_ext. intros; ring.
Qed.
Lemma dirichlet_sym : forall g s u f, dirichlet g s u f = dirichlet g s f u.
Proof. intros. unfold dirichlet. apply sumR_ext. intros; ring. Qed.
Lemma dirichlet_nonneg : forall g s u, grid_ok g -> (forall k, (k < Nelem g)%nat -> 0 <= s k) -> 0 <= dirichlet g s u u.
Proof.
  intros. unfold dirichlet. apply sumR_nonneg. intros k Hk. pose proof (gw_pos g k H Hk). specialize (H0 k Hk).
  apply Rmult_le_pos; [lra|]. apply Rmult_le_pos; auto. nra.
Qed.

(** * get_xc *)
Lemma get_xc_lda : forall g lib id pol n F, lib id pol = Ok F ->
  get_xc g lib "lda" id pol n =
  Ok (integrate1 g (sum_cols pol (fun k s => xc_zk (F n None) k * n k s)), xc_zk (F n None), xc_vrho (F n None)).
Proof. intros. unfold get_xc, get_xc_dictionary. rewrite H. reflexivity. Qed.

Lemma get_xc_gga1 : forall g b lib id n F, grid_ok g -> fd_ok g b -> (b <= Na g)%nat -> lib id 1%nat = Ok F ->
  exists sg e eps v, sigma g 1 n = Ok (1%nat, sg) /\ get_xc g lib "gga" id 1 n = Ok (e, eps, v) /\
    e = integrate1 g (fun k => xc_zk (F n (Some sg)) k * n k 0%nat) /\ eps = xc_zk (F n (Some sg)) /\
    forall u, vdot g u (col v 0) = vdot g u (col (xc_vrho (F n (Some sg))) 0)
       + 2 * dirichlet g (col (xc_vsigma (F n (Some sg))) 0) u (col n 0).
Proof.
  intros g b lib id n F Hg H Hb E. destruct (sigma_pol1 g n) as (sg & Es & _).
  exists sg. unfold get_xc, get_xc_dictionary. rewrite E. cbn [bind]. rewrite Es. cbn [bind snd String.eqb Ascii.eqb Bool.eqb Nat.eqb].
  do 3 eexists. split; [reflexivity|]. split; [reflexivity|]. split; [|split; [reflexivity|]].
  - apply integrate1_ext. intros. unfold sum_cols. simpl. ring.
  - intros u. unfold col at 1. rewrite vdot_minus, vdot_scal, (green_s g b) by auto. unfold col. ring.
Qed.
Lemma get_xc_gga2 : forall g b lib id n F, grid_ok g -> fd_ok g b -> (b <= Na g)%nat -> lib id 2%nat = Ok F ->
  exists sg e eps v, sigma g 2 n = Ok (3%nat, sg) /\ get_xc g lib "gga" id 2 n = Ok (e, eps, v) /\
    e = integrate1 g (fun k => xc_zk (F n (Some sg)) k * (n k 0%nat + n k 1%nat)) /\ eps = xc_zk (F n (Some sg)) /\
    forall u, let vr := xc_vrho (F n (Some sg)) in let vs := xc_vsigma (F n (Some sg)) in
       vdot g u (col v 0) = vdot g u (col vr 0) + 2 * dirichlet g (col vs 0) u (col n 0) + dirichlet g (col vs 1) u (col n 1) /\
       vdot g u (col v 1) = vdot g u (col vr 1) + 2 * dirichlet g (col vs 2) u (col n 1) + dirichlet g (col vs 1) u (col n 0).
Proof.
  intros g b lib id n F Hg H Hb E. destruct (sigma_pol2 g n) as (sg & Es & _).
  exists sg. unfold get_xc, get_xc_dictionary. rewrite E. cbn [bind]. rewrite Es. cbn [bind snd String.eqb Ascii.eqb Bool.eqb Nat.eqb].
  do 3 eexists. split; [reflexivity|]. split; [reflexivity|]. split; [|split; [reflexivity|]].
  - apply integrate1_ext. intros. unfold sum_cols. simpl. ring.
  - intros u. unfold col. cbn [Nat.eqb].
    rewrite !vdot_minus, !vdot_scal, !(green_s g b) by auto. split; ring.
Qed.
Lemma get_xc_other : forall g lib fam id pol n F, lib id pol = Ok F -> fam <> "lda"%string -> fam <> "gga"%string ->
  get_xc g lib fam id pol n = Err ValueError.
Proof.
  intros. unfold get_xc, get_xc_dictionary. rewrite H. cbn [bind].
  destruct (String.eqb_spec fam "lda"); [congruence|]. destruct (String.eqb_spec fam "gga"); [congruence|]. reflexivity.
Qed.
Lemma get_xc_gga_pol : forall g lib id pol n F, lib id pol = Ok F -> pol <> 1%nat -> pol <> 2%nat ->
  get_xc g lib "gga" id pol n = Err ValueError.
Proof.
  intros. unfold get_xc, get_xc_dictionary. rewrite H. cbn [bind]. cbn [String.eqb Ascii.eqb Bool.eqb].
  rewrite sigma_other by auto. reflexivity.
Qed.

(** * spin exchange *)
Lemma ok3 : forall (A B C : Type) (x x' : A) (y : B) (z : C), x = x' -> Ok (x, y, z) = Ok (x', y, z).
Proof. intros. subst. reflexivity. Qed.
Lemma sigma_swap : forall g n sg, sigma g 2 n = Ok (3%nat, sg) ->
  exists sg', sigma g 2 (swap2 n) = Ok (3%nat, sg') /\ forall k s, (s < 3)%nat -> sg' k s = sg k (2 - s)%nat.
Proof.
  intros g n sg E. destruct (sigma_pol2 g n) as (s1 & E1 & H1). rewrite E1 in E. injection E as <-.
  destruct (sigma_pol2 g (swap2 n)) as (s2 & E2 & H2). exists s2. split; auto.
  intros k s Hs. destruct (H1 k) as (A0 & A2 & A1 & _). destruct (H2 k) as (B0 & B2 & B1 & _).
  destruct s as [|[|[|]]]; try lia; simpl Nat.sub.
  - rewrite B0, A2. reflexivity.
  - rewrite B1, A1. apply sumR_ext. intros. unfold swap2. simpl Nat.sub. ring.
  - rewrite B2, A0. reflexivity.
Qed.
Lemma div_s_grad_ext : forall g s s' f f' k, (forall i, s i = s' i) -> (forall i, f i = f' i) -> div_s_grad g s f k = div_s_grad g s' f' k.
Proof.
  intros. unfold div_s_grad. f_equal; apply gapply_ext; intros; rewrite H; f_equal; apply gapply_ext; auto.
Qed.
Lemma xc_spin_swap : forall g lib fam id n F e eps v, lib id 2%nat = Ok F -> spin_symmetric F ->
  get_xc g lib fam id 2 n = Ok (e, eps, v) ->
  exists eps' v', get_xc g lib fam id 2 (swap2 n) = Ok (e, eps', v') /\ (forall k, eps' k = eps k) /\
    forall k s, (s < 2)%nat -> v' k s = v k (1 - s)%nat.
Proof.
  intros g lib fam id n F e eps v HF (S1 & S2 & S3) E. unfold get_xc, get_xc_dictionary in *. rewrite HF in *. cbn [bind] in *.
  destruct (String.eqb_spec fam "lda") as [->|NL].
  - cbn [bind String.eqb Ascii.eqb Bool.eqb Nat.eqb] in *. injection E as <- <- <-. do 2 eexists. split; [|split].
    + apply ok3. apply integrate1_ext. intros k Hk. unfold sum_cols. simpl. rewrite !S1. unfold swap2. simpl Nat.sub. ring.
    + intros. apply S1.
    + intros. apply S2; auto.
  - destruct (String.eqb_spec fam "gga") as [->|NG]; [|discriminate].
    destruct (sigma_pol2 g n) as (sg & Es & _). destruct (sigma_swap g n sg Es) as (sg' & Es' & Hs).
    rewrite Es in E. rewrite Es'. cbn [bind snd Nat.eqb] in *. injection E as <- <- <-.
    destruct (S3 n sg sg' Hs) as (Z & VR & VS). do 2 eexists. split; [|split].
    + apply ok3. apply integrate1_ext. intros k Hk. unfold sum_cols. simpl. rewrite !Z. unfold swap2. simpl Nat.sub. ring.
    + intros. apply Z.
    + intros k s Hk. destruct s as [|[|]]; try lia; cbn [Nat.eqb Nat.sub].
      * rewrite VR by lia. simpl Nat.sub. f_equal; [f_equal; f_equal|]; apply div_s_grad_ext; auto; intros; rewrite VS by lia; reflexivity.
      * rewrite VR by lia. simpl Nat.sub. f_equal; [f_equal; f_equal|]; apply div_s_grad_ext; auto; intros; rewrite VS by lia; reflexivity.
Qed.

(** * mirror image *)
Lemma div_s_grad_mirror : forall g b s f k, fd_ok g b -> (b <= Na g)%nat -> (k < Nelem g)%nat ->
  div_s_grad g (mirror1 g s) (mirror1 g f) k = mirror1 g (div_s_grad g s f) k.
Proof.
  intros g b s f k H Hb Hk. unfold div_s_grad at 2.
  rewrite (mirror1_map2 _ _ _ g Rplus) by auto. unfold div_s_grad. f_equal.
  - rewrite (gapply_ext g (diva g) _ (fun i => (-1) * mirror1 g (fun j => s j * gapply g (grada g) f j) i)).
    + unfold gapply at 1. rewrite matvec_scal. fold (gapply g (diva g) (mirror1 g (fun j => s j * gapply g (grada g) f j)) k).
      rewrite (diva_mirror g b) by auto. ring.
    + intros i Hi. rewrite (grada_mirror g b) by auto. rewrite (mirror1_map2 _ _ _ g Rmult) by auto. ring.
  - rewrite <- divr_mirror by auto. apply gapply_ext. intros i Hi. rewrite gradr_mirror by auto.
    rewrite (mirror1_map2 _ _ _ g Rmult) by auto. reflexivity.
Qed.
Lemma mirror1_at : forall g k, (k < Nelem g)%nat -> exists k', (k' < Nelem g)%nat /\ forall (A : Type) (f : nat -> A), mirror1 g f k = f k'.
Proof.
  intros g k Hk. destruct (pos_surj g k Hk) as (ia & ir & Hp & ->). exists (pos g (Na g - 1 - ia) ir). split.
  - apply pos_lt, mirror_point. auto.
  - intros. apply mirror1_pos. auto.
Qed.
Lemma xc_mirror : forall g b lib fam id pol n F e eps v, grid_ok g -> lstsq_ok g -> gNMa g = gNMr g -> 
  (forall f, integrate1 g (mirror1 g f) = integrate1 g f) ->
  fd_ok g b -> (b <= Na g)%nat -> lib id pol = Ok F -> pointwise pol (2 * pol - 1) F ->
  (fam = "gga"%string -> pol = 1%nat \/ pol = 2%nat) ->
  get_xc g lib fam id pol n = Ok (e, eps, v) ->
  exists eps' v', get_xc g lib fam id pol (mirror2 g n) = Ok (e, eps', v') /\
    (forall k, (k < Nelem g)%nat -> eps' k = mirror1 g eps k) /\
    forall k s, (k < Nelem g)%nat -> (s < pol)%nat -> v' k s = mirror1 g (col v s) k.
Proof.
  intros g b lib fam id pol n F e eps v Hg Hls HN HI H Hb HF PW HP E.
  assert (Key : forall sg sg', (forall k k', (k < Nelem g)%nat -> (forall (A : Type) (f : nat -> A), mirror1 g f k = f k') -> same_sigma (2 * pol - 1) sg' sg k k') ->
    (forall k, (k < Nelem g)%nat -> xc_zk (F (mirror2 g n) sg') k = mirror1 g (xc_zk (F n sg)) k) /\
    (forall k s, (k < Nelem g)%nat -> (s < pol)%nat -> xc_vrho (F (mirror2 g n) sg') k s = mirror1 g (col (xc_vrho (F n sg)) s) k) /\
    (forall k s, (k < Nelem g)%nat -> (s < 2 * pol - 1)%nat -> xc_vsigma (F (mirror2 g n) sg') k s = mirror1 g (col (xc_vsigma (F n sg)) s) k)).
  { intros sg sg' HS. repeat split; intros k; intros; destruct (mirror1_at g k) as (k' & Hk' & Q); auto; rewrite Q;
      destruct (PW (mirror2 g n) n sg' sg k k') as (P1 & P2 & P3); auto;
      try (intros; rewrite mirror2_mirror1 by auto; apply Q); unfold col; auto. }
  assert (INT : forall z z', (forall k, (k < Nelem g)%nat -> z' k = mirror1 g z k) ->
    integrate1 g (sum_cols pol (fun k s => z' k * mirror2 g n k s)) = integrate1 g (sum_cols pol (fun k s => z k * n k s))).
  { intros z z' Hz. rewrite <- (HI (sum_cols pol (fun k s => z k * n k s))). apply integrate1_ext. intros k Hk.
    destruct (mirror1_at g k Hk) as (k' & _ & Q). rewrite Q. unfold sum_cols. apply sumR_ext. intros s Hs.
    rewrite Hz by auto. rewrite Q. rewrite mirror2_mirror1 by auto. rewrite Q. reflexivity. }
  unfold get_xc, get_xc_dictionary in *. rewrite HF in *. cbn [bind] in *.
  destruct (String.eqb_spec fam "lda") as [->|NL].
  - cbn [bind String.eqb Ascii.eqb Bool.eqb Nat.eqb] in *. injection E as <- <- <-.
    destruct (Key None None) as (Z & VR & VS); [simpl; auto|]. do 2 eexists. split; [|split].
    + rewrite (INT _ _ Z). reflexivity.
    + exact Z.
    + exact VR.
  - destruct (String.eqb_spec fam "gga") as [->|NG]; [|discriminate].
    destruct (sigma g pol n) as [(q & sg)|] eqn:Es; [|discriminate]. destruct (sigma g pol (mirror2 g n)) as [(q' & sg')|] eqn:Es'.
    2:{ destruct (HP eq_refl) as [->| ->].
        - destruct (sigma_pol1 g (mirror2 g n)) as (x & Ex & _). rewrite Ex in Es'. discriminate.
        - destruct (sigma_pol2 g (mirror2 g n)) as (x & Ex & _). rewrite Ex in Es'. discriminate. }
    destruct (sigma_mirror g b n pol _ _ H Hb Es Es') as (Eq & SM). simpl in Eq, SM. subst q'.
    assert (q = 2 * pol - 1)%nat as Hq.
    { destruct (HP eq_refl) as [->| ->].
      - destruct (sigma_pol1 g n) as (x & Ex & _). rewrite Ex in Es. injection Es as <- _. reflexivity.
      - destruct (sigma_pol2 g n) as (x & Ex & _). rewrite Ex in Es. injection Es as <- _. reflexivity. }
    cbn [bind snd] in *. destruct (Key (Some sg) (Some sg')) as (Z & VR & VS).
    { intros k k' Hk Q j Hj. rewrite SM by lia. apply Q. }
    assert (DS : forall t s k, (t < pol)%nat -> (s < 2 * pol - 1)%nat -> (k < Nelem g)%nat ->
      div_s_grad g (fun k => xc_vsigma (F (mirror2 g n) (Some sg')) k s) (fun k => mirror2 g n k t) k
      = mirror1 g (div_s_grad g (fun k => xc_vsigma (F n (Some sg)) k s) (fun k => n k t)) k).
    { intros t s k Ht Hs Hk. rewrite <- (div_s_grad_mirror g b) by auto. unfold div_s_grad.
      f_equal; apply gapply_ext; intros i Hi; rewrite VS by auto; f_equal; apply gapply_ext; intros j Hj; apply mirror2_mirror1; auto. }
    injection E as <- <- <-. do 2 eexists. split; [|split].
    + rewrite (INT _ _ Z). reflexivity.
    + exact Z.
    + intros k s Hk Hs. destruct (mirror1_at g k Hk) as (k' & Hk' & Q).
      destruct (HP eq_refl) as [->| ->].
      * cbn [Nat.eqb]. rewrite VR, DS by auto. rewrite !Q. unfold col. reflexivity.
      * cbn [Nat.eqb]. rewrite Q. unfold col. destruct s as [|[|]]; try lia; cbn [Nat.eqb]; rewrite VR, !DS by lia; rewrite !Q; reflexivity.
Qed.

(** * the potential is the derivative of the energy *)
Lemma sum_derive : forall n (f : nat -> R -> R) (l : nat -> R) t,
  (forall k, (k < n)%nat -> is_derive (f k) t (l k)) -> is_derive (fun t => sumR n (fun k => f k t)) t (sumR n l).
Proof.
  induction n as [|n IH]; intros f l t H; simpl.
  - apply (is_derive_const (V := R_NormedModule)).
  - apply (is_derive_plus (V := R_NormedModule)); auto.
Qed.
Lemma lda_derivative : forall g (e v : R -> R) (n d : vec),
  (forall k, (k < Nelem g)%nat -> is_derive (fun r => r * e r) (n k) (v (n k))) ->
  is_derive (fun t => integrate1 g (fun k => e (n k + t * d k) * (n k + t * d k))) 0 (integrate1 g (fun k => v (n k) * d k)).
Proof.
  intros g e v n d H. unfold integrate1.
  apply (is_derive_scal (fun t => sumR (Nelem g) (fun k => gwi g k * gw g k * (e (n k + t * d k) * (n k + t * d k)))) 0 (iprefac g)).
  apply sum_derive. intros k Hk.
  apply (is_derive_scal (fun t => e (n k + t * d k) * (n k + t * d k)) 0 (gwi g k * gw g k)).
  assert (D : is_derive (fun t => n k + t * d k) 0 (d k)) by (auto_derive; auto; ring).
  specialize (H k Hk). replace (n k) with (n k + 0 * d k) in H at 1 by ring.
  pose proof (is_derive_comp (fun r => r * e r) (fun t => n k + t * d k) 0 _ _ H D) as C.
  simpl in C. unfold scal in C. simpl in C. unfold mult in C. simpl in C.
  replace (v (n k) * d k) with (d k * v (n k)) by ring.
  eapply is_derive_ext; [|exact C]. intros. simpl. ring.
Qed.
Lemma gapply_line : forall g A n d t k, gapply g A (fun i => n i + t * d i) k = gapply g A n k + t * gapply g A d k.
Proof.
  intros. unfold gapply, matvec. rewrite <- sumR_scal, <- sumR_plus. apply sumR_ext. intros; ring.
Qed.
Lemma gga_derivative : forall g b (e vr vs : R -> R -> R) (n d : vec), grid_ok g -> fd_ok g b -> (b <= Na g)%nat ->
  let sg := fun n k => gapply g (grada g) n k ^ 2 + gapply g (gradr g) n k ^ 2 in
  (forall k, (k < Nelem g)%nat -> differentiable_pt_lim (fun r s => r * e r s) (n k) (sg n k) (vr (n k) (sg n k)) (vs (n k) (sg n k))) ->
  is_derive (fun t => vdot g (fun k => n k + t * d k) (fun k => e (n k + t * d k) (sg (fun i => n i + t * d i) k))) 0
    (vdot g d (fun k => vr (n k) (sg n k)) + 2 * dirichlet g (fun k => vs (n k) (sg n k)) d n).
Proof.
  intros g b e vr vs n d Hg Hf Hb sg H. unfold vdot, dirichlet. rewrite <- sumR_scal, <- sumR_plus.
  apply sum_derive. intros k Hk.
  set (A := gapply g (grada g) n k). set (A' := gapply g (grada g) d k).
  set (B := gapply g (gradr g) n k). set (B' := gapply g (gradr g) d k).
  assert (D1' : is_derive (fun t => n k + t * d k) 0 (d k)) by (auto_derive; auto; ring).
  assert (D2' : is_derive (fun t => (A + t * A') ^ 2 + (B + t * B') ^ 2) 0 (2 * (A * A' + B * B'))) by (auto_derive; auto; ring).
  assert (D3' : is_derive (fun t => (n k + t * d k) * e (n k + t * d k) ((A + t * A') ^ 2 + (B + t * B') ^ 2)) 0
     (vr (n k) (sg n k) * d k + vs (n k) (sg n k) * (2 * (A * A' + B * B')))).
  { apply is_derive_Reals.
    apply (derivable_pt_lim_comp_2d (fun r s => r * e r s) (fun t => n k + t * d k) (fun t => (A + t * A') ^ 2 + (B + t * B') ^ 2)).
    - specialize (H k Hk). unfold sg in *. fold A B in H |- *. replace (n k + 0 * d k) with (n k) by ring.
      replace ((A + 0 * A') ^ 2 + (B + 0 * B') ^ 2) with (A ^ 2 + B ^ 2) by ring. exact H.
    - apply is_derive_Reals. exact D1'.
    - apply is_derive_Reals. exact D2'. }
  pose proof (is_derive_scal _ 0 (gw g k) _ D3') as D4'.
  replace (gw g k * (d k * vr (n k) (sg n k)) + 2 * (gw g k * (vs (n k) (sg n k) * (A' * A + B' * B))))
    with (gw g k * (vr (n k) (sg n k) * d k + vs (n k) (sg n k) * (2 * (A * A' + B * B')))) by ring.
  eapply is_derive_ext; [|exact D4']. intros t. cbv beta. unfold sg. rewrite !gapply_line. fold A B A' B'. reflexivity.
Qed.
