(** Concrete cases for the initial guess of the inversion: one orbital per fragment on a four-point grid. *)
From Coq Require Import Reals List Arith Lia Lra ZArith Bool String.
From Verif Require Import Base BaseLemmas GridModel GridSpec GridProofs FDProofs OpProofs MaxPrinciple GridWitness GridMore HartreeModel SolverModel SolverSpec SolverProofs SolverThms SolverResp SolverWitness SolverCases LibxcModel OptionsModel OptionsProofs KSModel KSSpec KSProofs KSThms KSLoop KSEnergy KSTotal KSWit
  InverterModel InverterWit PartitionModel PartitionSpec PartitionBase PartitionConstr PartitionDens PartitionFrame PartitionNew PartitionWit PartitionWit2 PartitionTwoWit PartitionGuess.
Import ListNotations.
Local Open Scope R_scope.

Lemma overlap_mirror22 : forall a b, overlap_of g22 (mirror1 g22 a) (mirror1 g22 b) = overlap_of g22 a b.
Proof.
  intros. unfold overlap_of. rewrite <- (integrate1_mirror g22 (fun k => a k * b k)); [reflexivity|reflexivity|].
  intros i Hi. change (Na g22) with 2%nat in *. rewrite (proj1 (g22_w i Hi)), (proj1 (g22_w (2 - 1 - i) ltac:(lia))). reflexivity.
Qed.
Lemma mirror_twice22 : forall (a : vec) k, (k < Nelem g22)%nat -> mirror1 g22 (mirror1 g22 a) k = a k.
Proof.
  intros a k K. destruct (pos_surj g22 k K) as (ia & ir & P & ->). rewrite mirror1_pos by auto. rewrite mirror1_pos by (destruct P; split; lia).
  f_equal. f_equal. destruct P. lia.
Qed.
Lemma normalised_mirror22 : forall a k, normalised g22 (mirror1 g22 a) k = mirror1 g22 (normalised g22 a) k.
Proof. intros. unfold normalised. rewrite overlap_mirror22. destruct (Rlt_dec _ _); reflexivity. Qed.
Lemma Hpsi_mirror22 : forall m c a k, (k < Nelem g22)%nat -> Hpsi g22 m (fun _ => c) (mirror1 g22 a) k = mirror1 g22 (Hpsi g22 m (fun _ => c) a) k.
Proof.
  intros m c a k K. unfold Hpsi. rewrite (hamiltonian_mirror g22 1) by (auto; first [exact g22_ok|exact g22_fd|cbn; lia]).
  destruct (pos_surj g22 k K) as (ia & ir & P & ->). rewrite !mirror1_pos by auto. f_equal. f_equal.
  symmetry. rewrite <- mirror1_pos by auto. apply gw_mirror; auto.
Qed.
(** The orbital of fragment A lives on the points of the left half, that of fragment B on the right half. *)
Definition left22 : vec := fun k => if Nat.even k then 1 else 0.
Definition right22 : vec := mirror1 g22 left22.
Lemma right22_at : forall k, (k < Nelem g22)%nat -> right22 k = if Nat.even k then 0 else 1.
Proof.
  intros k K. destruct (pos_surj g22 k K) as (ia & ir & P & ->). unfold right22. rewrite mirror1_pos by auto. destruct P as (P1 & P2). change (Na g22) with 2%nat in *. change (Nr g22) with 2%nat in *.
  destruct ia as [|[|?]]; [| |lia]; destruct ir as [|[|?]]; [| |lia| | |lia]; reflexivity.
Qed.
Lemma left22_norm : 0 < overlap_of g22 left22 left22.
Proof.
  unfold overlap_of, integrate1. apply Rmult_lt_0_compat; [apply iprefac_pos, g22_ok|].
  assert (W : forall k, (k < 4)%nat -> 0 < gw g22 k * gwi g22 k) by (intros k K; apply Rmult_lt_0_compat; [apply gw_pos; [exact g22_ok|exact K]|rewrite g22_gwi by exact K; lra]).
  rewrite g22_n. cbn [sumR left22 Nat.even]. pose proof (W 0%nat ltac:(lia)). pose proof (W 2%nat ltac:(lia)). lra.
Qed.
Definition pair22 : list vec := [left22; right22].
Lemma pair_independent : independent g22 pair22.
Proof.
  intros x H j Hj. cbn [pair22 List.length] in *. pose proof (H 0%nat ltac:(cbn; lia)) as H0. pose proof (H 1%nat ltac:(cbn; lia)) as H1.
  cbn [sumR member_of nth pair22] in H0, H1. rewrite right22_at in H0, H1 by (cbn; lia). cbn [left22 Nat.even] in H0, H1. destruct j as [|[|?]]; [lra|lra|lia].
Qed.
Section Pencil.
Variables (m : Z) (c : R).
Let F : mat := Fmat g22 m (fun _ => c) pair22.
Let S : mat := Smat g22 pair22.
Let u0 := normalised g22 left22.
Lemma u1_mirror : forall k, normalised g22 right22 k = mirror1 g22 u0 k.
Proof. intros. apply normalised_mirror22. Qed.
Lemma F_swap : F 1%nat 1%nat = F 0%nat 0%nat /\ F 1%nat 0%nat = F 0%nat 1%nat.
Proof.
  unfold F, Fmat, pair22. cbn [member_of nth]. split.
  - rewrite <- (overlap_mirror22 (normalised g22 left22)). apply overlap_ext; intros k K; [apply u1_mirror|].
    rewrite <- Hpsi_mirror22 by auto. apply Hpsi_ext; auto. intros. apply u1_mirror.
  - rewrite <- (overlap_mirror22 (normalised g22 left22)). apply overlap_ext; intros k K; [apply u1_mirror|].
    rewrite <- Hpsi_mirror22 by auto. apply Hpsi_ext; auto. intros. rewrite <- (mirror_twice22 (normalised g22 left22)) by auto.
    destruct (pos_surj g22 _ H) as (ia & ir & P & ->). rewrite !(mirror1_pos _ _ _ ia ir) by auto. symmetry. apply u1_mirror.
Qed.
Lemma S_is : S 0%nat 0%nat = 1 /\ S 1%nat 1%nat = 1 /\ S 0%nat 1%nat = 0 /\ S 1%nat 0%nat = 0.
Proof.
  assert (A : S 0%nat 0%nat = 1) by (apply normalised_one, left22_norm).
  assert (B : S 1%nat 1%nat = 1).
  { rewrite <- A. unfold S, Smat, pair22. cbn [member_of nth]. rewrite <- (overlap_mirror22 (normalised g22 left22)). apply overlap_ext; intros; apply u1_mirror. }
  assert (Z : forall k, (k < Nelem g22)%nat -> normalised g22 left22 k * normalised g22 right22 k = 0).
  { intros k K. destruct (normalised_form g22 left22) as (x & X). destruct (normalised_form g22 right22) as (y & Y). rewrite X, Y, right22_at by auto. unfold left22. destruct (Nat.even k); ring. }
  assert (N : forall f, (forall k, (k < Nelem g22)%nat -> f k = 0) -> integrate1 g22 f = 0).
  { intros f Hf. rewrite (integrate1_ext g22 f (fun k => 0 * f k)) by (intros; rewrite Hf by auto; ring). rewrite integrate1_scal. ring. }
  repeat split; auto; unfold S, Smat, pair22; cbn [member_of nth]; apply N; intros k K; [|rewrite Rmult_comm]; apply Z; auto.
Qed.
End Pencil.
(** Answers of the external routines: the even and the odd combination, in ascending order. *)
Definition pair_eig (M : nat) (F S : mat) : vec * mat :=
  (fun c => if (c =? 0)%nat then (F 0%nat 0%nat + F 0%nat 1%nat) / (S 0%nat 0%nat + S 0%nat 1%nat) else (F 0%nat 0%nat - F 0%nat 1%nat) / (S 0%nat 0%nat - S 0%nat 1%nat),
   fun j c => if (j =? 0)%nat then 1 else if (c =? 0)%nat then 1 else -1).
Definition pair_sort (M : nat) (ev : vec) : nat -> nat := fun j => if Rle_dec (ev 0%nat) (ev 1%nat) then j else (1 - j)%nat.
Definition pair_env : penv := mkPE ex_env (one_env 0) pair_eig pair_sort.
Lemma pair_answers : forall m c v, (forall k, (k < Nelem g22)%nat -> v k = c) -> eig_answers g22 pair_env m v pair22.
Proof.
  intros m c v HV. unfold eig_answers. cbv zeta.
  assert (EF : forall i j, Fmat g22 m v pair22 i j = Fmat g22 m (fun _ => c) pair22 i j) by (intros; apply overlap_ext; auto; intros k K; unfold Hpsi; rewrite HV by auto; reflexivity).
  destruct (F_swap m c) as (F1 & F2). destruct S_is as (S1 & S2 & S3 & S4). change (List.length pair22) with 2%nat. cbn [pair_env pe_eig pe_argsort pair_eig fst snd]. split.
  - intros a A. unfold pair_eig. cbn [fst snd]. split; [exists 0%nat; split; [lia|cbn; lra]|]. intros i I. cbn [sumR Nat.eqb]. rewrite ?S1, ?S3, !EF. destruct i as [|[|?]]; [| |lia].
    + rewrite ?S1, ?S3. destruct a as [|[|?]]; [| |lia]; cbn [Nat.eqb]; field.
    + rewrite S2, S4, F1, F2. destruct a as [|[|?]]; [| |lia]; cbn [Nat.eqb]; field.
  - unfold pair_sort. cbn [Nat.eqb fst]. destruct (Rle_dec _ _) as [L|L]; (split; [intros; lia|split; [intros; lia|]]); intros i j H.
    + assert (C : i = j \/ (i = 0 /\ j = 1)%nat) by lia. destruct C as [-> | (-> & ->)]; [apply Rle_refl|exact L].
    + assert (C : i = j \/ (i = 0 /\ j = 1)%nat) by lia. destruct C as [-> | (-> & ->)]; [apply Rle_refl|]. cbn [Nat.sub Nat.eqb] in *. lra.
Qed.
(** A molecule whose fragments have been solved: one orbital each, potential -1, and half of the density each. *)
Definition solved_sol (f : vec) (s : solver) : solver := set_result s ((1%nat, fun _ => -1), Some (1%nat, fun _ => f)).
Definition solve22 (p : part) : part := with_f p (fun c => option_map (fun f =>
  fQ (fk f (set_veffs (set_sol (f_ks f) (fun i j => solved_sol (match c with Ca | CA => left22 | _ => right22 end) (k_sol (f_ks f) i j))) (Some (fun _ _ => -1)))) (Some (fun _ _ => / 2))) (p_f p c)).
Definition ask_opt (kin : string) (ab : bool) : dict := [("kinetic_part_type"%string, VS kin); ("ab_sym"%string, VB ab)].
Lemma w_guess_for : forall kin ab, kin = "twoorbital"%string \/ kin = "inversion"%string -> exists p0 ph e v0, partition_init g22 1 1 1 one_spec 1 1 (ask_opt kin ab) = Ok p0 /\ let p := solve22 p0 in
  p_ens p = false /\ po_ab (p_opt p) = ab /\ po_ess (p_opt p) = false /\ po_kin (p_opt p) = kin /\ by_level p /\ trial p 0 0 (if ab then [left22; left22] else pair22) /\
  (forall c, member (p_ens p) c -> exists f, p_f p c = Some f /\ k_lv (f_ks f) = 1%nat /\ k_veff (f_ks f) = Some (fun _ _ => -1) /\ f_Q f = Some (fun _ _ => / 2)) /\
  initialguessinvert g22 pair_env 0 p = Ok (ph, e, v0).
Proof.
  intros kin ab KIN.
  assert (C : exists d, configure PartitionOptions (ask_opt kin ab) = Ok d /\ exists k, configure KohnShamOptions (ks_dict d) = Ok k) by (destruct KIN as [-> | ->]; eexists; (split; [reflexivity|]); eexists; reflexivity). destruct C as (d & C & k & C2).
  destruct (init_exists g22 1 one_spec 1 1 1 1 (ask_opt kin ab) d k) as (p0 & I); auto.
  { intros c. exists 1%nat, 1%nat. repeat (split; [reflexivity|]); intros; cbn; lra. } { destruct KIN as [-> | ->]; injection C as <-; discriminate. } { tauto. }
  pose proof (init_inv _ _ _ _ _ _ _ _ _ I) as (d' & C' & O & _ & P & _ & _ & _ & _ & _ & _ & _ & _ & EN & HF). rewrite C in C'. injection C' as <-.
  assert (Q : po_ab (p_opt p0) = ab /\ po_ess (p_opt p0) = false /\ po_kin (p_opt p0) = kin) by (rewrite O; destruct KIN as [-> | ->]; injection C as <-; repeat split). destruct Q as (Q2 & Q3 & Q4).
  destruct EN as [(_ & _ & E & NA & NB)|(E & _)]; [|congruence].
  assert (K : forall c, member (p_ens p0) c -> exists f, p_f p0 c = Some f /\ k_lv (f_ks f) = 1%nat /\ k_cols (f_ks f) = 1%nat /\ forall i j, place (f_ks f) i j -> s_m (k_sol (f_ks f) i j) = Z.of_nat i).
  { intros c M. destruct (HF c M) as (f & F1 & F2). destruct (frag_init_inv _ _ _ _ _ _ _ F1) as (kk & -> & _ & _ & _ & L & CC & _ & _ & _ & _ & _ & _ & _ & _ & _ & _ & _ & _ & W).
    eexists. split; [exact F2|]. cbn [fscale new_frag f_ks]. split; [exact L|]. split; [exact CC|]. intros i j PL. apply (W i j PL). }
  rewrite E in K. destruct (K Ca Logic.I) as (fa & A1 & A2 & A3 & A4). destruct (K Cb Logic.I) as (fb & B1 & B2 & B3 & B4).
  set (p := solve22 p0).
  assert (PA : exists f, p_f p Ca = Some f /\ k_lv (f_ks f) = 1%nat /\ k_cols (f_ks f) = 1%nat /\ k_veff (f_ks f) = Some (fun _ _ => -1) /\ f_Q f = Some (fun _ _ => / 2) /\ s_phi (k_sol (f_ks f) 0 0) = Some (1%nat, fun _ => left22) /\ forall i j, place (f_ks f) i j -> s_m (k_sol (f_ks f) i j) = Z.of_nat i).
  { unfold p, solve22. cbn [with_f p_f]. rewrite A1. cbn [option_map]. eexists. split; [reflexivity|]. cbn [fQ fk f_ks set_veffs set_sol k_lv k_cols k_veff k_sol f_Q solved_sol set_result s_phi s_m snd]. repeat (split; [assumption || reflexivity|]). exact A4. }
  assert (PB : exists f, p_f p Cb = Some f /\ k_lv (f_ks f) = 1%nat /\ k_cols (f_ks f) = 1%nat /\ k_veff (f_ks f) = Some (fun _ _ => -1) /\ f_Q f = Some (fun _ _ => / 2) /\ s_phi (k_sol (f_ks f) 0 0) = Some (1%nat, fun _ => right22) /\ forall i j, place (f_ks f) i j -> s_m (k_sol (f_ks f) i j) = Z.of_nat i).
  { unfold p, solve22. cbn [with_f p_f]. rewrite B1. cbn [option_map]. eexists. split; [reflexivity|]. cbn [fQ fk f_ks set_veffs set_sol k_lv k_cols k_veff k_sol f_Q solved_sol set_result s_phi s_m snd]. repeat (split; [assumption || reflexivity|]). exact B4. }
  assert (PN : p_f p CA = None /\ p_f p CB = None) by (unfold p, solve22; cbn [with_f p_f]; rewrite NA, NB; split; reflexivity).
  assert (E' : p_ens p = false) by exact E. assert (O1 : po_ab (p_opt p) = ab) by exact Q2. assert (O2 : po_ess (p_opt p) = false) by exact Q3. assert (P' : p_pol p = 1%nat) by exact P.
  clear fa A1 A2 A3 A4 fb B1 B2 B3 B4 K HF. destruct PA as (fa & A1 & A2 & A3 & A4 & A5 & A6 & A7). destruct PB as (fb & B1 & B2 & B3 & B4 & B5 & B6 & B7).
  assert (G : exists r, initialguessinvert g22 pair_env 0 p = Ok r).
  { unfold initialguessinvert, guess_v0. unfold comps_ab, comps_a, comps. rewrite O1, O2, E', P'.
    destruct ab; cbn [forL]; unfold get_f; rewrite ?A1, ?B1; cbn [have bind]; unfold Qcol; rewrite ?A2, ?A3, ?A4, ?A5, ?B2, ?B3, ?B4, ?B5; cbn [need bind column Nat.ltb Nat.leb Nat.max forN];
      unfold guess_basis, get_f, sol_phi, sol_at; rewrite ?A1, ?B1; cbn [have bind]; rewrite ?A2, ?A3, ?B2, ?B3, E', O1; cbn [andb Nat.ltb Nat.leb bind]; rewrite ?A6, ?B6; cbn [bind]; eexists; reflexivity. }
  destruct G as ([[ph e] v0] & G). exists p0, ph, e, v0. split; [exact I|]. cbv zeta. fold p. do 3 (split; [assumption|]). split; [exact Q4|]. split; [|split; [|split; [|exact G]]].
  - intros c f i j Hf Hi Hj. destruct c; try (destruct PN; congruence); [rewrite A1 in Hf; injection Hf as <-; apply A7|rewrite B1 in Hf; injection Hf as <-; apply B7]; split; auto.
  - assert (WA : own p 0 0 Ca [left22]) by (exists fa, 1%nat, (fun _ => left22); split; [exact A1|]; rewrite A2, A3; repeat split; auto).
    assert (WB : own p 0 0 Cb [right22]) by (exists fb, 1%nat, (fun _ => right22); split; [exact B1|]; rewrite B2, B3; repeat split; auto).
    unfold trial. rewrite E', O1. destruct ab.
    + exists [left22], [], [left22], []. auto.
    + exists [left22], [], [right22], []. auto.
  - intros c M. rewrite E' in M. destruct c; try discriminate M; [exists fa|exists fb]; auto.
Qed.
Lemma w_guess : forall ab, exists p0 ph e v0, partition_init g22 1 1 1 one_spec 1 1 (two_opt ab) = Ok p0 /\ let p := solve22 p0 in
  p_ens p = false /\ po_ab (p_opt p) = ab /\ po_ess (p_opt p) = false /\ by_level p /\ trial p 0 0 (if ab then [left22; left22] else pair22) /\
  (forall c, member (p_ens p) c -> exists f, p_f p c = Some f /\ k_lv (f_ks f) = 1%nat /\ k_veff (f_ks f) = Some (fun _ _ => -1) /\ f_Q f = Some (fun _ _ => / 2)) /\
  initialguessinvert g22 pair_env 0 p = Ok (ph, e, v0).
Proof. intros ab. destruct (w_guess_for "twoorbital" ab (or_introl eq_refl)) as (p0 & ph & e & v0 & H & A1 & A2 & A3 & _ & A4 & A5 & A6 & A7). exists p0, ph, e, v0. auto 10. Qed.
