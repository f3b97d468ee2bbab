(** Electron numbers, loop facts, energies and symmetry for CADMium/kohnsham. *)
From Coq Require Import Reals List Arith Lia Lra ZArith Bool String Permutation.
From Verif Require Import Base BaseLemmas GridModel GridSpec GridProofs HartreeModel SolverModel SolverSpec SolverProofs SolverThms SolverWitness
  LibxcModel OptionsModel KSModel KSSpec KSProofs.
Import ListNotations.
Local Open Scope R_scope.
Local Opaque sinh cosh.

(** * what stays fixed *)
Definition frame (k k' : ks) : Prop :=
  k_opt k' = k_opt k /\ k_Za k' = k_Za k /\ k_Zb k' = k_Zb k /\ k_pol k' = k_pol k /\ k_lv k' = k_lv k /\ k_cols k' = k_cols k /\
  k_vnuc k' = k_vnuc k /\ forall i j, same_static (k_sol k i j) (k_sol k' i j).
Lemma same_static_refl : forall s, same_static s s.
Proof. intros. repeat split. Qed.
Lemma same_static_trans : forall a b c, same_static a b -> same_static b c -> same_static a c.
Proof. unfold same_static. intros a b c H1 H2. intuition congruence. Qed.
Lemma frame_refl : forall k, frame k k.
Proof. intros. repeat split. Qed.
Lemma frame_trans : forall a b c, frame a b -> frame b c -> frame a c.
Proof.
  intros a b c (A1 & A2 & A3 & A4 & A5 & A6 & A7 & A8) (B1 & B2 & B3 & B4 & B5 & B6 & B7 & B8).
  repeat (split; [congruence|]). intros. eapply same_static_trans; eauto.
Qed.
Lemma frame_sol : forall k sol, (forall i j, same_static (k_sol k i j) (sol i j)) -> frame k (set_sol k sol).
Proof. intros k sol H. repeat (split; [reflexivity|]). exact H. Qed.
Lemma electrons_frame : forall k k' j, frame k k' -> electrons k' j = electrons k j.
Proof.
  intros k k' j (_ & _ & _ & _ & H1 & _ & _ & H). unfold electrons. rewrite H1. apply sumR_ext. intros i _.
  destruct (H i j) as (_ & _ & E & _). auto.
Qed.
Lemma place_frame : forall k k' i j, frame k k' -> (place k' i j <-> place k i j).
Proof. intros k k' i j (_ & _ & _ & _ & H1 & H2 & _). unfold place. rewrite H1, H2. tauto. Qed.
Lemma placed_same : forall s s', same_static s s' -> placed s -> placed s'.
Proof.
  intros s s' (E1 & E2 & E3 & E4 & E5 & E6) (H1 & H2). split; [lra|]. rewrite E5. destruct H2 as [H2|(n & H2)]; auto.
  right. exists n. rewrite E1, E2, E3. auto.
Qed.

Lemma distribute_static : forall k v sol, distribute k v = Ok sol -> forall i j, same_static (k_sol k i j) (sol i j).
Proof.
  intros k v sol H i j. apply distribute_ok in H. destruct H as (A1 & A2).
  destruct (le_lt_dec (k_lv k) i); [rewrite A2; [apply same_static_refl|unfold place; lia]|].
  destruct (le_lt_dec (k_cols k) j); [rewrite A2; [apply same_static_refl|unfold place; lia]|].
  destruct (A1 i j) as (_ & ->); [split; auto|]. repeat split.
Qed.
Lemma distribute_scf_static : forall k v sol, distribute_scf k v = Ok sol -> forall i j, same_static (k_sol k i j) (sol i j).
Proof.
  intros k v sol H i j. pose proof (distribute_scf_same k v) as S. rewrite H in S.
  destruct (distribute k v) as [b|] eqn:E; [|contradiction]. rewrite S. eapply distribute_static; eauto.
Qed.

(** * density *)
Lemma density_inv : forall g w it dif l k k' n, ks_density g w it dif l k = Ok (k', n) ->
  exists sol n0, k' = set_sol k sol /\
    (forall i j, place k i j -> exists r, e_worker w (use_iter it dif) (k_sol k i j) = Some r /\ sol i j = set_result (k_sol k i j) r) /\
    (forall i j, ~ place k i j -> sol i j = k_sol k i j) /\
    sum_dens g k sol = Ok n0 /\ n = if o_sym (k_opt k) then sym_avgR g n0 else n0.
Proof.
  intros g w it dif l k k' n H. unfold ks_density in H.
  destruct (collect k _) as [sol|] eqn:E; [|discriminate]. cbn [bind] in H.
  destruct (sum_dens g k sol) as [n0|] eqn:S; [|discriminate]. cbn [bind] in H.
  pose proof (f_equal (fun x => match x with Ok a => fst a | _ => k end) H) as H1. simpl in H1.
  pose proof (f_equal (fun x => match x with Ok a => snd a | _ => n end) H) as H2. simpl in H2.
  apply collect_ok in E. destruct E as (A1 & A2). exists sol, n0. repeat split; auto.
Qed.
Lemma density_frame : forall g w it dif l k k' n, ks_density g w it dif l k = Ok (k', n) -> frame k k'.
Proof.
  intros g w it dif l k k' n H. apply density_inv in H. destruct H as (sol & n0 & -> & A1 & A2 & _). apply frame_sol.
  intros i j. destruct (le_lt_dec (k_lv k) i); [rewrite A2; [apply same_static_refl|unfold place; lia]|].
  destruct (le_lt_dec (k_cols k) j); [rewrite A2; [apply same_static_refl|unfold place; lia]|].
  destruct (A1 i j) as (r & _ & ->); [split; auto|]. repeat split.
Qed.
Lemma zero_density : forall g s n, s_N s = 0 -> s_phi s = None -> calc_density g s = Ok n -> forall x, n x = 0.
Proof.
  intros g s n HN Hp H x. destruct (calc_density_none g s ltac:(lra) Hp) as (A & B).
  assert (En : enough s 0).
  { apply enough_iff; [lra|]. destruct (le_dec (nneed s) 0); auto. rewrite B in H; [discriminate|]. rewrite enough_iff by lra. auto. }
  rewrite (A En) in H. injection H as <-. rewrite shell_scale_form. ring.
Qed.
Lemma solver_count : forall g s r n, placed s ->
  match snd r with Some (c, p) => forall i, 0 < filling s i -> 0 < integrate1 g (fun x => p i x ^ 2) | None => s_N s = 0 end ->
  calc_density g (set_result s r) = Ok n -> integrate1 g n = s_N s /\ forall x, 0 <= n x.
Proof.
  intros g s r n (H0 & HP) HW H.
  destruct (snd r) as [(c, p)|] eqn:E.
  - assert (Hp : s_phi (set_result s r) = Some (c, p)) by exact E.
    assert (HW' : forall i, 0 < filling (set_result s r) i -> 0 < integrate1 g (fun x => p i x ^ 2)) by exact HW.
    split.
    + destruct (density_count g (set_result s r) c p n H0 Hp) as (C1 & C2); auto.
      { intros i Hi. specialize (HW' i Hi). lra. }
      destruct HP as [HF|(q & Hq)]; [exact (C1 HF)|].
      destruct (s_frac s) eqn:F; [exact (C1 F)|].
      destruct (C2 F) as (q' & (B1 & B2) & ->). change (s_m (set_result s r)) with (s_m s) in *. change (s_pol (set_result s r)) with (s_pol s) in *.
      change (s_N (set_result s r)) with (s_N s) in *. rewrite Hq in *.
      pose proof (shell_size_pos (s_m s) (s_pol s)).
      assert (INR q' <= INR q) by nra. assert (INR q < INR q' + 1) by nra. rewrite <- S_INR in H3. apply INR_le in H2. apply INR_lt in H3.
      replace q' with q by lia. reflexivity.
    + apply (density_nonneg g (set_result s r) c p n H0 Hp HW' H).
  - assert (Z : forall x, n x = 0) by (apply (zero_density g (set_result s r)); auto). split.
    + rewrite (integrate1_ext g n (fun _ => 0)) by auto. rewrite integrate1_zero. auto.
    + intros. rewrite Z. lra.
Qed.

Lemma sym_avgR_integral : forall g f s, mirror_invariant g -> integrate1 g (fun x => sym_avgR g f x s) = integrate1 g (fun x => f x s).
Proof.
  intros g f s HM. unfold sym_avgR, sym_avg.
  rewrite (integrate1_ext g _ (fun x => 1 / 2 * f x s + 1 / 2 * mirror1 g (fun x => f x s) x)).
  - rewrite integrate1_plus, !integrate1_scal, HM. field.
  - intros k Hk. rewrite mirror2_mirror1 by auto. ring.
Qed.
Lemma density_electrons : forall g w it dif l k k' n, worker_ok g w -> (o_sym (k_opt k) = true -> mirror_invariant g) ->
  (forall i j, place k i j -> placed (k_sol k i j)) -> ks_density g w it dif l k = Ok (k', n) ->
  forall j, (j < k_cols k)%nat -> integrate1 g (fun x => n x j) = electrons k j.
Proof.
  intros g w it dif l k k' n HW HM HP H j Hj. apply density_inv in H. destruct H as (sol & n0 & -> & A1 & A2 & S & ->).
  apply sum_dens_spec in S. destruct S as (S1 & S2).
  assert (E : integrate1 g (fun x => n0 x j) = electrons k j).
  { rewrite (integrate1_ext g _ (fun x => sumR (k_lv k) (fun i => dens g (sol i j) x))).
    - rewrite integrate1_sum. unfold electrons. apply sumR_ext. intros i Hi.
      destruct (A1 i j) as (r & Hr & Es); [split; auto|]. destruct (S1 i j) as (_ & D); [split; auto|].
      rewrite Es in D. specialize (HW _ _ _ Hr). rewrite Es.
      destruct (solver_count g (k_sol k i j) r _ (HP i j (conj Hi Hj)) HW D) as (C & _). exact C.
    - intros x Hx. rewrite S2, (proj2 (Nat.ltb_lt _ _) Hj). reflexivity. }
  destruct (o_sym (k_opt k)); auto. rewrite sym_avgR_integral; auto.
Qed.
Lemma density_nonneg_all : forall g w it dif l k k' n, worker_ok g w ->
  (forall i j, place k i j -> placed (k_sol k i j)) -> ks_density g w it dif l k = Ok (k', n) ->
  forall x j, (x < Nelem g)%nat -> 0 <= n x j.
Proof.
  intros g w it dif l k k' n HW HP H x j Hx. apply density_inv in H. destruct H as (sol & n0 & -> & A1 & A2 & S & ->).
  apply sum_dens_spec in S. destruct S as (S1 & S2).
  assert (E : forall x j, 0 <= n0 x j).
  { intros x' j'. rewrite S2. destruct (Nat.ltb_spec j' (k_cols k)); [|lra]. apply sumR_nonneg. intros i Hi.
    destruct (A1 i j') as (r & Hr & Es); [split; auto|]. destruct (S1 i j') as (_ & D); [split; auto|].
    rewrite Es in D. specialize (HW _ _ _ Hr). rewrite Es.
    destruct (solver_count g (k_sol k i j') r _ (HP i j' (conj Hi H)) HW D) as (_ & C). apply C. }
  destruct (o_sym (k_opt k)); auto. unfold sym_avgR, sym_avg. rewrite mirror2_mirror1 by auto.
  pose proof (E x j). assert (0 <= mirror1 g (fun x => n0 x j) x); [|lra].
  unfold mirror1. apply E.
Qed.
