(** Proofs about the solver objects. *)
From Coq Require Import Reals List Arith Lia Lra ZArith Bool.
From Verif Require Import Base BaseLemmas GridModel GridSpec GridProofs HartreeSpec SolverModel SolverSpec.
Import ListNotations.
Local Open Scope R_scope.

(** * Indexing *)
Lemma pyidx_ok : forall n i, (i < n)%nat -> pyidx n (Z.of_nat i) = Ok i.
Proof.
  intros. unfold pyidx.
  destruct (Z.leb_spec 0 (Z.of_nat i)); [|lia]. destruct (Z.ltb_spec (Z.of_nat i) (Z.of_nat n)); [|lia].
  simpl. rewrite Nat2Z.id. reflexivity.
Qed.
Lemma pyidx_err : forall n i, (n <= i)%nat -> pyidx n (Z.of_nat i) = Err IndexError.
Proof.
  intros. unfold pyidx.
  destruct (Z.ltb_spec (Z.of_nat i) (Z.of_nat n)); [lia|]. rewrite andb_false_r.
  destruct (Z.ltb_spec (Z.of_nat i) 0); [lia|]. reflexivity.
Qed.
Lemma phi_col_ok : forall s c p i, s_phi s = Some (c, p) -> (i < c)%nat -> phi_col s (Z.of_nat i) = Ok (p i).
Proof. intros. unfold phi_col. rewrite H, pyidx_ok; auto. Qed.
Lemma phi_col_err : forall s c p i, s_phi s = Some (c, p) -> (c <= i)%nat -> phi_col s (Z.of_nat i) = Err IndexError.
Proof. intros. unfold phi_col. rewrite H, pyidx_err; auto. Qed.
Lemma phi_col_none : forall s i, s_phi s = None -> phi_col s i = Err TypeError.
Proof. intros. unfold phi_col. rewrite H; auto. Qed.
Lemma eig_at_ok : forall s c p i, s_eig s = Some (c, p) -> (i < c)%nat -> eig_at s (Z.of_nat i) = Ok (p i).
Proof. intros. unfold eig_at. rewrite H, pyidx_ok; auto. Qed.
Lemma eig_at_err : forall s c p i, s_eig s = Some (c, p) -> (c <= i)%nat -> eig_at s (Z.of_nat i) = Err IndexError.
Proof. intros. unfold eig_at. rewrite H, pyidx_err; auto. Qed.

(** * Filling *)
Definition shx (s : solver) : R := s_N s / shell_size (s_m s) (s_pol s).
Lemma shell_size_pos : forall m pol, 1 <= shell_size m pol.
Proof. intros. unfold shell_size. destruct (m =? 0)%Z, (pol =? 1)%nat; lra. Qed.
Lemma nocc_form : forall s, nocc s = (Int_part (shx s), shx s - IZR (Int_part (shx s))).
Proof.
  intros. unfold nocc, shx, shell_size, floorZ.
  destruct (s_m s =? 0)%Z, (s_pol s =? 1)%nat; f_equal; f_equal; try f_equal; try f_equal; try field.
Qed.
Lemma shell_scale_form : forall s x, shell_scale s x = shell_size (s_m s) (s_pol s) * x.
Proof.
  intros. unfold shell_scale, shell_size.
  destruct (s_m s =? 0)%Z, (s_pol s =? 1)%nat; ring.
Qed.
Definition nfull (s : solver) : nat := Z.to_nat (Int_part (shx s)).
Lemma nfull_bounds : forall s, 0 <= s_N s -> Int_part (shx s) = Z.of_nat (nfull s) /\
  INR (nfull s) <= shx s < INR (nfull s) + 1.
Proof.
  intros s H. assert (X : 0 <= shx s).
  { unfold shx. pose proof (shell_size_pos (s_m s) (s_pol s)).
    apply Rmult_le_pos; auto. left. apply Rinv_0_lt_compat. lra. }
  destruct (base_Int_part (shx s)) as (A & B).
  assert (P : (0 <= Int_part (shx s))%Z).
  { assert (C : IZR (-1) < IZR (Int_part (shx s))) by (simpl; lra). apply lt_IZR in C. lia. }
  assert (E : Int_part (shx s) = Z.of_nat (nfull s)) by (unfold nfull; rewrite Z2Nat.id; auto).
  split; auto. rewrite INR_IZR_INZ, <- E. lra.
Qed.
Lemma nonzero_spec : forall x, nonzero x = true <-> x <> 0.
Proof. intros. unfold nonzero. destruct (Req_EM_T x 0); split; intros; auto; congruence. Qed.
Lemma nonzero_false : forall x, nonzero x = false <-> x = 0.
Proof. intros. unfold nonzero. destruct (Req_EM_T x 0); split; intros; auto; congruence. Qed.

Lemma filling_low : forall s i, 0 <= s_N s -> (i < nfull s)%nat -> filling s i = 1.
Proof.
  intros s i H Hi. destruct (nfull_bounds s H) as (_ & A & B). unfold filling, aufbau. fold (shx s).
  assert (INR i + 1 <= INR (nfull s)) by (rewrite <- S_INR; apply le_INR; lia).
  destruct (s_frac s).
  - unfold Rmin, Rmax. destruct (Rle_dec 0 (shx s - INR i)); [|lra]. destruct (Rle_dec 1 (shx s - INR i)); lra.
  - destruct (Rle_dec (INR i + 1) (shx s)); lra.
Qed.
Lemma filling_at : forall s, 0 <= s_N s -> filling s (nfull s) = if s_frac s then shx s - INR (nfull s) else 0.
Proof.
  intros s H. destruct (nfull_bounds s H) as (_ & A & B). unfold filling, aufbau. fold (shx s).
  destruct (s_frac s).
  - unfold Rmin, Rmax. destruct (Rle_dec 0 (shx s - INR (nfull s))); [|lra]. destruct (Rle_dec 1 (shx s - INR (nfull s))); lra.
  - destruct (Rle_dec (INR (nfull s) + 1) (shx s)); lra.
Qed.
Lemma filling_high : forall s i, 0 <= s_N s -> (nfull s < i)%nat -> filling s i = 0.
Proof.
  intros s i H Hi. destruct (nfull_bounds s H) as (_ & A & B). unfold filling, aufbau. fold (shx s).
  assert (INR (nfull s) + 1 <= INR i) by (rewrite <- S_INR; apply le_INR; lia).
  destruct (s_frac s).
  - unfold Rmin, Rmax. destruct (Rle_dec 0 (shx s - INR i)); [|destruct (Rle_dec 1 0); lra].
    destruct (Rle_dec 1 (shx s - INR i)); lra.
  - destruct (Rle_dec (INR i + 1) (shx s)); lra.
Qed.
Lemma filling_nonneg : forall s i, 0 <= filling s i <= 1.
Proof.
  intros. unfold filling, aufbau. destruct (s_frac s).
  - unfold Rmin, Rmax. repeat destruct Rle_dec; lra.
  - destruct Rle_dec; lra.
Qed.
(** Weighted sums over occupied orbitals. *)
Definition extra (s : solver) : bool := (s_frac s && nonzero (shx s - IZR (Int_part (shx s))))%bool.
Lemma extra_at : forall s, 0 <= s_N s -> filling s (nfull s) = if extra s then shx s - INR (nfull s) else 0.
Proof.
  intros s H. rewrite filling_at by auto. destruct (nfull_bounds s H) as (E & _). unfold extra.
  destruct (s_frac s); simpl; auto. rewrite E, <- INR_IZR_INZ.
  destruct (nonzero (shx s - INR (nfull s))) eqn:Q; auto. apply nonzero_false in Q. lra.
Qed.
Definition nneed (s : solver) : nat := (nfull s + (if extra s then 1 else 0))%nat.
Lemma enough_iff : forall s c, 0 <= s_N s -> (enough s c <-> (nneed s <= c)%nat).
Proof.
  intros s c H. unfold enough, nneed. split.
  - intros E. destruct (extra s) eqn:X.
    + assert (0 < filling s (nfull s)).
      { rewrite extra_at, X by auto. destruct (nfull_bounds s H) as (Q & A & _).
        unfold extra in X. apply andb_true_iff in X. destruct X as (_ & X). apply nonzero_spec in X.
        rewrite Q, <- INR_IZR_INZ in X. lra. }
      apply E in H0. lia.
    + destruct (nfull s) eqn:F; [lia|].
      assert (0 < filling s n) by (rewrite filling_low by (auto; rewrite F; lia); lra).
      apply E in H0. lia.
  - intros E i P. destruct (lt_dec i (nfull s)); [lia|].
    destruct (Nat.eq_dec i (nfull s)).
    + subst. rewrite extra_at in P by auto. destruct (extra s); [lia|lra].
    + rewrite filling_high in P by (auto; lia). lra.
Qed.
Lemma filled_sum : forall s c (f : nat -> R), 0 <= s_N s -> enough s c ->
  sumR c (fun i => filling s i * f i) =
  sumR (nfull s) f + (if extra s then (shx s - INR (nfull s)) * f (nfull s) else 0).
Proof.
  intros s c f H E. apply enough_iff in E; auto. unfold nneed in E.
  rewrite (sumR_split_le c (nfull s)) by lia. f_equal.
  - apply sumR_ext. intros. rewrite filling_low by auto. ring.
  - destruct (extra s) eqn:X.
    + replace (c - nfull s)%nat with (S (c - nfull s - 1))%nat by lia.
      rewrite sumR_first, Nat.add_0_r, extra_at, X by auto.
      rewrite sumR_zero; [ring|]. intros. rewrite filling_high by (auto; lia). ring.
    + apply sumR_zero. intros. destruct i.
      * rewrite Nat.add_0_r, extra_at, X by auto. ring.
      * rewrite filling_high by (auto; lia). ring.
Qed.

(** * Density *)
Lemma dens_loop_ok : forall g s c p k, s_phi s = Some (c, p) -> (k <= c)%nat ->
  exists n, dens_loop g s k = Ok n /\ forall x, n x = sumR k (fun i => p i x ^ 2 / norm2 g (p i)).
Proof.
  intros g s c p k Hp. induction k; intros Hk.
  - exists (fun _ => 0). split; auto.
  - destruct IHk as (n & E & F); [lia|].
    simpl. rewrite E. simpl. rewrite (phi_col_ok s c p) by (auto; lia). simpl.
    eexists. split; [reflexivity|]. intros x. simpl. rewrite F. reflexivity.
Qed.
Lemma dens_loop_err : forall g s c p k, s_phi s = Some (c, p) -> (c < k)%nat -> dens_loop g s k = Err IndexError.
Proof.
  intros g s c p k Hp. induction k; intros Hk; [lia|]. simpl.
  destruct (lt_dec c k).
  - rewrite IHk by auto. reflexivity.
  - assert (k = c) by lia. subst k. destruct (dens_loop_ok g s c p c Hp) as (n0 & E & _); [lia|].
    rewrite E. simpl. rewrite (phi_col_err s c p) by auto. reflexivity.
Qed.
Lemma calc_density_unfold : forall g s, 0 <= s_N s ->
  calc_density g s =
  (do n <- dens_loop g s (nfull s);
   do n1 <- (if extra s then do p <- phi_col s (Z.of_nat (nfull s));
                             Ok (fun x => n x + (shx s - INR (nfull s)) * p x ^ 2 / norm2 g p)
             else Ok n);
   Ok (fun x => shell_scale s (n1 x))).
Proof.
  intros g s H. unfold calc_density. rewrite nocc_form. unfold extra.
  destruct (nfull_bounds s H) as (E & _). fold (nfull s). rewrite E, <- INR_IZR_INZ.
  reflexivity.
Qed.
Lemma calc_density_ok : forall g s c p, 0 <= s_N s -> s_phi s = Some (c, p) -> enough s c ->
  exists n, calc_density g s = Ok n /\ forall k, n k = textbook_density g s c p k.
Proof.
  intros g s c p H Hp E. pose proof E as E'. apply enough_iff in E'; auto. unfold nneed in E'.
  rewrite calc_density_unfold by auto.
  destruct (dens_loop_ok g s c p (nfull s) Hp) as (n & En & Fn); [lia|]. rewrite En. cbn [bind].
  assert (T : forall k, textbook_density g s c p k = shell_size (s_m s) (s_pol s) *
     sumR c (fun i => filling s i * (p i k ^ 2 / norm2 g (p i)))).
  { intros. unfold textbook_density. rewrite <- sumR_scal. apply sumR_ext. intros. unfold norm2. ring. }
  destruct (extra s) eqn:X.
  - rewrite (phi_col_ok s c p) by (auto; lia). cbn [bind]. eexists. split; [reflexivity|].
    intros k. cbv beta. rewrite shell_scale_form, T, filled_sum, X, Fn by auto. unfold Rdiv. ring.
  - cbn [bind]. eexists. split; [reflexivity|].
    intros k. cbv beta. rewrite shell_scale_form, T, filled_sum, X, Fn by auto. ring.
Qed.
Lemma calc_density_err : forall g s c p, 0 <= s_N s -> s_phi s = Some (c, p) -> ~ enough s c ->
  calc_density g s = Err IndexError.
Proof.
  intros g s c p H Hp E.
  assert (E' : (c < nneed s)%nat). { destruct (lt_dec c (nneed s)); auto. exfalso. apply E. apply enough_iff; auto. lia. }
  rewrite calc_density_unfold by auto. unfold nneed in E'.
  destruct (lt_dec c (nfull s)).
  - rewrite (dens_loop_err g s c p) by auto. reflexivity.
  - destruct (dens_loop_ok g s c p (nfull s) Hp) as (n1 & En & _); [lia|]. rewrite En. simpl.
    destruct (extra s); [|lia]. rewrite (phi_col_err s c p) by (auto; lia). reflexivity.
Qed.
Lemma calc_density_none : forall g s, 0 <= s_N s -> s_phi s = None ->
  (enough s 0 -> calc_density g s = Ok (fun x => shell_scale s 0)) /\ (~ enough s 0 -> calc_density g s = Err TypeError).
Proof.
  intros g s H Hp. rewrite calc_density_unfold by auto. rewrite enough_iff by auto. unfold nneed. split; intros E.
  - replace (nfull s) with O by lia. destruct (extra s); [lia|]. reflexivity.
  - destruct (nfull s) as [|n].
    + simpl. destruct (extra s); [|lia]. rewrite phi_col_none by auto. reflexivity.
    + assert (D : dens_loop g s (S n) = Err TypeError).
      { clear E. induction n; simpl; [rewrite phi_col_none by auto; reflexivity|].
        simpl in IHn. rewrite IHn. reflexivity. }
      rewrite D. reflexivity.
Qed.
Lemma textbook_integral : forall g s c p, 0 <= s_N s -> enough s c ->
  (forall i, (i < c)%nat -> 0 < filling s i -> integrate1 g (fun x => p i x ^ 2) <> 0) ->
  integrate1 g (textbook_density g s c p) =
  shell_size (s_m s) (s_pol s) * (INR (nfull s) + if s_frac s then shx s - INR (nfull s) else 0).
Proof.
  intros g s c p H E Hn. unfold textbook_density.
  rewrite integrate1_sum.
  rewrite (sumR_ext _ _ (fun i => shell_size (s_m s) (s_pol s) * (filling s i * 1))).
  2: { intros i Hi. destruct (filling_nonneg s i) as (F0 & F1).
       destruct (Req_dec (filling s i) 0) as [F|F].
       - rewrite F. rewrite (integrate1_ext g _ (fun _ => 0)) by (intros; ring). rewrite integrate1_zero. ring.
       - assert (Hn' := Hn i Hi ltac:(lra)).
         rewrite (integrate1_ext g _ (fun k => shell_size (s_m s) (s_pol s) * filling s i / integrate1 g (fun x => p i x ^ 2) * p i k ^ 2)) by (intros; unfold Rdiv; ring).
         rewrite integrate1_scal. field. auto. }
  rewrite sumR_scal, filled_sum by auto. rewrite sumR_const. f_equal.
  destruct (nfull_bounds s H) as (Q & A & _). unfold extra. rewrite Q, <- INR_IZR_INZ.
  destruct (s_frac s); simpl; [|ring].
  destruct (nonzero (shx s - INR (nfull s))) eqn:Z; [ring|]. apply nonzero_false in Z. lra.
Qed.

(** * Band energy *)
Lemma eks_loop_ok : forall s c e k, s_eig s = Some (c, e) -> (k <= c)%nat -> eks_loop s k = Ok (sumR k e).
Proof.
  intros s c e k He. induction k; intros Hk; auto. simpl. rewrite IHk by lia. simpl.
  rewrite (eig_at_ok s c e) by (auto; lia). reflexivity.
Qed.
Lemma calc_eks_ok : forall s c e, 0 <= s_N s -> s_eig s = Some (c, e) -> enough s c ->
  calc_eks s = Ok (textbook_band s c e).
Proof.
  intros s c e H He E. pose proof E as E'. apply enough_iff in E'; auto. unfold nneed in E'.
  unfold calc_eks. rewrite nocc_form. destruct (nfull_bounds s H) as (Q & _). fold (nfull s).
  rewrite (eks_loop_ok s c e) by (auto; lia). unfold bind at 1.
  assert (T : textbook_band s c e = shell_size (s_m s) (s_pol s) * sumR c (fun i => filling s i * e i)).
  { unfold textbook_band. rewrite <- sumR_scal. apply sumR_ext. intros. ring. }
  rewrite T, filled_sum by auto.
  fold (extra s). destruct (extra s) eqn:X.
  - rewrite Q, (eig_at_ok s c e) by (auto; lia). simpl. rewrite shell_scale_form, <- INR_IZR_INZ. f_equal.
  - simpl. rewrite shell_scale_form. f_equal. ring.
Qed.
Lemma calc_energy_ok : forall g s c p e, 0 <= s_N s -> s_phi s = Some (c, p) -> s_eig s = Some (c, e) -> enough s c ->
  exists n, calc_density g s = Ok n /\ 
    calc_energy g s = Ok (let eks := textbook_band s c e in let V := integrate1 g (fun k => s_veff s k * n k) in
      (eks, fst (energy_tail eks (Fin V)), snd (energy_tail eks (Fin V)), n)).
Proof.
  intros g s c p e H Hp He E. destruct (calc_density_ok g s c p H Hp E) as (n & En & Fn).
  exists n. split; auto. unfold calc_energy. rewrite (calc_eks_ok s c e) by auto. simpl. rewrite En. simpl.
  destruct (Rlt_dec (10 * (10 * (10 * (10 * (10 * 1))))) (Rabs (integrate1 g (fun k => s_veff s k * n k)))); reflexivity.
Qed.
