(** Proofs about the solver objects, continued: HOMO, parity, normalisation, kinetic energy density,
    response, iterative update. *)
From Coq Require Import Reals List Arith Lia Lra ZArith Bool Sorting Permutation.
From Verif Require Import Base BaseLemmas GridModel GridSpec GridProofs OpProofs AxisProofs HartreeSpec SolverModel SolverSpec SolverProofs.
Import ListNotations.
Local Open Scope R_scope.

(** * HOMO *)
Lemma get_homo_form : forall s, 0 <= s_N s ->
  get_homo s = let n := (nfull s + if nonzero (shx s - INR (nfull s)) then 1 else 0)%nat in
    if (n =? 0)%nat then Ok (- 1 / feps) else eig_at s (Z.of_nat (n - 1)).
Proof.
  intros s H. unfold get_homo. rewrite nocc_form. destruct (nfull_bounds s H) as (E & _).
  rewrite E, <- INR_IZR_INZ. cbv zeta.
  destruct (nonzero (shx s - INR (nfull s))).
  - destruct (Z.eqb_spec (Z.of_nat (nfull s) + 1) 0); [lia|].
    destruct (Nat.eqb_spec (nfull s + 1) 0); [lia|]. f_equal. lia.
  - rewrite Nat.add_0_r. destruct (Z.eqb_spec (Z.of_nat (nfull s)) 0); destruct (Nat.eqb_spec (nfull s) 0); try lia; auto.
    f_equal. lia.
Qed.
Lemma full_shells_iff : forall s, 0 <= s_N s -> (full_shells s <-> shx s = INR (nfull s)).
Proof.
  intros s H. unfold full_shells. pose proof (shell_size_pos (s_m s) (s_pol s)) as P.
  destruct (nfull_bounds s H) as (E & A & B). split.
  - intros (n & Hn). assert (X : shx s = INR n) by (unfold shx; rewrite Hn; field; lra).
    assert (n = nfull s); [|congruence]. rewrite X in A, B. rewrite <- S_INR in B.
    apply INR_le in A. apply INR_lt in B. lia.
  - intros X. exists (nfull s). rewrite <- X. unfold shx. field. lra.
Qed.
Lemma homo_max : forall s c e, 0 <= s_N s -> s_eig s = Some (c, e) -> enough s c ->
  (s_frac s = true \/ full_shells s) -> (exists i, 0 < filling s i) ->
  (forall i j, (i <= j)%nat -> (j < c)%nat -> e i <= e j) ->
  exists i, 0 < filling s i /\ get_homo s = Ok (e i) /\ forall j, 0 < filling s j -> (j <= i)%nat /\ e j <= e i.
Proof.
  intros s c e H He En Hf (i0 & Hi0) Hs.
  assert (X : extra s = nonzero (shx s - INR (nfull s))).
  { unfold extra. destruct (nfull_bounds s H) as (E & _). rewrite E, <- INR_IZR_INZ.
    destruct Hf as [Hf|Hf]; [rewrite Hf; auto|]. apply full_shells_iff in Hf; auto.
    replace (nonzero (shx s - INR (nfull s))) with false; [apply andb_false_r|].
    symmetry. apply nonzero_false. lra. }
  rewrite get_homo_form by auto. rewrite <- X. cbv zeta. fold (nneed s).
  pose proof (proj1 (enough_iff s c H) En) as Hc.
  assert (U : forall j, 0 < filling s j -> (j < nneed s)%nat).
  { intros j Hj. apply (proj2 (enough_iff s (nneed s) H) (le_n _)); auto. }
  pose proof (U i0 Hi0).
  exists (nneed s - 1)%nat. destruct (Nat.eqb_spec (nneed s) 0); [lia|].
  rewrite (eig_at_ok s c e) by (auto; lia). repeat split.
  - unfold nneed. destruct (extra s) eqn:Y.
    + replace (nfull s + 1 - 1)%nat with (nfull s) by lia. rewrite extra_at, Y by auto.
      symmetry in X. apply nonzero_spec in X. destruct (nfull_bounds s H) as (_ & A & _). lra.
    + rewrite filling_low; [lra|auto|]. unfold nneed in *. rewrite Y in *. lia.
  - pose proof (U j H1). lia.
  - apply Hs; [|lia]. pose proof (U j H1). lia.
Qed.
Lemma homo_empty : forall s, s_N s = 0 -> get_homo s = Ok (- 1 / feps).
Proof.
  intros s H. rewrite get_homo_form by lra.
  assert (F : full_shells s) by (exists O; rewrite H; simpl; ring).
  apply full_shells_iff in F; [|lra].
  assert (S0 : shx s = 0) by (unfold shx; rewrite H; field; pose proof (shell_size_pos (s_m s) (s_pol s)); lra).
  rewrite S0 in F. assert (Z0 : nfull s = O) by (apply INR_eq; simpl; lra).
  rewrite Z0. simpl. rewrite S0. replace (nonzero (0 - 0)) with false by (symmetry; apply nonzero_false; lra).
  reflexivity.
Qed.
Lemma homo_unoccupied : forall s c e, 0 <= s_N s -> s_eig s = Some (c, e) -> s_frac s = false -> ~ full_shells s ->
  (exists i, filling s i = 0 /\ (forall j, 0 < filling s j <-> (j < i)%nat) /\ ((i < c)%nat -> get_homo s = Ok (e i))
     /\ ((c <= i)%nat -> get_homo s = Err IndexError)).
Proof.
  intros s c e H He Hf Hn. exists (nfull s).
  assert (X : nonzero (shx s - INR (nfull s)) = true).
  { apply nonzero_spec. intro Q. apply Hn. apply full_shells_iff; auto. lra. }
  rewrite get_homo_form, X by auto. cbv zeta. destruct (Nat.eqb_spec (nfull s + 1) 0); [lia|].
  replace (nfull s + 1 - 1)%nat with (nfull s) by lia.
  rewrite filling_at, Hf by auto. repeat split; auto.
  - intros P. destruct (lt_dec j (nfull s)); auto. destruct (Nat.eq_dec j (nfull s)).
    + subst. rewrite filling_at, Hf in P by auto. lra.
    + rewrite filling_high in P by (auto; lia). lra.
  - intros P. rewrite filling_low by auto. lra.
  - intros. apply (eig_at_ok s c e); auto.
  - intros. apply (eig_at_err s c e); auto.
Qed.

(** * Normalisation *)
Lemma norm2_scal : forall g c p, norm2 g (fun k => c * p k) = c ^ 2 * norm2 g p.
Proof. intros. unfold norm2. rewrite <- integrate1_scal. apply integrate1_ext. intros. ring. Qed.
Lemma normalize_norm : forall g occ p, 0 <= occ -> 0 < norm2 g p -> norm2 g (normalize_col g occ p) = occ.
Proof.
  intros g occ p H0 H. unfold normalize_col.
  assert (sqrt (norm2 g p) <> 0) by (apply Rgt_not_eq, sqrt_lt_R0; auto).
  assert (E : norm2 g (fun k => sqrt occ * p k / sqrt (norm2 g p)) = norm2 g (fun k => sqrt occ / sqrt (norm2 g p) * p k)).
  { unfold norm2 at 1 3. apply integrate1_ext. intros. f_equal. field. auto. }
  rewrite E, norm2_scal.
  replace ((sqrt occ / sqrt (norm2 g p)) ^ 2) with ((sqrt occ * sqrt occ) / (sqrt (norm2 g p) * sqrt (norm2 g p))) by (field; auto).
  rewrite !sqrt_sqrt by lra. field. lra.
Qed.
Lemma normalize_idem : forall g occ p k, 0 < occ -> 0 < norm2 g p ->
  normalize_col g occ (normalize_col g occ p) k = normalize_col g occ p k.
Proof.
  intros g occ p k H0 H. unfold normalize_col at 1. rewrite normalize_norm by lra.
  field. apply Rgt_not_eq, sqrt_lt_R0. auto.
Qed.
Lemma norm_occ_pos : forall s, 1 <= norm_occ s.
Proof. intros. unfold norm_occ. destruct (s_m s =? 0)%Z, (s_pol s =? 2)%nat; lra. Qed.
Lemma norm_occ_shell : forall s, (s_pol s = 1 \/ s_pol s = 2)%nat -> norm_occ s = shell_size (s_m s) (s_pol s).
Proof.
  intros s [H|H]; unfold norm_occ, shell_size; rewrite H; simpl; destruct (s_m s =? 0)%Z; lra.
Qed.

(** * Parity *)
Lemma even_sum : forall g x, even_col g (fun k => x k + mirror1 g x k).
Proof.
  intros g x k Hk. rewrite (mirror1_map2 _ _ _ g Rplus x (mirror1 g x)) by auto.
  rewrite mirror1_invol by auto. ring.
Qed.
Lemma odd_diff : forall g x, odd_col g (fun k => x k - mirror1 g x k).
Proof.
  intros g x k Hk. rewrite (mirror1_map2 _ _ _ g Rminus x (mirror1 g x)) by auto.
  rewrite mirror1_invol by auto. ring.
Qed.
Lemma even_div : forall g x c, even_col g x -> even_col g (fun k => x k / c).
Proof. intros g x c H k Hk. rewrite (mirror1_map _ _ g (fun t => t / c) x) by auto. rewrite <- H; auto. Qed.
Lemma odd_div : forall g x c, odd_col g x -> odd_col g (fun k => x k / c).
Proof. intros g x c H k Hk. rewrite (mirror1_map _ _ g (fun t => t / c) x) by auto. rewrite H by auto. unfold Rdiv; ring. Qed.
Lemma unit_col_form : forall g x v, unit_col g (Some x) = Some v -> v = (fun k => x k / nrm g x) /\ nrm g x <> 0.
Proof. intros g x v. simpl. destruct Req_EM_T; intros H; inversion H. auto. Qed.
Lemma unit_col_nrm : forall g a v, unit_col g a = Some v -> nrm g v = 1.
Proof.
  intros g [x|] v H; [|discriminate]. apply unit_col_form in H. destruct H as (-> & H).
  assert (P : 0 <= nrm g x) by apply sqrt_pos.
  unfold nrm at 1. rewrite (sumR_ext _ _ (fun k => (/ nrm g x) ^ 2 * x k ^ 2)) by (intros; field; auto).
  rewrite sumR_scal.
  assert (E : sumR (Nelem g) (fun k => x k ^ 2) = nrm g x ^ 2).
  { unfold nrm. rewrite <- Rsqr_pow2, Rsqr_sqrt; auto. apply sumR_nonneg. intros. apply pow2_ge_0. }
  rewrite E. replace ((/ nrm g x) ^ 2 * nrm g x ^ 2) with 1 by (field; auto). apply sqrt_1.
Qed.
Lemma sym_col_parity : forall g a v, sym_col g a = Some v ->
  (even_col g v /\ nrm g v = 1) \/ odd_col g v.
Proof.
  intros g [x|] v H; [|discriminate]. unfold sym_col in H.
  destruct Rlt_dec.
  - left. split; [|eapply unit_col_nrm; eauto].
    apply unit_col_form in H. destruct H as (-> & _). apply even_div, even_sum.
  - inversion H. right. apply odd_diff.
Qed.
Lemma sym_col_some : forall g x, sym_col g (Some x) <> None.
Proof.
  intros g x. unfold sym_col. destruct Rlt_dec as [H|]; [|discriminate]. simpl.
  destruct Req_EM_T as [E|]; [|discriminate]. exfalso.
  unfold nrm in E. apply sqrt_eq_0 in E.
  2: { apply sumR_nonneg. intros. apply pow2_ge_0. }
  assert (Z : sumR (Nelem g) (fun k => x k * mirror1 g x k) = - sumR (Nelem g) (fun k => x k ^ 2)).
  { rewrite <- sumR_opp. apply sumR_ext. intros k Hk.
    assert (Q := sumR_sq_zero _ _ (fun i _ => pow2_ge_0 _) E k Hk). cbv beta in Q.
    assert (mirror1 g x k = - x k). { assert (x k + mirror1 g x k = 0); [|lra]. apply Rsqr_0_uniq. rewrite Rsqr_pow2. auto. }
    rewrite H0. ring. }
  assert (0 <= sumR (Nelem g) (fun k => x k ^ 2)) by (apply sumR_nonneg; intros; apply pow2_ge_0). lra.
Qed.

Definition no_near (n : nat) (e : vec) : Prop :=
  forall i j, (i < j)%nat -> (j < n)%nat -> / 10 ^ 9 <= Rabs (e i - e j).
Lemma pairs_in : forall n i j, In (i, j) (pairs n) -> (i < j < n)%nat.
Proof.
  intros n i j H. unfold pairs in H. apply in_flat_map in H. destruct H as (a & Ha & H).
  apply in_map_iff in H. destruct H as (b & E & Hb). inversion E; subst.
  apply in_seq in Ha. apply in_seq in Hb. lia.
Qed.
Lemma mix_all_none : forall g n e phi, no_near n e -> forall i, mix_all g n e phi i = phi i.
Proof.
  intros g n e phi H. unfold mix_all.
  assert (G : forall l p, (forall ij, In ij l -> In ij (pairs n)) ->
    fold_left (fun p ij => mix_pair g e (fst ij) (snd ij) p) l p = p).
  { induction l as [|[i j] l IH]; intros p Hl; auto. simpl. rewrite IH.
    - unfold mix_pair. assert (B := pairs_in n i j (Hl _ (or_introl eq_refl))).
      destruct Rlt_dec; auto. assert (Q := H i j ltac:(lia) ltac:(lia)). lra.
    - intros; apply Hl; right; auto. }
  intros i. rewrite G; auto.
Qed.

Lemma calc_orbitals_parity : forall g s eigs asort e0 fuel e ph i v,
  s_sym s = true -> calc_orbitals g s eigs asort e0 fuel = Some (e, ph) -> (i < s_Nmo s)%nat -> ph i = Some v ->
  (even_col g v /\ nrm g v = 1) \/ odd_col g v.
Proof.
  intros g s eigs asort e0 fuel e ph i v Hs H Hi Hv. unfold calc_orbitals in H.
  destruct (match eigs e0 with Some _ => _ | None => _ end) as [[e' p']|]; [|discriminate].
  inversion H; subst. rewrite Hs in Hv. apply Nat.ltb_lt in Hi. rewrite Hi in Hv. simpl in Hv.
  eapply sym_col_parity; eauto.
Qed.
Lemma nth_argsort_lt : forall n e asort i, argsort_ok (map e (seq 0 n)) asort -> (i < n)%nat ->
  (nth i asort 0 < n)%nat.
Proof.
  intros n e asort i (P & _) Hi. rewrite map_length, seq_length in P.
  assert (L : length asort = n) by (rewrite (Permutation_length P), seq_length; auto).
  assert (I : In (nth i asort 0%nat) (seq 0 n)) by (eapply Permutation_in; [exact P|apply nth_In; lia]).
  apply in_seq in I. lia.
Qed.
Lemma StronglySorted_nth : forall l i j, StronglySorted Rle l -> (i < j)%nat -> (j < length l)%nat -> nth i l 0 <= nth j l 0.
Proof.
  induction l; intros i j H Hij Hj; simpl in Hj; [lia|]. inversion H as [|? ? HS HF]; subst.
  destruct j; [lia|]. destruct i; simpl.
  - rewrite Forall_forall in HF. apply HF. apply nth_In. lia.
  - apply IHl; auto; lia.
Qed.
Lemma nth_map' : forall A B (f : A -> B) l i d d', (i < length l)%nat -> nth i (map f l) d = f (nth i l d').
Proof. intros. rewrite (nth_indep _ d (f d')) by (rewrite map_length; auto). apply map_nth. Qed.
Lemma argsort_sorted : forall n e asort i j, argsort_ok (map e (seq 0 n)) asort -> (i <= j)%nat -> (j < n)%nat ->
  e (nth i asort 0%nat) <= e (nth j asort 0%nat).
Proof.
  intros n e asort i j HA Hij Hj. destruct (Nat.eq_dec i j) as [->|]; [lra|].
  pose proof HA as (P & S). rewrite map_length, seq_length in P.
  assert (L : length asort = n) by (rewrite (Permutation_length P), seq_length; auto).
  assert (Q := StronglySorted_nth _ i j S ltac:(lia)). rewrite map_length in Q. specialize (Q ltac:(lia)).
  rewrite !(nth_map' _ _ _ asort _ 0 0%nat) in Q by lia.
  rewrite !(nth_map' _ _ e (seq 0 n) _ 0 0%nat) in Q by (rewrite seq_length; apply (nth_argsort_lt n e); auto; lia).
  rewrite !seq_nth in Q by (apply (nth_argsort_lt n e); auto; lia). exact Q.
Qed.
Lemma calc_orbitals_sorted : forall g s eigs asort e0 fuel ev pv,
  eigs e0 = Some (ev, pv) -> (forall xs, argsort_ok xs (asort xs)) ->
  exists perm e ph, calc_orbitals g s eigs asort e0 fuel = Some (e, ph) /\
    Permutation perm (seq 0 (s_Nmo s)) /\
    (forall i, e i = ev (nth i perm 0%nat)) /\
    (forall i j, (i <= j)%nat -> (j < s_Nmo s)%nat -> e i <= e j) /\
    (no_near (s_Nmo s) e ->
      (forall i, (i < s_Nmo s)%nat -> ph i <> None) /\
      (s_sym s = false -> forall i, ph i = Some (pv (nth i perm 0%nat)))).
Proof.
  intros g s eigs asort e0 fuel ev pv He Ha. unfold calc_orbitals. rewrite He.
  set (xs := map ev (seq 0 (s_Nmo s))). assert (HA := Ha xs).
  exists (asort xs). eexists. eexists. split; [reflexivity|]. split.
  { destruct HA as (P & _). unfold xs in P at 2. rewrite map_length, seq_length in P. exact P. }
  split; [reflexivity|]. split.
  { intros. apply (argsort_sorted (s_Nmo s)); auto. }
  intros NN. split.
  - intros i Hi. rewrite mix_all_none by exact NN. destruct (_ && _)%bool; [apply sym_col_some|discriminate].
  - intros Hs i. rewrite Hs, mix_all_none by exact NN. reflexivity.
Qed.

(** * Kinetic energy density *)
Lemma ked_loop_ok : forall g H0 s c p k, s_phi s = Some (c, p) -> (k <= c)%nat ->
  exists t, ked_loop g H0 s k = Ok t /\ forall x, t x = sumR k (fun i => ked_term g H0 (p i) (norm2 g (p i)) x).
Proof.
  intros g H0 s c p k Hp. induction k; intros Hk.
  - exists (fun _ => 0). auto.
  - destruct IHk as (t & E & F); [lia|]. cbn [ked_loop]. rewrite E. cbn [bind].
    rewrite (phi_col_ok s c p) by (auto; lia). cbn [bind].
    eexists; split; [reflexivity|]. intros x. simpl. rewrite F. reflexivity.
Qed.
(** The kinetic energy of one eigenpair. *)
Lemma ked_term_integral : forall g H0 v e p nr, grid_ok g -> eigenpair g H0 v e p -> 0 < nr ->
  integrate1 g (ked_term g H0 p nr) = (e * norm2 g p - integrate1 g (fun k => v k * p k ^ 2)) / nr.
Proof.
  intros g H0 v e p nr Hg HE Hn.
  assert (S : sqrt nr * sqrt nr = nr) by (apply sqrt_sqrt; lra).
  assert (Q : sqrt nr <> 0) by (apply Rgt_not_eq, sqrt_lt_R0; auto).
  rewrite (integrate1_ext g (ked_term g H0 p nr) (fun k => / nr * (e * p k ^ 2 + (- 1) * (v k * p k ^ 2)))).
  - rewrite integrate1_scal, integrate1_plus, !integrate1_scal. unfold norm2. field. lra.
  - intros k Hk. unfold ked_term, gapply, matvec.
    rewrite (sumR_ext _ _ (fun j => / sqrt nr * (H0 k j * p j))) by (intros; field; auto).
    rewrite sumR_scal. specialize (HE k Hk).
    replace (sumR (Nelem g) (fun j => H0 k j * p j)) with (e * gw g k * p k - gw g k * v k * p k) by lra.
    pose proof (gw_pos g k Hg Hk). 
    replace (/ nr) with (/ (sqrt nr * sqrt nr)) by (rewrite S; auto). field. split; lra.
Qed.
Lemma ked_full : forall g H0 s c p e, grid_ok g -> 0 <= s_N s -> s_phi s = Some (c, p) -> s_eig s = Some (c, e) ->
  enough s c -> (s_frac s = false \/ full_shells s) ->
  (forall i, 0 < filling s i -> 0 < norm2 g (p i) /\ eigenpair g H0 (s_veff s) (e i) (p i)) ->
  exists t eks Vs Ts n, calc_ked_WFI g H0 s = Ok t /\ calc_energy g s = Ok (eks, Vs, Ts, n) /\ Ts = Fin (integrate1 g t).
Proof.
  intros g H0 s c p e Hg H Hp He En Hf HE.
  assert (X : extra s = false).
  { unfold extra. destruct Hf as [->|Hf]; auto. apply full_shells_iff in Hf; auto.
    destruct (nfull_bounds s H) as (Q & _). rewrite Q, <- INR_IZR_INZ.
    replace (nonzero _) with false; [apply andb_false_r|]. symmetry; apply nonzero_false; lra. }
  pose proof (proj1 (enough_iff s c H) En) as Hc. unfold nneed in Hc. rewrite X in Hc.
  destruct (ked_loop_ok g H0 s c p (nfull s) Hp) as (t & Et & Ft); [lia|].
  destruct (calc_energy_ok g s c p e H Hp He En) as (n & Ed & Ee).
  exists (fun x => shell_scale s (t x)).
  do 4 eexists. split; [|split; [exact Ee|]].
  - unfold calc_ked_WFI. rewrite nocc_form. fold (nfull s). rewrite Et. cbn [bind]. fold (extra s). rewrite X. reflexivity.
  - assert (TS : forall a V, snd (energy_tail a (Fin V)) = Fin (a - V)).
    { intros. unfold energy_tail. destruct Rlt_dec; reflexivity. }
    rewrite TS. f_equal.
    destruct (calc_density_ok g s c p H Hp En) as (n' & Ed' & Fn'). rewrite Ed in Ed'. inversion Ed'; subst n'.
    rewrite (integrate1_ext g (fun k => s_veff s k * n k)
      (fun k => sumR c (fun i => shell_size (s_m s) (s_pol s) * (filling s i * (s_veff s k * p i k ^ 2 / norm2 g (p i)))))).
    2: { intros. rewrite Fn'. unfold textbook_density. rewrite <- sumR_scal. apply sumR_ext. intros. unfold norm2, Rdiv. ring. }
    rewrite integrate1_sum.
    rewrite (sumR_ext c _ (fun i => shell_size (s_m s) (s_pol s) * (filling s i * (integrate1 g (fun k => s_veff s k * p i k ^ 2) / norm2 g (p i))))).
    2: { intros. rewrite integrate1_scal. f_equal. rewrite integrate1_scal. f_equal.
         rewrite (integrate1_ext g _ (fun k => / norm2 g (p i) * (s_veff s k * p i k ^ 2))) by (intros; unfold Rdiv; ring).
         rewrite integrate1_scal. unfold Rdiv; ring. }
    unfold textbook_band.
    rewrite (sumR_ext c (fun i => shell_size (s_m s) (s_pol s) * filling s i * e i) (fun i => shell_size (s_m s) (s_pol s) * (filling s i * e i))) by (intros; ring).
    rewrite !sumR_scal, !filled_sum, X by auto.
    rewrite (integrate1_ext g _ (fun x => shell_size (s_m s) (s_pol s) * t x)) by (intros; apply shell_scale_form).
    rewrite integrate1_scal.
    rewrite (integrate1_ext g t _ (fun k _ => Ft k)), integrate1_sum.
    rewrite <- Rmult_minus_distr_l. f_equal. rewrite !Rplus_0_r, <- sumR_minus. apply sumR_ext. intros i Hi.
    destruct (HE i) as (N1 & N2); [rewrite filling_low by auto; lra|].
    rewrite (ked_term_integral g H0 (s_veff s) (e i)) by auto. field. lra.
Qed.
Lemma ked_frac : forall g H0 s c p, 0 <= s_N s -> s_phi s = Some (c, p) ->
  s_frac s = true -> ~ full_shells s ->
  exists n : nat, 0 < filling s n < 1 /\
  ((n = 0)%nat -> calc_ked_WFI g H0 s = Err UnboundLocalError) /\
  ((0 < n)%nat -> (c <= n + 1)%nat -> calc_ked_WFI g H0 s = Err IndexError) /\
  ((0 < n)%nat -> (n + 1 < c)%nat -> exists t, calc_ked_WFI g H0 s = Ok t /\ 
     forall k, t k = shell_size (s_m s) (s_pol s) * (sumR n (fun i => ked_term g H0 (p i) (norm2 g (p i)) k)
        + filling s n * ked_term g H0 (p (n - 1)%nat) (norm2 g (p (n + 1)%nat)) k)).
Proof.
  intros g H0 s c p H Hp Hf Hn. exists (nfull s).
  destruct (nfull_bounds s H) as (Q & A & B).
  assert (D : shx s <> INR (nfull s)) by (intro; apply Hn, full_shells_iff; auto).
  assert (X : extra s = true).
  { unfold extra. rewrite Hf, Q, <- INR_IZR_INZ. simpl. apply nonzero_spec. lra. }
  rewrite filling_at, Hf by auto. split; [lra|].
  assert (U : calc_ked_WFI g H0 s = 
    do t <- ked_loop g H0 s (nfull s);
    do t1 <- (if (Z.of_nat (nfull s) <=? 0)%Z then Err UnboundLocalError
      else do p0 <- phi_col s (Z.of_nat (nfull s) - 1)%Z; do q <- phi_col s (Z.of_nat (nfull s) + 1)%Z;
           Ok (fun x => t x + (shx s - INR (nfull s)) * ked_term g H0 p0 (norm2 g q) x));
    Ok (fun x => shell_scale s (t1 x))).
  { unfold calc_ked_WFI. rewrite nocc_form. fold (nfull s) (extra s). rewrite X, Q, <- INR_IZR_INZ. reflexivity. }
  rewrite U. clear U. repeat split.
  - intros Z0. rewrite Z0. reflexivity.
  - intros P C. destruct (Z.leb_spec (Z.of_nat (nfull s)) 0); [lia|].
    replace (Z.of_nat (nfull s) - 1)%Z with (Z.of_nat (nfull s - 1)) by lia.
    replace (Z.of_nat (nfull s) + 1)%Z with (Z.of_nat (nfull s + 1)) by lia.
    assert (L : forall k, ked_loop g H0 s k = Err IndexError \/ is_ok (ked_loop g H0 s k)).
    { induction k; cbn [ked_loop]; [right; eexists; reflexivity|].
      destruct IHk as [->|(a & ->)]; [left; auto|]. cbn [bind].
      destruct (lt_dec k c); [rewrite (phi_col_ok s c p) by auto|rewrite (phi_col_err s c p) by (auto; lia)];
      cbn [bind]; [right; eexists; reflexivity|left; reflexivity]. }
    destruct (L (nfull s)) as [->|(a & ->)]; [reflexivity|]. cbn [bind].
    destruct (lt_dec (nfull s - 1) c).
    + rewrite (phi_col_ok s c p) by auto. cbn [bind]. rewrite (phi_col_err s c p) by auto. reflexivity.
    + rewrite (phi_col_err s c p) by (auto; lia). reflexivity.
  - intros P C. destruct (ked_loop_ok g H0 s c p (nfull s) Hp) as (t & Et & Ft); [lia|].
    rewrite Et. cbn [bind]. destruct (Z.leb_spec (Z.of_nat (nfull s)) 0); [lia|].
    replace (Z.of_nat (nfull s) - 1)%Z with (Z.of_nat (nfull s - 1)) by lia.
    replace (Z.of_nat (nfull s) + 1)%Z with (Z.of_nat (nfull s + 1)) by lia.
    rewrite !(phi_col_ok s c p) by (auto; lia). cbn [bind].
    eexists; split; [reflexivity|]. intros k. cbv beta. rewrite shell_scale_form, Ft. reflexivity.
Qed.
