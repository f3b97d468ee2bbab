(** orbitalinvert: normalisation, symmetrisation, the loop and its result. *)
From Coq Require Import Reals List Arith Lia Lra ZArith Bool String.
From Verif Require Import Base BaseLemmas GridModel GridSpec GridProofs FDProofs OpProofs SolverModel SolverSpec SolverProofs SolverThms
  OptionsModel KSModel KSProofs InverterModel InverterSpec InverterOrb.
Import ListNotations.
Local Open Scope R_scope.
Local Opaque sinh cosh.

(** * normalize *)
Lemma forallb_seq : forall (f : nat -> bool) M, forallb f (seq 0 M) = true <-> forall i, (i < M)%nat -> f i = true.
Proof.
  intros. rewrite forallb_forall. split; intros H i Hi; apply H.
  - apply in_seq. lia.
  - apply in_seq in Hi. lia.
Qed.
Lemma normalize_ok_iff : forall g M occ x, is_ok (normalize g M occ x) <->
  forall i, (i < M)%nat -> 0 < integrate1 g (fun k => orb (Nelem g) x i k ^ 2).
Proof.
  intros. unfold normalize.
  destruct (forallb (fun i => if Rlt_dec 0 (o_S g x i) then true else false) (seq 0 M)) eqn:F.
  - rewrite forallb_seq in F. split; [|intros; eexists; eauto]. intros _ i Hi. specialize (F i Hi).
    rewrite <- S_integral. destruct (Rlt_dec 0 (o_S g x i)); auto; discriminate.
  - split; [intros (y & Hy); discriminate|]. intros H. exfalso. assert (T : forallb (fun i => if Rlt_dec 0 (o_S g x i) then true else false) (seq 0 M) = true).
    { rewrite forallb_seq. intros i Hi. specialize (H i Hi). rewrite <- S_integral in H. destruct (Rlt_dec 0 (o_S g x i)); auto. }
    congruence.
Qed.
Lemma normalize_spec : forall g M occ x y, normalize g M occ x = Ok y ->
  (forall i, (i < M)%nat -> 0 <= occ i -> integrate1 g (fun k => orb (Nelem g) y i k ^ 2) = occ i) /\
  (forall i, (i < M)%nat -> exists c, 0 <= c /\ (0 < occ i -> 0 < c) /\ forall k, (k < Nelem g)%nat -> orb (Nelem g) y i k = c * orb (Nelem g) x i k) /\
  (forall i, eigv (Nelem g) M y i = eigv (Nelem g) M x i) /\
  (forall k, pot (Nelem g) M y k = pot (Nelem g) M x k).
Proof.
  intros g M occ x y H. assert (P : forall i, (i < M)%nat -> 0 < o_S g x i).
  { intros i Hi. rewrite S_integral. apply (proj1 (normalize_ok_iff g M occ x)); auto. eexists; eauto. }
  unfold normalize in H. destruct (forallb _ _); [|discriminate]. inversion H; subst y; clear H.
  assert (O : forall i k, (i < M)%nat -> (k < Nelem g)%nat ->
    orb (Nelem g) (x_pack (Nelem g) M (fun i k => x_phi (Nelem g) x i k * sqrt (occ i / o_S g x i)) (x_ev (Nelem g) M x) (x_v (Nelem g) M x)) i k
    = sqrt (occ i / o_S g x i) * orb (Nelem g) x i k).
  { intros. rewrite pack_phi by auto. rewrite orb_x. ring. }
  split; [|split; [|split]].
  - intros i Hi Ho. rewrite (integrate1_ext g _ (fun k => occ i / o_S g x i * (orb (Nelem g) x i k ^ 2))).
    + rewrite integrate1_scal, <- S_integral. specialize (P i Hi). field. lra.
    + intros k Hk. rewrite O by auto. rewrite Rpow_mult_distr, pow2_sqrt; auto.
      apply Rmult_le_pos; auto. left. apply Rinv_0_lt_compat. auto.
  - intros i Hi. exists (sqrt (occ i / o_S g x i)). split; [apply sqrt_pos|]. split.
    + intros Ho. apply sqrt_lt_R0. apply Rdiv_lt_0_compat; auto.
    + intros. apply O; auto.
  - intros i. destruct (Nat.lt_ge_cases i (M - 1)) as [A|A].
    + rewrite pack_ev by auto. apply eigv_x.
    + unfold eigv. destruct (Nat.ltb_spec (S i) M); auto; lia.
  - intros k. rewrite pack_v. reflexivity.
Qed.

(** * ab_symmetrize *)
Lemma all_cols_ok : forall n phi p, all_cols n phi = Ok p -> forall i, (i < n)%nat -> phi i = Some (p i).
Proof.
  induction n; intros phi p H i Hi; [lia|]. simpl in H. destruct (all_cols n phi) as [q|] eqn:E; [|discriminate]. simpl in H.
  destruct (phi n) as [f|] eqn:F; [|discriminate]. inversion H; subst p; clear H. unfold upd.
  destruct (Nat.eqb_spec i n); [subst; auto|]. apply IHn; auto. lia.
Qed.
Lemma all_cols_err : forall n phi, (exists i, (i < n)%nat /\ phi i = None) <-> all_cols n phi = Err NotFinite.
Proof.
  induction n; intros phi.
  - split; [intros (i & Hi & _); lia|discriminate].
  - simpl. split.
    + intros (i & Hi & E). destruct (Nat.eq_dec i n) as [->|].
      * destruct (all_cols n phi) as [q|e] eqn:F; simpl; [rewrite E; auto|].
        destruct (IHn phi) as [A B]. destruct e; auto; exfalso; clear A B; revert F; generalize phi; clear; induction n; intros phi F; simpl in F; try discriminate;
        destruct (all_cols n phi) eqn:G; simpl in F; try (destruct (phi n); discriminate); inversion F; subst; eapply IHn; eauto.
      * assert (A : all_cols n phi = Err NotFinite) by (apply IHn; exists i; split; [lia|auto]). rewrite A. auto.
    + intros H. destruct (all_cols n phi) as [q|e] eqn:F; simpl in H.
      * destruct (phi n) eqn:G; [discriminate|]. exists n. auto.
      * destruct e; try discriminate. destruct (proj2 (IHn phi) F) as (i & Hi & E). exists i. auto.
Qed.
Lemma ab_col_parity : forall g a v, ab_col g a = Some v -> (even_col g v \/ odd_col g v) /\ nrm g v = 1.
Proof.
  intros g a v H. destruct a as [p|]; [|discriminate]. unfold ab_col in H.
  destruct (Rlt_dec 0 (sumR (Nelem g) (fun k => p k * mirror1 g p k))).
  - split; [left|eapply unit_col_nrm; eauto]. destruct (unit_col_form _ _ _ H) as [-> _]. apply even_div. apply even_sum.
  - split; [right|eapply unit_col_nrm; eauto]. destruct (unit_col_form _ _ _ H) as [-> _]. apply odd_div. apply odd_diff.
Qed.
Lemma even_ext : forall g u v, (forall k, (k < Nelem g)%nat -> u k = v k) -> even_col g v -> even_col g u.
Proof. intros g u v H E k Hk. rewrite H by auto. rewrite (mirror1_ext R g u v) by auto. auto. Qed.
Lemma odd_ext : forall g u v, (forall k, (k < Nelem g)%nat -> u k = v k) -> odd_col g v -> odd_col g u.
Proof. intros g u v H E k Hk. rewrite H by auto. rewrite (mirror1_ext R g u v) by auto. auto. Qed.
Lemma nrm_ext : forall g u v, (forall k, (k < Nelem g)%nat -> u k = v k) -> nrm g u = nrm g v.
Proof. intros. unfold nrm. f_equal. apply sumR_ext. intros. rewrite H; auto. Qed.
Lemma avg1_sym : forall g f, even_col g (avg1 g f).
Proof.
  intros g f k Hk. unfold avg1.
  rewrite (mirror1_map2 R R R g (fun a b => 1 / 2 * (a + b)) f (mirror1 g f)) by auto. cbv beta. rewrite mirror1_invol by auto. lra.
Qed.

Lemma ab_sym_spec : forall g M x y, ab_symmetrize g M x = Ok y ->
  (forall i, (i < M)%nat -> (even_col g (orb (Nelem g) y i) \/ odd_col g (orb (Nelem g) y i)) /\ nrm g (orb (Nelem g) y i) = 1) /\
  (forall i, eigv (Nelem g) M y i = eigv (Nelem g) M x i) /\
  even_col g (pot (Nelem g) M y) /\
  (forall k, (k < Nelem g)%nat -> pot (Nelem g) M y k = (pot (Nelem g) M x k + mirror1 g (pot (Nelem g) M x) k) / 2).
Proof.
  intros g M x y H. unfold ab_symmetrize in H.
  match type of H with bind (all_cols M ?F) _ = _ => set (phi := F) in H; destruct (all_cols M phi) as [p|] eqn:E end; [|discriminate].
  simpl in H. inversion H; subst y; clear H. split; [|split; [|split]].
  - intros i Hi. pose proof (all_cols_ok _ _ _ E i Hi) as F. unfold phi in F.
    destruct (ab_col_parity _ _ _ F) as [A B].
    assert (X : forall k, (k < Nelem g)%nat -> orb (Nelem g) (x_pack (Nelem g) M p (x_ev (Nelem g) M x) (avg1 g (x_v (Nelem g) M x))) i k = p i k) by (intros; apply pack_phi; auto).
    split.
    + destruct A; [left; eapply even_ext; eauto|right; eapply odd_ext; eauto].
    + rewrite (nrm_ext g _ _ X). auto.
  - intros i. destruct (Nat.lt_ge_cases i (M - 1)) as [A|A].
    + rewrite pack_ev by auto. apply eigv_x.
    + unfold eigv. destruct (Nat.ltb_spec (S i) M); auto; lia.
  - apply (even_ext g _ (avg1 g (x_v (Nelem g) M x))); [intros; apply pack_v|apply avg1_sym].
  - intros k Hk. rewrite pack_v. unfold avg1. change (x_v (Nelem g) M x) with (pot (Nelem g) M x). lra.
Qed.

(** Columns that are not nearly degenerate are replaced by their normalised even or odd part. *)
Definition apart (M : nat) (e : vec) : Prop := forall i, (S i < M)%nat -> / 10 ^ 6 <= Rabs (e i - e (S i)).
Lemma ab_pairs_none : forall g ev l phi, (forall i, In i l -> / 10 ^ 6 <= Rabs (ev i - ev (i + 1)%nat)) ->
  fold_left (fun p i => ab_pair g ev i p) l phi = phi.
Proof.
  induction l; intros phi H; simpl; auto. rewrite IHl; [|intros; apply H; simpl; auto].
  unfold ab_pair. destruct (Rlt_dec (Rabs (ev a - ev (a + 1)%nat)) (/ 10 ^ 6)); auto. specialize (H a (or_introl eq_refl)). lra.
Qed.
Lemma ab_sym_apart : forall g M x y i, ab_symmetrize g M x = Ok y -> apart M (eigv (Nelem g) M x) -> (i < M)%nat ->
  let p := orb (Nelem g) x i in
  let e := fun k => p k + mirror1 g p k in let o := fun k => p k - mirror1 g p k in
  (0 < sumR (Nelem g) (fun k => p k * mirror1 g p k) -> forall k, (k < Nelem g)%nat -> orb (Nelem g) y i k = e k / nrm g e) /\
  (sumR (Nelem g) (fun k => p k * mirror1 g p k) <= 0 -> forall k, (k < Nelem g)%nat -> orb (Nelem g) y i k = o k / nrm g o).
Proof.
  intros g M x y i H Ha Hi p e o. unfold ab_symmetrize in H.
  rewrite ab_pairs_none in H.
  2:{ intros j Hj. apply in_seq in Hj. rewrite !eigv_x. replace (j + 1)%nat with (S j) by lia. apply Ha. lia. }
  match type of H with bind (all_cols M ?F) _ = _ => set (phi := F) in H; destruct (all_cols M phi) as [q|] eqn:E end; [|discriminate].
  simpl in H. inversion H; subst y; clear H. pose proof (all_cols_ok _ _ _ E i Hi) as F. unfold phi in F. cbv beta in F.
  assert (P : forall k, x_phi (Nelem g) x i k = p k) by (intros; apply orb_x).
  assert (MP : forall k, (k < Nelem g)%nat -> mirror1 g (x_phi (Nelem g) x i) k = mirror1 g p k) by (intros; apply mirror1_ext; auto).
  assert (S : sumR (Nelem g) (fun k => x_phi (Nelem g) x i k * mirror1 g (x_phi (Nelem g) x i) k) = sumR (Nelem g) (fun k => p k * mirror1 g p k))
    by (apply sumR_ext; intros; rewrite P, MP by auto; auto).
  unfold ab_col in F. rewrite S in F.
  split; intros Hs k Hk; rewrite pack_phi by auto.
  - destruct (Rlt_dec 0 (sumR (Nelem g) (fun k => p k * mirror1 g p k))); [|lra].
    destruct (unit_col_form _ _ _ F) as [-> _]. rewrite P, MP by auto. unfold e. f_equal.
    apply nrm_ext. intros. rewrite P, MP by auto. auto.
  - destruct (Rlt_dec 0 (sumR (Nelem g) (fun k => p k * mirror1 g p k))); [lra|].
    destruct (unit_col_form _ _ _ F) as [-> _]. rewrite P, MP by auto. unfold o. f_equal.
    apply nrm_ext. intros. rewrite P, MP by auto. auto.
Qed.
Lemma nrm_zero : forall g f, (forall k, (k < Nelem g)%nat -> f k = 0) -> nrm g f = 0.
Proof. intros. unfold nrm. rewrite sumR_zero; [apply sqrt_0|]. intros. rewrite H by auto. ring. Qed.
(** Two nearly degenerate orbitals of even parity: the "odd" mixture is 0/0. *)
Lemma ab_sym_nan : forall g x, (0 < Nelem g)%nat -> Rabs (eigv (Nelem g) 2 x 0) < / 10 ^ 6 ->
  even_col g (orb (Nelem g) x 0) -> even_col g (orb (Nelem g) x 1) -> ab_symmetrize g 2 x = Err NotFinite.
Proof.
  intros g x HN Hd E0 E1. unfold ab_symmetrize. cbn [Nat.sub seq fold_left]. unfold ab_pair.
  rewrite !eigv_x. change (0 + 1)%nat with 1%nat.
  assert (E : eigv (Nelem g) 2 x 1 = 0) by reflexivity. rewrite E, Rminus_0_r.
  destruct (Rlt_dec (Rabs (eigv (Nelem g) 2 x 0)) (/ 10 ^ 6)); [|lra].
  match goal with |- bind (all_cols 2 ?F) _ = _ => assert (A : all_cols 2 F = Err NotFinite) end; [|rewrite A; auto].
  apply all_cols_err. exists 1%nat. split; [lia|]. unfold upd. rewrite Nat.eqb_refl. unfold cmap2, unit_col.
  destruct (Req_EM_T (nrm g (mix_odd g (x_phi (Nelem g) x 0) (x_phi (Nelem g) x 1))) 0) as [|Hn]; auto.
  exfalso. apply Hn. apply nrm_zero. intros k Hk. unfold mix_odd.
  rewrite (mirror1_ext R g (x_phi (Nelem g) x 0) (orb (Nelem g) x 0)) by (auto; intros; apply orb_x).
  rewrite (mirror1_ext R g (x_phi (Nelem g) x 1) (orb (Nelem g) x 1)) by (auto; intros; apply orb_x).
  rewrite !orb_x. rewrite <- (E0 k Hk), <- (E1 k Hk). ring.
Qed.

(** * The loop *)
Section Loop.
Context {X : Type} (o : invopt) (kres : X -> num * num) (update : bool -> X -> res X).
Lemma o_step_iter : forall st st' b, o_step o kres update st = Ok (st', b) ->
  ol_iter st' = S (ol_iter st) /\ ol_res st' = pymax (fst (kres (ol_x st))) (snd (kres (ol_x st))) /\
  ol_ks st' = fst (kres (ol_x st)) /\ ol_n st' = snd (kres (ol_x st)).
Proof.
  intros st st' b H. unfold o_step in H. destruct (kres (ol_x st)) as [ks n]. cbn [fst snd].
  destruct (gtb (Fin (io_tol o)) (pymax ks n)); [inversion H; subst; auto|].
  destruct (io_maxit o <=? Z.of_nat (S (ol_iter st)))%Z; [inversion H; subst; auto|].
  match type of H with bind ?U _ = _ => destruct U eqn:E end; simpl in H; [|discriminate]. inversion H; subst; auto.
Qed.
Lemma o_step_end : forall st st', o_step o kres update st = Ok (st', true) ->
  (ol_x st' = ol_x st /\ (gtb (Fin (io_tol o)) (ol_res st') = true \/ (io_maxit o <= Z.of_nat (ol_iter st'))%Z)) \/
  (gtb (ol_res st') (Fin 100) = true /\ gtb (Fin (io_tol o)) (ol_res st') = false /\ (Z.of_nat (ol_iter st') < io_maxit o)%Z /\ exists b, update b (ol_x st) = Ok (ol_x st')).
Proof.
  intros st st' H. unfold o_step in H. destruct (kres (ol_x st)) as [ks n].
  destruct (gtb (Fin (io_tol o)) (pymax ks n)) eqn:A; [inversion H; subst; left; split; [reflexivity|left; auto]|].
  destruct (Z.leb_spec (io_maxit o) (Z.of_nat (S (ol_iter st)))) as [B|B].
  - inversion H; subst. left. split; [reflexivity|right; auto].
  - match type of H with bind ?U _ = _ => destruct U eqn:E end; cbn [bind] in H; [|discriminate].
    assert (H2 := f_equal (fun r => match r with Ok (_, b) => b | Err _ => false end) H).
    assert (H1 := f_equal (fun r => match r with Ok (s, _) => s | Err _ => st end) H). cbv beta iota in H1, H2.
    rewrite <- H1. right. cbn [ol_res ol_iter ol_x]. replace 100 with (10 ^ 2) by ring. split; [|split; [|split]]; auto. eexists. eauto.
Qed.
Lemma o_step_go : forall st st', o_step o kres update st = Ok (st', false) ->
  (Z.of_nat (ol_iter st') < io_maxit o)%Z /\ gtb (Fin (io_tol o)) (ol_res st') = false /\ gtb (ol_res st') (Fin 100) = false /\ exists b, update b (ol_x st) = Ok (ol_x st').
Proof.
  intros st st' H. unfold o_step in H. destruct (kres (ol_x st)) as [ks n].
  destruct (gtb (Fin (io_tol o)) (pymax ks n)) eqn:A; [inversion H|].
  destruct (Z.leb_spec (io_maxit o) (Z.of_nat (S (ol_iter st)))) as [B|B]; [inversion H|].
  match type of H with bind ?U _ = _ => destruct U eqn:E end; cbn [bind] in H; [|discriminate].
  assert (H2 := f_equal (fun r => match r with Ok (_, b) => b | Err _ => true end) H).
  assert (H1 := f_equal (fun r => match r with Ok (s, _) => s | Err _ => st end) H). cbv beta iota in H1, H2.
  rewrite <- H1. cbn [ol_res ol_iter ol_x]. replace 100 with (10 ^ 2) by ring. split; [|split; [|split]]; auto. eexists. eauto.
Qed.
(** The loop always ends within the fuel given by [o_fuel]. *)
Lemma o_loop_fuel : forall fuel st, (0 < fuel)%nat -> (io_maxit o <= Z.of_nat (ol_iter st + fuel))%Z -> o_loop o kres update fuel st <> Ok None.
Proof.
  induction fuel; intros st Hf Hm H; [lia|]. simpl in H. destruct (o_step o kres update st) as [[st' b]|e] eqn:E; [|discriminate]. simpl in H.
  destruct b; [discriminate|]. destruct (o_step_go _ _ E) as (A & _). destruct (o_step_iter _ _ _ E) as (B & _).
  revert H. apply IHfuel; lia.
Qed.
(** The last pass, with an invariant of the updates. *)
Lemma o_loop_last : forall (P : X -> Prop), (forall b x x', P x -> update b x = Ok x' -> P x') ->
  forall fuel st st', o_loop o kres update fuel st = Ok (Some st') -> P (ol_x st) ->
  exists st0, P (ol_x st0) /\ o_step o kres update st0 = Ok (st', true) /\ (ol_iter st <= ol_iter st0)%nat /\ (st0 = st \/ (Z.of_nat (ol_iter st0) < io_maxit o)%Z).
Proof.
  intros P Hs. induction fuel; intros st st' H Hh; simpl in H; [discriminate|].
  destruct (o_step o kres update st) as [[st1 b]|e] eqn:E; [|discriminate]. simpl in H.
  destruct b.
  - inversion H; subst. exists st. split; [auto|]. split; [auto|]. split; [lia|auto].
  - destruct (o_step_go _ _ E) as (Q & _ & _ & b & U).
    destruct (IHfuel _ _ H) as (st0 & A & B & C & D); [eapply Hs; eauto|].
    exists st0. destruct (o_step_iter _ _ _ E) as (F & _). split; [auto|]. split; [auto|]. split; [lia|].
    right. destruct D as [->|D]; auto.
Qed.
(** An invariant of the updates holds for the result. *)
Lemma heads_inv : forall (P : X -> Prop) x0, P x0 -> (forall b x x', P x -> update b x = Ok x' -> P x') ->
  forall fuel st', o_loop o kres update fuel (o_start x0) = Ok (Some st') -> P (ol_x st').
Proof.
  intros P x0 H0 Hs fuel. assert (G : forall fuel st st', P (ol_x st) -> o_loop o kres update fuel st = Ok (Some st') -> P (ol_x st')).
  { clear fuel. induction fuel; intros st st' Hp H; simpl in H; [discriminate|].
    destruct (o_step o kres update st) as [[st1 b]|e] eqn:E; [|discriminate]. simpl in H. destruct b.
    - inversion H; subst. destruct (o_step_end _ _ E) as [(F & _)|(_ & _ & _ & b & F)]; [rewrite F; auto|eapply Hs; eauto].
    - apply (IHfuel st1); auto. destruct (o_step_go _ _ E) as (_ & _ & _ & b & F). eapply Hs; eauto. }
  intros st' H. apply (G fuel (o_start x0) st'); auto.
Qed.
End Loop.

(** Full account of a run. *)
Theorem loop_result : forall (X : Type) o (kres : X -> num * num) update x0 (P : X -> Prop), P x0 -> (forall b x x', P x -> update b x = Ok x' -> P x') ->
  o_loop o kres update (o_fuel o) (o_start x0) <> Ok None /\
  forall st, o_loop o kres update (o_fuel o) (o_start x0) = Ok (Some st) ->
    (1 <= ol_iter st)%nat /\ (Z.of_nat (ol_iter st) <= Z.max 1 (io_maxit o))%Z /\
    exists x, P x /\ ol_res st = pymax (fst (kres x)) (snd (kres x)) /\
      ((ol_x st = x /\ (gtb (Fin (io_tol o)) (ol_res st) = true \/ (io_maxit o <= Z.of_nat (ol_iter st))%Z)) \/
       (gtb (ol_res st) (Fin 100) = true /\ gtb (Fin (io_tol o)) (ol_res st) = false /\ (Z.of_nat (ol_iter st) < io_maxit o)%Z /\ exists b, update b x = Ok (ol_x st))).
Proof.
  intros X o kres update x0 P H0 Hs. split.
  - apply o_loop_fuel; unfold o_fuel; simpl; lia.
  - intros st H. destruct (o_loop_last o kres update P Hs _ _ _ H H0) as (st0 & A & B & C & D).
    destruct (o_step_iter _ _ _ _ _ _ B) as (E & F & _). rewrite E. split; [lia|]. split.
    + destruct D as [->|D]; [simpl; lia|lia].
    + exists (ol_x st0). split; auto. split; auto. rewrite <- E. destruct (o_step_end _ _ _ _ _ B) as [G|G]; auto.
Qed.
