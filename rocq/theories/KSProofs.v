(** Lemmas about CADMium/kohnsham. *)
From Coq Require Import Reals List Arith Lia Lra ZArith Bool String Permutation.
From Verif Require Import Base BaseLemmas GridModel GridSpec GridProofs HartreeModel SolverModel SolverSpec SolverProofs SolverThms
  LibxcModel OptionsModel KSModel KSSpec.
Import ListNotations.
Local Open Scope R_scope.
Local Opaque sinh cosh.

(** * loops *)
Lemma forN_ext : forall (S : Type) n (f h : nat -> S -> res S) s, (forall i x, (i < n)%nat -> f i x = h i x) -> forN n f s = forN n h s.
Proof. induction n; intros f h s H; simpl; auto. rewrite (IHn f h s) by auto. destruct (forN n h s); simpl; auto. Qed.
Lemma forN_inv : forall (S : Type) (P : nat -> S -> Prop) n f s s', forN n f s = Ok s' -> P 0%nat s ->
  (forall i x y, (i < n)%nat -> P i x -> f i x = Ok y -> P (Datatypes.S i) y) -> P n s'.
Proof.
  intros S P. induction n; intros f s s' H H0 HS; simpl in H.
  - injection H as <-. auto.
  - destruct (forN n f s) as [x|] eqn:E; [|discriminate]. cbn [bind] in H. apply (HS n x s'); auto. eapply IHn; eauto.
Qed.
Lemma forN_err : forall (S : Type) (P : nat -> S -> Prop) n f s e, forN n f s = Err e -> P 0%nat s ->
  (forall i x y, (i < n)%nat -> P i x -> f i x = Ok y -> P (Datatypes.S i) y) -> exists i x, (i < n)%nat /\ P i x /\ f i x = Err e.
Proof.
  intros S P. induction n; intros f s e H H0 HS; simpl in H; [discriminate|].
  destruct (forN n f s) as [x|e'] eqn:E; cbn [bind] in H.
  - exists n, x. split; [lia|]. split; auto. eapply forN_inv; eauto.
  - injection H as ->. destruct (IHn f s e E H0 ltac:(intros; eapply HS; eauto; lia)) as (i & x & Hi & Q). exists i, x. split; [lia|auto].
Qed.

(** Nested loop that rewrites each place of an array once, from its own previous value. *)
Definition fillJ {A : Type} (cols lv : nat) (F : nat -> nat -> A -> res A) (s : nat -> nat -> A) : res (nat -> nat -> A) :=
  forN cols (fun j s => forN lv (fun i s => do x <- F i j (s i j); Ok (upd2 s i j x)) s) s.
Definition fillI {A : Type} (cols lv : nat) (F : nat -> nat -> A -> res A) (s : nat -> nat -> A) : res (nat -> nat -> A) :=
  forN lv (fun i s => forN cols (fun j s => do x <- F i j (s i j); Ok (upd2 s i j x)) s) s.
Lemma upd2_same : forall (A : Type) (f : nat -> nat -> A) i j x, upd2 f i j x i j = x.
Proof. intros. unfold upd2. rewrite !Nat.eqb_refl. reflexivity. Qed.
Lemma upd2_other : forall (A : Type) (f : nat -> nat -> A) i j x p q, (p <> i \/ q <> j) -> upd2 f i j x p q = f p q.
Proof.
  intros. unfold upd2. destruct (Nat.eqb_spec p i), (Nat.eqb_spec q j); simpl; auto. exfalso; lia.
Qed.

Section FillJ.
  Context {A : Type} (F : nat -> nat -> A -> res A) (s0 : nat -> nat -> A) (lv : nat).
  (** done: columns below j, and levels below i of column j *)
  Definition doneJ (j i : nat) (s : nat -> nat -> A) : Prop :=
    (forall p q, (p < lv)%nat -> ((q < j)%nat \/ (q = j /\ (p < i)%nat)) -> F p q (s0 p q) = Ok (s p q)) /\
    (forall p q, ~ ((p < lv)%nat /\ ((q < j)%nat \/ (q = j /\ (p < i)%nat))) -> s p q = s0 p q).
  Lemma doneJ_step : forall j i s y, (i < lv)%nat -> doneJ j i s -> (do x <- F i j (s i j); Ok (upd2 s i j x)) = Ok y -> doneJ j (S i) y.
  Proof.
    intros j i s y Hi (H1 & H2) E. destruct (F i j (s i j)) as [x|] eqn:Q; [|discriminate]. cbn [bind] in E. injection E as <-.
    rewrite H2 in Q by lia. split.
    - intros p q Hp Hq. destruct (Nat.eq_dec p i) as [->|Np], (Nat.eq_dec q j) as [->|Nq].
      + rewrite upd2_same. auto.
      + rewrite upd2_other by auto. apply H1; auto; lia.
      + rewrite upd2_other by auto. apply H1; auto; lia.
      + rewrite upd2_other by auto. apply H1; auto; lia.
    - intros p q Hn. rewrite upd2_other by lia. apply H2. lia.
  Qed.
  Lemma doneJ_next : forall j s, doneJ j lv s -> doneJ (S j) 0 s.
  Proof. intros j s (H1 & H2). split; intros; [apply H1|apply H2]; lia. Qed.
  Lemma fillJ_done : forall cols s, fillJ cols lv F s0 = Ok s -> doneJ cols 0 s.
  Proof.
    intros cols s H. unfold fillJ in H. apply (forN_inv _ (fun j s => doneJ j 0 s) _ _ _ _ H).
    - split; intros; [lia|auto].
    - intros j x y Hj HP E. apply doneJ_next. apply (forN_inv _ (fun i s => doneJ j i s) _ _ _ _ E HP).
      intros i a b Hi Ha Eb. exact (doneJ_step j i a b Hi Ha Eb).
  Qed.
  Lemma fillJ_ok : forall cols s, fillJ cols lv F s0 = Ok s ->
    (forall i j, (i < lv)%nat -> (j < cols)%nat -> F i j (s0 i j) = Ok (s i j)) /\
    (forall i j, ~ ((i < lv)%nat /\ (j < cols)%nat) -> s i j = s0 i j).
  Proof. intros cols s H. destruct (fillJ_done cols s H) as (A1 & A2). split; intros; [apply A1|apply A2]; lia. Qed.
  Lemma fillJ_err : forall cols e, fillJ cols lv F s0 = Err e -> exists i j, (i < lv)%nat /\ (j < cols)%nat /\ F i j (s0 i j) = Err e.
  Proof.
    intros cols e H. unfold fillJ in H.
    assert (HN : forall j x y, (j < cols)%nat -> doneJ j 0 x ->
       forN lv (fun i s => do x <- F i j (s i j); Ok (upd2 s i j x)) x = Ok y -> doneJ (S j) 0 y).
    { intros j x y Hj HP E. apply doneJ_next. apply (forN_inv _ (fun i s => doneJ j i s) _ _ _ _ E HP).
      intros i a b Hi Ha Eb. exact (doneJ_step j i a b Hi Ha Eb). }
    assert (H0 : doneJ 0 0 s0) by (split; intros; [lia|auto]).
    destruct (forN_err _ (fun j s => doneJ j 0 s) _ _ _ _ H H0 HN) as (j & x & Hj & HP & E).
    destruct (forN_err _ (fun i s => doneJ j i s) _ _ _ _ E HP) as (i & y & Hi & (H1 & H2) & E').
    { intros i a b Hi Ha Eb. exact (doneJ_step j i a b Hi Ha Eb). }
    exists i, j. rewrite H2 in E' by lia.
    destruct (F i j (s0 i j)); [discriminate|]. cbn [bind] in E'. injection E' as ->. auto.
  Qed.
End FillJ.
(** The other nesting is the transposed problem. *)
Lemma fillI_swap : forall (A : Type) cols lv (F : nat -> nat -> A -> res A) s,
  match fillI cols lv F s, fillJ lv cols (fun j i => F i j) (fun j i => s i j) with
  | Ok a, Ok b => forall i j, a i j = b j i
  | Err e, Err e' => e = e'
  | _, _ => False
  end.
Proof.
  intros A cols lv F s. unfold fillI, fillJ.
  induction lv as [|n IH]; simpl; auto.
  destruct (forN n _ s) as [a|e], (forN n _ (fun j i => s i j)) as [b|e']; try contradiction; cbn [bind]; auto.
  clear s. induction cols as [|c IHc]; simpl; auto.
  destruct (forN c _ a) as [a'|e], (forN c _ b) as [b'|e']; try contradiction; cbn [bind]; auto.
  rewrite <- (IHc n c). destruct (F n c (a' n c)); cbn [bind]; auto.
  intros i j. unfold upd2. rewrite IHc. destruct (Nat.eqb_spec i n), (Nat.eqb_spec j c); simpl; auto.
Qed.
Lemma fillI_ok : forall (A : Type) (F : nat -> nat -> A -> res A) s0 lv cols s, fillI cols lv F s0 = Ok s ->
    (forall i j, (i < lv)%nat -> (j < cols)%nat -> F i j (s0 i j) = Ok (s i j)) /\
    (forall i j, ~ ((i < lv)%nat /\ (j < cols)%nat) -> s i j = s0 i j).
Proof.
  intros A F s0 lv cols s H. pose proof (fillI_swap A cols lv F s0) as Q. rewrite H in Q.
  destruct (fillJ lv cols (fun j i => F i j) (fun j i => s0 i j)) as [b|] eqn:E; [|contradiction].
  apply fillJ_ok in E. destruct E as (A1 & A2). split; intros; rewrite Q; [apply A1|apply A2]; auto; lia.
Qed.
Lemma fillI_err : forall (A : Type) (F : nat -> nat -> A -> res A) s0 lv cols e, fillI cols lv F s0 = Err e ->
  exists i j, (i < lv)%nat /\ (j < cols)%nat /\ F i j (s0 i j) = Err e.
Proof.
  intros A F s0 lv cols s H. pose proof (fillI_swap A cols lv F s0) as Q. rewrite H in Q.
  destruct (fillJ lv cols (fun j i => F i j) (fun j i => s0 i j)) as [b|] eqn:E; [contradiction|]. subst.
  apply fillJ_err in E. destruct E as (j & i & Hj & Hi & E). exists i, j. auto.
Qed.

(** * effective potential *)
Lemma distribute_ok : forall k v sol, distribute k v = Ok sol ->
  (forall i j, place k i j -> (j < k_pol k)%nat /\ sol i j = set_veff (k_sol k i j) (fun x => v x j)) /\
  (forall i j, ~ place k i j -> sol i j = k_sol k i j).
Proof.
  intros k v sol H.
  assert (E : fillJ (k_cols k) (k_lv k) (fun i j s => do c <- column (k_pol k) v j; Ok (set_veff s c)) (k_sol k) = Ok sol).
  { rewrite <- H. unfold fillJ, distribute. apply forN_ext. intros j s Hj. apply forN_ext. intros i s' Hi.
    destruct (column (k_pol k) v j); reflexivity. }
  apply fillJ_ok in E. destruct E as (A1 & A2). split.
  - intros i j (Hi & Hj). specialize (A1 i j Hi Hj). unfold column in A1. destruct (Nat.ltb_spec j (k_pol k)); [|discriminate].
    cbn [bind] in A1. injection A1 as <-. auto.
  - intros i j Hn. apply A2. exact Hn.
Qed.
Lemma distribute_err : forall k v e, distribute k v = Err e -> e = IndexError /\ exists i j, place k i j /\ (k_pol k <= j)%nat.
Proof.
  intros k v e H.
  assert (E : fillJ (k_cols k) (k_lv k) (fun i j s => do c <- column (k_pol k) v j; Ok (set_veff s c)) (k_sol k) = Err e).
  { rewrite <- H. unfold fillJ, distribute. apply forN_ext. intros j s Hj. apply forN_ext. intros i s' Hi.
    destruct (column (k_pol k) v j); reflexivity. }
  apply fillJ_err in E. destruct E as (i & j & Hi & Hj & E). unfold column in E. destruct (Nat.ltb_spec j (k_pol k)); [discriminate|].
  cbn [bind] in E. split; [congruence|]. exists i, j. split; [split; auto|auto].
Qed.
Lemma distribute_scf_same : forall k v,
  match distribute_scf k v, distribute k v with
  | Ok a, Ok b => forall i j, a i j = b i j
  | Err e, Err e' => e = e'
  | _, _ => False
  end.
Proof.
  intros k v. set (F := fun (i j : nat) (s : solver) => do c <- column (k_pol k) v j; Ok (set_veff s c)).
  assert (EI : distribute_scf k v = fillI (k_cols k) (k_lv k) F (k_sol k)).
  { unfold fillI, distribute_scf. apply forN_ext. intros j s Hj. apply forN_ext. intros i s' Hi. unfold F.
    destruct (column (k_pol k) v i); reflexivity. }
  destruct (distribute_scf k v) as [a|e] eqn:Q, (distribute k v) as [b|e'] eqn:P.
  - symmetry in EI. apply fillI_ok in EI. destruct EI as (A1 & A2). apply distribute_ok in P. destruct P as (B1 & B2).
    intros i j. destruct (le_lt_dec (k_lv k) i); [rewrite A2, B2; auto; unfold place; lia|].
    destruct (le_lt_dec (k_cols k) j); [rewrite A2, B2; auto; unfold place; lia|].
    specialize (A1 i j l l0). destruct (B1 i j) as (Hj & ->); [split; auto|]. unfold F, column in A1.
    rewrite (proj2 (Nat.ltb_lt _ _) Hj) in A1. cbn [bind] in A1. injection A1 as <-. reflexivity.
  - apply distribute_err in P. destruct P as (-> & i & j & (Hi & Hj) & Hp). symmetry in EI. apply fillI_ok in EI. destruct EI as (A1 & _).
    specialize (A1 i j Hi Hj). unfold F, column in A1. destruct (Nat.ltb_spec j (k_pol k)); [lia|discriminate].
  - symmetry in EI. apply fillI_err in EI. destruct EI as (i & j & Hi & Hj & E). apply distribute_ok in P. destruct P as (B1 & _).
    destruct (B1 i j) as (Hp & _); [split; auto|]. unfold F, column in E. rewrite (proj2 (Nat.ltb_lt _ _) Hp) in E. discriminate.
  - symmetry in EI. apply fillI_err in EI. destruct EI as (i & j & Hi & Hj & E). apply distribute_err in P. destruct P as (-> & _).
    unfold F, column in E. destruct (j <? k_pol k)%nat; [discriminate|]. cbn [bind] in E. congruence.
Qed.
Lemma distribute_scf_ok : forall k v sol, distribute_scf k v = Ok sol ->
  (forall i j, place k i j -> (j < k_pol k)%nat /\ sol i j = set_veff (k_sol k i j) (fun x => v x j)) /\
  (forall i j, ~ place k i j -> sol i j = k_sol k i j).
Proof.
  intros k v sol H. pose proof (distribute_scf_same k v) as S. rewrite H in S.
  destruct (distribute k v) as [b|] eqn:E; [|contradiction]. apply distribute_ok in E. destruct E as (A1 & A2).
  split; intros i j Hp; rewrite S; auto.
Qed.

(** * workers *)
Lemma key_eqb_spec : forall a b, key_eqb a b = true <-> a = b.
Proof.
  intros (a1, a2) (b1, b2). unfold key_eqb. simpl. rewrite andb_true_iff, !Nat.eqb_eq. split; [intros (-> & ->); auto|intros E; injection E; auto].
Qed.
Lemma run_get : forall (w : solver -> option wres) (sol : nat -> nat -> solver) sched d ij,
  tget (fold_left (fun d ij => match w (sol (fst ij) (snd ij)) with Some r => (ij, r) :: d | None => d end) sched d) ij =
  match w (sol (fst ij) (snd ij)) with
  | Some r => if existsb (fun x => key_eqb x ij) sched then Ok r else tget d ij
  | None => tget d ij
  end.
Proof.
  intros w sol. induction sched as [|x l IH]; intros d ij; simpl.
  - destruct (w _); auto.
  - rewrite IH. destruct (key_eqb x ij) eqn:E.
    + apply key_eqb_spec in E. subst x. simpl. destruct (w (sol (fst ij) (snd ij))) as [r|]; auto.
      destruct (existsb _ l); auto. unfold tget. simpl. assert (key_eqb ij ij = true) as -> by (apply key_eqb_spec; auto). reflexivity.
    + simpl. destruct (w (sol (fst ij) (snd ij))) as [r|].
      * destruct (existsb _ l); auto. destruct (w (sol (fst x) (snd x))); auto. unfold tget. simpl. rewrite E. reflexivity.
      * destruct (w (sol (fst x) (snd x))); auto. unfold tget. simpl. rewrite E. reflexivity.
Qed.
Lemma run_tget : forall w sol sched i j,
  tget (run_workers w sol sched) (i, j) =
  match w (sol i j) with Some r => if existsb (fun x => key_eqb x (i, j)) sched then Ok r else Err KeyError | None => Err KeyError end.
Proof. intros. unfold run_workers. rewrite run_get. simpl. destruct (w (sol i j)); auto. Qed.
Lemma sched_in : forall k l i j, schedule k l -> place k i j -> existsb (fun x => key_eqb x (i, j)) l = true.
Proof.
  intros k l i j (_ & H) Hp. apply existsb_exists. exists (i, j). split; [apply H; auto|apply key_eqb_spec; auto].
Qed.
Lemma keys_schedule : forall k, schedule k (keys k).
Proof.
  intros k. split.
  - unfold keys. generalize (seq_NoDup (k_cols k) 0). generalize (seq 0 (k_cols k)). induction l as [|j l IH]; intros ND; simpl; [constructor|].
    inversion ND; subst. assert (D : NoDup (map (fun i => (i, j)) (seq 0 (k_lv k)))).
    { apply FinFun.Injective_map_NoDup; [intros a b E; congruence|apply seq_NoDup]. }
    assert (X : forall (A : Type) (l1 l2 : list A), NoDup l1 -> NoDup l2 -> (forall a, In a l1 -> ~ In a l2) -> NoDup (l1 ++ l2)).
    { clear. induction l1; simpl; intros l2 H1 H2 H; auto. inversion H1; subst. constructor.
      - rewrite in_app_iff. intros [?|?]; [contradiction|apply (H a); auto].
      - apply IHl1; auto. }
    apply X; auto. intros (i, j') Hin Hin'. apply in_map_iff in Hin. destruct Hin as (? & E & _). injection E as _ <-.
    apply in_flat_map in Hin'. destruct Hin' as (j'' & Hj & Hin'). apply in_map_iff in Hin'. destruct Hin' as (? & E & _). injection E as _ <-. contradiction.
  - intros i j. unfold keys, place. rewrite in_flat_map. split.
    + intros (j' & Hj & H). apply in_map_iff in H. destruct H as (i' & E & H). injection E as <- <-. apply in_seq in H, Hj. lia.
    + intros (Hi & Hj). exists j. split; [apply in_seq; lia|]. apply in_map_iff. exists i. split; auto. apply in_seq. lia.
Qed.

Lemma collect_ok : forall k w sched sol, collect k (run_workers w (k_sol k) sched) = Ok sol ->
  (forall i j, place k i j -> exists r, w (k_sol k i j) = Some r /\ sol i j = set_result (k_sol k i j) r) /\
  (forall i j, ~ place k i j -> sol i j = k_sol k i j).
Proof.
  intros k w sched sol H.
  assert (E : fillJ (k_cols k) (k_lv k) (fun i j s => do r <- tget (run_workers w (k_sol k) sched) (i, j); Ok (set_result s r)) (k_sol k) = Ok sol).
  { rewrite <- H. unfold fillJ, collect. apply forN_ext. intros j s Hj. apply forN_ext. intros i s' Hi.
    destruct (tget _ (i, j)); reflexivity. }
  apply fillJ_ok in E. destruct E as (A1 & A2). split.
  - intros i j (Hi & Hj). specialize (A1 i j Hi Hj). rewrite run_tget in A1.
    destruct (w (k_sol k i j)) as [r|]; [|discriminate]. exists r. split; auto. destruct (existsb _ sched); [|discriminate].
    cbn [bind] in A1. congruence.
  - intros i j Hn. apply A2. exact Hn.
Qed.
Lemma collect_err : forall k w sched e, collect k (run_workers w (k_sol k) sched) = Err e -> e = KeyError.
Proof.
  intros k w sched e H.
  assert (E : fillJ (k_cols k) (k_lv k) (fun i j s => do r <- tget (run_workers w (k_sol k) sched) (i, j); Ok (set_result s r)) (k_sol k) = Err e).
  { rewrite <- H. unfold fillJ, collect. apply forN_ext. intros j s Hj. apply forN_ext. intros i s' Hi.
    destruct (tget _ (i, j)); reflexivity. }
  apply fillJ_err in E. destruct E as (i & j & Hi & Hj & E). rewrite run_tget in E.
  destruct (w (k_sol k i j)); [destruct (existsb _ _)|]; cbn [bind] in E; congruence.
Qed.
Lemma collect_cong : forall k d d', (forall i j, place k i j -> tget d (i, j) = tget d' (i, j)) -> collect k d = collect k d'.
Proof.
  intros k d d' H. unfold collect. apply forN_ext. intros j s Hj. apply forN_ext. intros i s' Hi. rewrite H; [reflexivity|split; auto].
Qed.
Lemma density_schedule : forall g w it dif k l l', schedule k l -> schedule k l' ->
  ks_density g w it dif l k = ks_density g w it dif l' k.
Proof.
  intros g w it dif k l l' H H'. unfold ks_density. rewrite (collect_cong k _ (run_workers (e_worker w (use_iter it dif)) (k_sol k) l')); auto.
  intros i j Hp. rewrite !run_tget, (sched_in k l i j), (sched_in k l' i j) by auto. reflexivity.
Qed.
Lemma density_crash : forall g w it dif k l i j, place k i j ->
  (e_worker w (use_iter it dif) (k_sol k i j) = None \/ ~ In (i, j) l) -> ks_density g w it dif l k = Err KeyError.
Proof.
  intros g w it dif k l i j Hp Hw. unfold ks_density.
  destruct (collect k _) as [sol|e] eqn:E.
  - exfalso.
    assert (E' : fillJ (k_cols k) (k_lv k) (fun i j s => do r <- tget (run_workers (e_worker w (use_iter it dif)) (k_sol k) l) (i, j); Ok (set_result s r)) (k_sol k) = Ok sol).
    { rewrite <- E. unfold fillJ, collect. apply forN_ext. intros j' s Hj. apply forN_ext. intros i' s' Hi.
      destruct (tget _ (i', j')); reflexivity. }
    apply fillJ_ok in E'. destruct E' as (A1 & _). specialize (A1 i j (proj1 Hp) (proj2 Hp)). rewrite run_tget in A1.
    destruct Hw as [Hw|Hw].
    + rewrite Hw in A1. discriminate.
    + destruct (e_worker _ _ _); [|discriminate]. destruct (existsb _ l) eqn:X; [|discriminate].
      apply existsb_exists in X. destruct X as (x & Hx & Ex). apply key_eqb_spec in Ex. subst. contradiction.
  - apply collect_err in E. subst. reflexivity.
Qed.

(** * sum of the solver densities *)
Definition dens (g : grid) (s : solver) : vec := match calc_density g s with Ok d => d | Err _ => fun _ => 0 end.
Lemma sum_dens_spec : forall g k sol n, sum_dens g k sol = Ok n ->
  (forall i j, place k i j -> (j < k_pol k)%nat /\ calc_density g (sol i j) = Ok (dens g (sol i j))) /\
  (forall x s, n x s = if (s <? k_cols k)%nat then sumR (k_lv k) (fun i => dens g (sol i s) x) else 0).
Proof.
  intros g k sol n H. unfold sum_dens in H.
  set (P := fun j (n : mat) => (forall i j', (i < k_lv k)%nat -> (j' < j)%nat -> (j' < k_pol k)%nat /\ calc_density g (sol i j') = Ok (dens g (sol i j'))) /\
     forall x s, n x s = if (s <? j)%nat then sumR (k_lv k) (fun i => dens g (sol i s) x) else 0).
  assert (Q : P (k_cols k) n).
  { apply (forN_inv _ P _ _ _ _ H).
    - split; [lia|]. intros; reflexivity.
    - intros j a b Hj (P1 & P2) E.
      set (I := fun i (n : mat) => (forall i', (i' < i)%nat -> (j < k_pol k)%nat /\ calc_density g (sol i' j) = Ok (dens g (sol i' j))) /\
          forall x s, n x s = if (s <? j)%nat then sumR (k_lv k) (fun i => dens g (sol i s) x) else if (s =? j)%nat then sumR i (fun i => dens g (sol i s) x) else 0).
      assert (J : I (k_lv k) b).
      { apply (forN_inv _ I _ _ _ _ E).
        - split; [lia|]. intros x s. rewrite P2. destruct (Nat.ltb_spec s j); auto. destruct (s =? j)%nat; reflexivity.
        - intros i c d Hi (I1 & I2) Ec. destruct (calc_density g (sol i j)) as [dd|] eqn:D; [|discriminate]. cbn [bind] in Ec.
          destruct (Nat.ltb_spec j (k_pol k)); [|discriminate]. injection Ec as <-. split.
          + intros i' Hi'. split; auto. destruct (Nat.eq_dec i' i) as [->|]; [unfold dens; rewrite D; auto|apply I1; lia].
          + intros x s. rewrite I2. cbn [sumR]. assert (Hd : dens g (sol i j) = dd) by (unfold dens; rewrite D; auto). destruct (Nat.eqb_spec s j); [|destruct (Nat.ltb_spec s j); auto; reflexivity].
            subst s. rewrite Nat.ltb_irrefl, Hd. reflexivity. }
      destruct J as (J1 & J2). split.
      + intros i j' Hi Hj'. destruct (Nat.eq_dec j' j) as [->|]; [apply J1; auto|apply P1; auto; lia].
      + intros x s. rewrite J2. destruct (Nat.ltb_spec s j), (Nat.eqb_spec s j), (Nat.ltb_spec s (S j)); auto; lia. }
  destruct Q as (Q1 & Q2). split; auto. intros i j (Hi & Hj). auto.
Qed.
