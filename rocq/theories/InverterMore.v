(** The remaining inversion methods: kinetic energies, Wu-Yang, simple, dispatch. *)
From Coq Require Import Reals List Arith Lia Lra ZArith Bool String.
From Verif Require Import Base BaseLemmas GridModel GridSpec GridProofs FDProofs OpProofs SolverModel SolverSpec SolverProofs SolverThms
  OptionsModel OptionsProofs KSModel KSSpec KSProofs InverterModel InverterSpec InverterOrb InverterLoop InverterRun InverterThms.
Import ListNotations.
Local Open Scope R_scope.
Local Opaque sinh cosh.

(** * Sums over the solvers *)
Lemma forN_sum : forall n (f : nat -> num -> res num) T a, (forall i r, (i < n)%nat -> f i (Fin r) = Ok (Fin (r + T i))) ->
  forN n f (Fin a) = Ok (Fin (a + sumR n T)).
Proof.
  induction n; intros f T a H; simpl; [f_equal; f_equal; ring|]. rewrite (IHn f T) by auto. cbn [bind]. rewrite H by lia. do 2 f_equal. ring.
Qed.
Theorem get_Ts_sum : forall g iv T,
  (forall i j, (i < i_lv iv)%nat -> (j < if io_ess (i_opt iv) then 1 else i_cols iv)%nat ->
     exists a b n, calc_energy g (i_sol iv i j) = Ok (a, b, Fin (T i j), n)) ->
  get_Ts g iv = Ok (Fin (if io_ess (i_opt iv) then 2 * sumR (i_lv iv) (fun i => T i 0%nat) else sumR (i_lv iv) (fun i => sumR (i_cols iv) (fun j => T i j)))).
Proof.
  intros g iv T H. unfold get_Ts. destruct (io_ess (i_opt iv)).
  - rewrite (forN_sum _ _ (fun i => 2 * T i 0%nat)).
    + rewrite sumR_scal, Rplus_0_l. reflexivity.
    + intros i r Hi. destruct (H i 0%nat Hi ltac:(lia)) as (a & b & n & ->). cbn [bind]. simpl. f_equal. f_equal. ring.
  - rewrite (forN_sum _ _ (fun i => sumR (i_cols iv) (fun j => T i j))).
    + rewrite Rplus_0_l. reflexivity.
    + intros i r Hi. rewrite (forN_sum _ _ (fun j => T i j)); [reflexivity|].
      intros j r' Hj. destruct (H i j Hi Hj) as (a & b & n & ->). reflexivity.
Qed.
(** Success needs every solver's energy. *)
Lemma get_Ts_ok : forall g iv t, get_Ts g iv = Ok t ->
  forall i j, (i < i_lv iv)%nat -> (j < if io_ess (i_opt iv) then 1 else i_cols iv)%nat -> is_ok (calc_energy g (i_sol iv i j)).
Proof.
  intros g iv t H. unfold get_Ts in H. destruct (io_ess (i_opt iv)).
  - assert (Q := forN_inv _ (fun i (_ : num) => forall i', (i' < i)%nat -> is_ok (calc_energy g (i_sol iv i' 0%nat))) _ _ _ _ H ltac:(cbv beta; intros; lia)).
    intros i j Hi Hj. simpl in Hj. assert (j = 0%nat) as -> by lia. apply Q; auto.
    intros i0 x y H0 P E i' Hi'. destruct (Nat.eq_dec i' i0) as [->|]; [|apply P; lia].
    destruct (calc_energy g (i_sol iv i0 0%nat)); [eexists; eauto|discriminate].
  - assert (Q := forN_inv _ (fun i (_ : num) => forall i' j, (i' < i)%nat -> (j < i_cols iv)%nat -> is_ok (calc_energy g (i_sol iv i' j))) _ _ _ _ H ltac:(cbv beta; intros; lia)).
    intros i j Hi Hj. apply Q; auto.
    intros i0 x y H0 P E i' j' Hi' Hj'. destruct (Nat.eq_dec i' i0) as [->|]; [|apply P; auto; lia].
    assert (R := forN_inv _ (fun j (_ : num) => forall j', (j' < j)%nat -> is_ok (calc_energy g (i_sol iv i0 j'))) _ _ _ _ E ltac:(cbv beta; intros; lia)).
    apply R; auto. intros i1 x1 y1 H1 P1 E1 j1 Hj1. destruct (Nat.eq_dec j1 i1) as [->|]; [|apply P1; lia].
    destruct (calc_energy g (i_sol iv i0 i1)); [eexists; eauto|discriminate].
Qed.

(** * Kinetic energy densities *)
Definition same_sol (iv iv' : inverter) : Prop :=
  i_sol iv' = i_sol iv /\ i_opt iv' = i_opt iv /\ i_lv iv' = i_lv iv /\ i_cols iv' = i_cols iv /\ i_alias iv' = i_alias iv.
Definition ked_at (g : grid) (iv : inverter) (i j : nat) : res vec :=
  calc_ked_WFI g (hamiltonian g (s_m (i_sol iv i j))) (i_sol iv i j).
Lemma ked_cols_ok : forall g n i iv t, (forall j, (j < n)%nat -> ked_at g iv i j = Ok (t j)) ->
  exists iv', ked_cols g n i iv = Ok iv' /\ same_sol iv iv' /\
    (forall p q, p <> i -> i_ked iv' p q = i_ked iv p q) /\
    (forall j, i_ked iv' i j = if (j <? n)%nat then Some (t j)
       else if i_alias iv && (j =? 1)%nat && (1 <=? n)%nat then Some (t 0%nat) else i_ked iv i j).
Proof.
  intros g n i iv t. unfold ked_cols. induction n; intros H.
  - exists iv. split; [reflexivity|]. split; [unfold same_sol; auto 6|]. split; auto. intros j. cbn. rewrite andb_false_r. reflexivity.
  - destruct IHn as (iv1 & E & S1 & O & K); auto. simpl. rewrite E. cbn [bind].
    destruct S1 as (S1 & S2 & S3 & S4 & S5). rewrite S1. unfold ked_at in H. rewrite (H n) by lia. cbn [bind].
    eexists. split; [reflexivity|]. rewrite S5.
    assert (X : forall p q x, i_ked (inv_ked iv1 p q x) = upd2 (i_ked iv1) p q (Some x)) by reflexivity.
    destruct (i_alias iv && (n =? 0)%nat) eqn:A.
    + apply andb_true_iff in A. destruct A as [A B]. apply Nat.eqb_eq in B. subst n.
      split; [unfold same_sol; simpl; auto|]. split.
      * intros p q Hp. simpl. rewrite !upd2_other by auto. auto.
      * intros j. cbn [i_ked inv_ked]. destruct (Nat.eq_dec j 1) as [->|].
        { rewrite upd2_same. cbn. rewrite A. reflexivity. }
        rewrite upd2_other by auto. destruct (Nat.eq_dec j 0) as [->|]; [rewrite upd2_same; reflexivity|].
        rewrite upd2_other by auto. rewrite K. cbn [Nat.ltb Nat.leb]. destruct j as [|[|j]]; try lia. cbn. rewrite ?andb_false_r. reflexivity.
    + split; [unfold same_sol; simpl; auto|]. split.
      * intros p q Hp. simpl. rewrite !upd2_other by auto. auto.
      * intros j. cbn [i_ked inv_ked]. destruct (Nat.eq_dec j n) as [->|].
        { rewrite upd2_same. destruct (Nat.ltb_spec n (S n)); [reflexivity|lia]. }
        rewrite upd2_other by auto. rewrite K. destruct (Nat.ltb_spec j n), (Nat.ltb_spec j (S n)); try lia; auto.
        destruct (i_alias iv); auto. cbn [andb] in *. destruct (Nat.eqb_spec n 0); [discriminate|].
        destruct n; [lia|]. reflexivity.
Qed.
Lemma ked_levels : forall g n iv t lv, (forall i j, (i < lv)%nat -> (j < n)%nat -> ked_at g iv i j = Ok (t i j)) ->
  exists iv', forN lv (fun i iv => ked_cols g n i iv) iv = Ok iv' /\ same_sol iv iv' /\
    (forall i j, i_ked iv' i j = if (i <? lv)%nat then
       if (j <? n)%nat then Some (t i j) else if i_alias iv && (j =? 1)%nat && (1 <=? n)%nat then Some (t i 0%nat) else i_ked iv i j
       else i_ked iv i j).
Proof.
  intros g n iv t. induction lv; intros H.
  - exists iv. split; [reflexivity|]. split; [unfold same_sol; auto 6|]. reflexivity.
  - destruct IHlv as (iv1 & E & S1 & K); auto. simpl. rewrite E. cbn [bind].
    destruct S1 as (S1 & S2 & S3 & S4 & S5).
    destruct (ked_cols_ok g n lv iv1 (t lv)) as (iv2 & E2 & (T1 & T2 & T3 & T4 & T5) & O & K2).
    { intros j Hj. unfold ked_at. rewrite S1. apply H; auto. }
    exists iv2. split; auto. split; [unfold same_sol; repeat split; congruence|].
    intros i j. destruct (Nat.eq_dec i lv) as [->|].
    + rewrite K2, K. rewrite S5. destruct (Nat.ltb_spec lv lv); [lia|]. destruct (Nat.ltb_spec lv (S lv)); [|lia]. reflexivity.
    + rewrite O, K by auto. destruct (Nat.ltb_spec i lv), (Nat.ltb_spec i (S lv)); try lia; reflexivity.
Qed.
Lemma fold_last : forall (f : nat -> option vec) n a, (1 <= n)%nat -> forall v, f (n - 1)%nat = Some v ->
  fold_left (fun acc i => match f i with Some t => t | None => acc end) (seq 0 n) a = v.
Proof.
  intros f n a Hn v Hv. destruct n; [lia|]. rewrite seq_S, fold_left_app. simpl in *. rewrite Nat.sub_0_r in Hv. rewrite Hv. reflexivity.
Qed.
Lemma fold_none : forall (f : nat -> option vec) n a, (forall i, (i < n)%nat -> f i = None) ->
  fold_left (fun acc i => match f i with Some t => t | None => acc end) (seq 0 n) a = a.
Proof.
  intros f n a. induction n; intros H; auto. rewrite seq_S, fold_left_app. simpl. rewrite IHn by auto. rewrite H by lia. reflexivity.
Qed.
Theorem ts_WFI_last : forall g iv t, (1 <= i_lv iv)%nat -> io_ess (i_opt iv) = false ->
  (forall i j, (i < i_lv iv)%nat -> (j < i_cols iv)%nat -> ked_at g iv i j = Ok (t i j)) ->
  exists iv' ts, get_ts_WFI g iv = Ok (iv', ts) /\ forall j k, (j < i_cols iv)%nat -> ts k j = t (i_lv iv - 1)%nat j k.
Proof.
  intros g iv t Hl He H. destruct (ked_levels g (i_cols iv) iv t (i_lv iv) H) as (iv' & E & (S1 & S2 & S3 & S4 & S5) & K).
  unfold get_ts_WFI. rewrite He, E. cbn [bind]. do 2 eexists. split; [reflexivity|].
  intros j k Hj. cbv beta. rewrite S3. rewrite (fold_last (fun i => i_ked iv' i j) _ _ Hl (t (i_lv iv - 1)%nat j)); auto.
  rewrite K. destruct (Nat.ltb_spec (i_lv iv - 1) (i_lv iv)); [|lia]. destruct (Nat.ltb_spec j (i_cols iv)); [auto|lia].
Qed.
(** With ens_spin_sym only column 0 is computed; column 1 is whatever the second solver column holds. *)
Theorem ts_WFI_ess : forall g iv t, (1 <= i_lv iv)%nat -> io_ess (i_opt iv) = true ->
  (forall i, (i < i_lv iv)%nat -> ked_at g iv i 0 = Ok (t i)) ->
  exists iv' ts, get_ts_WFI g iv = Ok (iv', ts) /\ (forall k, ts k 0%nat = t (i_lv iv - 1)%nat k) /\
    (i_alias iv = true -> forall k, ts k 1%nat = t (i_lv iv - 1)%nat k) /\
    (i_alias iv = false -> (forall i, i_ked iv i 1%nat = None) -> forall k, ts k 1%nat = 0).
Proof.
  intros g iv t Hl He H.
  destruct (ked_levels g 1 iv (fun i _ => t i) (i_lv iv)) as (iv' & E & (S1 & S2 & S3 & S4 & S5) & K).
  { intros i j Hi Hj. assert (j = 0%nat) as -> by lia. auto. }
  unfold get_ts_WFI. rewrite He, E. cbn [bind]. do 2 eexists. split; [reflexivity|]. rewrite S3. split; [|split].
  - intros k. cbv beta. rewrite (fold_last (fun i => i_ked iv' i 0%nat) _ _ Hl (t (i_lv iv - 1)%nat)); auto.
    rewrite K. destruct (Nat.ltb_spec (i_lv iv - 1) (i_lv iv)); [auto|lia].
  - intros Ha k. cbv beta. rewrite (fold_last (fun i => i_ked iv' i 1%nat) _ _ Hl (t (i_lv iv - 1)%nat)); auto.
    rewrite K, Ha. destruct (Nat.ltb_spec (i_lv iv - 1) (i_lv iv)); [auto|lia].
  - intros Ha Hn k. cbv beta. rewrite (fold_none (fun i => i_ked iv' i 1%nat)); auto.
    intros i Hi. rewrite K, Ha, Hn. destruct (i <? i_lv iv)%nat; reflexivity.
Qed.

(** * Wu-Yang *)
Definition frame (iv iv' : inverter) : Prop :=
  i_opt iv' = i_opt iv /\ i_lv iv' = i_lv iv /\ i_cols iv' = i_cols iv /\ i_vs iv' = i_vs iv /\ i_us iv' = i_us iv.
Lemma frame_refl : forall iv, frame iv iv. Proof. unfold frame; auto. Qed.
Lemma frame_trans : forall a b c, frame a b -> frame b c -> frame a c.
Proof. unfold frame. intros a b c (A & B & C & D & E) (F & G & H & I1 & J). repeat split; congruence. Qed.
Lemma Ws_solver_frame : forall g E spin vs i iv iv', Ws_solver g E spin vs i iv = Ok iv' ->
  frame iv iv' /\ (forall p q, p <> i \/ q <> spin -> i_sol iv' p q = i_sol iv p q) /\
  exists r chi, i_sol iv' i spin = set_result (set_veff (i_sol iv i spin) vs) r /\ v_orb E (set_veff (i_sol iv i spin) vs) = Ok r /\
    i_chi iv' i spin = Some chi /\ calc_response g (v_sps E) (i_sol iv' i spin) = Ok chi /\
    (forall p q, p <> i \/ q <> spin -> i_chi iv' p q = i_chi iv p q).
Proof.
  intros g E spin vs i iv iv' H. unfold Ws_solver in H.
  assert (X : i_sol (inv_setveff iv i spin vs) i spin = set_veff (i_sol iv i spin) vs) by (unfold inv_setveff; cbn [i_sol]; rewrite upd2_same; reflexivity).
  rewrite X in H. destruct (v_orb E (set_veff (i_sol iv i spin) vs)) as [r|] eqn:V; cbn [bind] in H; [|discriminate].
  destruct (calc_density g (set_result (set_veff (i_sol iv i spin) vs) r)); cbn [bind] in H; [|discriminate].
  destruct (calc_energy g (set_result (set_veff (i_sol iv i spin) vs) r)); cbn [bind] in H; [|discriminate].
  destruct (calc_response g (v_sps E) (set_result (set_veff (i_sol iv i spin) vs) r)) as [chi|] eqn:Ch; cbn [bind] in H; [|discriminate].
  assert (Q := f_equal (fun r => match r with Ok a => a | Err _ => iv end) H). cbv beta iota in Q. subst iv'.
  split; [unfold frame; auto 6|]. split.
  - intros p q Hp. unfold inv_chi, inv_solver, inv_setveff. cbn [i_sol]. rewrite !upd2_other by auto. reflexivity.
  - exists r, chi. unfold inv_chi, inv_solver, inv_setveff. cbn [i_sol i_chi]. rewrite !upd2_same. split; [auto|]. split; [auto|].
    split; [auto|]. split; [auto|]. intros p q Hp. rewrite upd2_other by auto. reflexivity.
Qed.
Lemma Ws_frame : forall g E n0 spin vs iv iv' w, Ws g E n0 spin vs iv = Ok (iv', w) ->
  let v := if io_ab (i_opt iv) then avg1 g vs else vs in
  frame iv iv' /\ (spin < i_cols iv)%nat /\
  (forall i, (i < i_lv iv)%nat -> s_veff (i_sol iv' i spin) = v /\
     exists r chi, i_sol iv' i spin = set_result (set_veff (i_sol iv i spin) v) r /\ v_orb E (set_veff (i_sol iv i spin) v) = Ok r /\
       i_chi iv' i spin = Some chi /\ calc_response g (v_sps E) (i_sol iv' i spin) = Ok chi) /\
  (exists c f n, i_vs iv = Some (A2 c f) /\ (spin < c)%nat /\ Ws_density g spin iv' = Ok n /\
     forall k, w k = if (k <? Nelem g)%nat then 1 / n0 k * (n k - n0 k) else f (Nelem g - 1)%nat spin).
Proof.
  intros g E n0 spin vs iv iv' w H v. unfold Ws in H. fold v in H.
  destruct (Nat.ltb_spec spin (i_cols iv)) as [Hs|]; [|discriminate]. cbn [negb] in H.
  destruct (forN (i_lv iv) (fun i iv => Ws_solver g E spin v i iv) iv) as [iv1|] eqn:L; cbn [bind] in H; [|discriminate].
  destruct (Ws_density g spin iv1) as [n|] eqn:D; cbn [bind] in H; [|discriminate].
  assert (I1 := forN_inv _ (fun i iv' => frame iv iv' /\ (forall p, (i <= p)%nat -> i_sol iv' p spin = i_sol iv p spin) /\
     forall p, (p < i)%nat -> s_veff (i_sol iv' p spin) = v /\
     exists r chi, i_sol iv' p spin = set_result (set_veff (i_sol iv p spin) v) r /\ v_orb E (set_veff (i_sol iv p spin) v) = Ok r /\
       i_chi iv' p spin = Some chi /\ calc_response g (v_sps E) (i_sol iv' p spin) = Ok chi) _ _ _ _ L).
  destruct I1 as (F & _ & Q).
  - split; [apply frame_refl|]. split; auto. intros; lia.
  - intros i x y Hi (F & P & Q) W. destruct (Ws_solver_frame _ _ _ _ _ _ _ W) as (F' & O & r & chi & A1' & A2' & A3 & A4 & A5).
    split; [eapply frame_trans; eauto|]. split.
    + intros p Hp. rewrite O by lia. apply P. lia.
    + intros p Hp. destruct (Nat.eq_dec p i) as [->|].
      * rewrite P in A1', A2' by lia. split; [rewrite A1'; reflexivity|]. exists r, chi. auto.
      * rewrite O, A5 by auto. apply Q. lia.
  - split; [|split; [auto|split]].
    + destruct (i_vs iv1) as [[f|c f]|]; cbn [bind] in H; try discriminate.
      destruct (spin <? c)%nat; cbn [bind] in H; [|discriminate]. inversion H; subst. auto.
    + destruct (i_vs iv1) as [[f|c f]|]; cbn [bind] in H; try discriminate.
      destruct (spin <? c)%nat; cbn [bind] in H; [|discriminate]. inversion H; subst. auto.
    + destruct F as (_ & _ & _ & Fv & _). rewrite <- Fv.
      destruct (i_vs iv1) as [[f|c f]|]; cbn [bind] in H; try discriminate.
      destruct (Nat.ltb_spec spin c); cbn [bind] in H; [|discriminate]. inversion H; subst. exists c, f, n. auto.
Qed.
Theorem Ws_gauge : forall g E n0 spin u v iv iv1 iv2 w1 w2, Ws g E n0 spin u iv = Ok (iv1, w1) -> Ws g E n0 spin v iv = Ok (iv2, w2) ->
  w1 (Nelem g) = w2 (Nelem g).
Proof.
  intros g E n0 spin u v iv iv1 iv2 w1 w2 H1 H2.
  destruct (Ws_frame _ _ _ _ _ _ _ _ H1) as (_ & _ & _ & c1 & f1 & n1 & A & _ & _ & B).
  destruct (Ws_frame _ _ _ _ _ _ _ _ H2) as (_ & _ & _ & c2 & f2 & n2 & C & _ & _ & D).
  rewrite A in C. inversion C; subst. rewrite B, D. destruct (Nat.ltb_spec (Nelem g) (Nelem g)); [lia|auto].
Qed.
Theorem Jac_gauge : forall g n0 spin iv J, Jacobian g n0 spin iv = Ok J -> io_ab (i_opt iv) = false ->
  forall c, J (Nelem g) c = if (c =? Nelem g - 1)%nat then 1 else 0.
Proof.
  intros g n0 spin iv J H Ha c. unfold Jacobian in H. destruct (i_chi iv 0%nat spin); [|discriminate]. cbn [need bind] in H. inversion H; subst.
  destruct (Nat.ltb_spec (Nelem g) (Nelem g)); [lia|]. unfold Jac_last. rewrite Ha. reflexivity.
Qed.
Theorem Jac_gauge_ab : forall g n0 spin iv J, Jacobian g n0 spin iv = Ok J -> io_ab (i_opt iv) = true ->
  forall c, J (Nelem g) c = ((if (c =? Nelem g - 1)%nat then 1 else 0) + mirror1 g (fun c => if (c =? Nelem g - 1)%nat then 1 else 0) c) / 2.
Proof.
  intros g n0 spin iv J H Ha c. unfold Jacobian in H. destruct (i_chi iv 0%nat spin); [|discriminate]. cbn [need bind] in H. inversion H; subst.
  destruct (Nat.ltb_spec (Nelem g) (Nelem g)); [lia|]. unfold Jac_last. rewrite Ha. unfold avg1. field.
Qed.
Theorem Jac_rows : forall g E n0 spin vs iv iv' w, (1 <= i_lv iv)%nat -> Ws g E n0 spin vs iv = Ok (iv', w) ->
  exists chi J, calc_response g (v_sps E) (i_sol iv' 0%nat spin) = Ok chi /\ Jacobian g n0 spin iv' = Ok J /\
    forall r c, (r < Nelem g)%nat -> J r c = chi r c / n0 r.
Proof.
  intros g E n0 spin vs iv iv' w Hl H. destruct (Ws_frame _ _ _ _ _ _ _ _ H) as (_ & _ & Q & _).
  destruct (Q 0%nat ltac:(lia)) as (_ & r & chi & _ & _ & A & B). exists chi. unfold Jacobian. rewrite A. cbn [need bind].
  eexists. split; [auto|]. split; [reflexivity|]. intros r0 c Hr. cbv beta. destruct (Nat.ltb_spec r0 (Nelem g)); [|lia]. unfold Rdiv. ring.
Qed.
Lemma Jac_need : forall g n0 spin iv, i_chi iv 0%nat spin = None -> Jacobian g n0 spin iv = Err TypeError.
Proof. intros. unfold Jacobian. rewrite H. reflexivity. Qed.
(** The density of a spin column is the sum over the levels, symmetrised on request. *)
Lemma Ws_density_sum : forall g spin iv d, (forall i, (i < i_lv iv)%nat -> calc_density g (i_sol iv i spin) = Ok (d i)) ->
  exists n, Ws_density g spin iv = Ok n /\ (io_ab (i_opt iv) = false -> forall k, n k = sumR (i_lv iv) (fun i => d i k)) /\
    (io_ab (i_opt iv) = true -> forall k, (k < Nelem g)%nat -> n k = (sumR (i_lv iv) (fun i => d i k) + mirror1 g (fun k => sumR (i_lv iv) (fun i => d i k)) k) / 2).
Proof.
  intros g spin iv d H. unfold Ws_density.
  assert (Q : forall lv, (lv <= i_lv iv)%nat -> exists n, forN lv (fun i acc => do d0 <- calc_density g (i_sol iv i spin); Ok (fun k => acc k + d0 k)) (fun _ => 0) = Ok n /\
     forall k, n k = sumR lv (fun i => d i k)).
  { induction lv; intros Hl; [exists (fun _ => 0); split; auto|]. destruct IHlv as (n & E & F); [lia|]. simpl. rewrite E. cbn [bind]. rewrite (H lv) by lia. cbn [bind].
    eexists. split; [reflexivity|]. intros k. cbv beta. rewrite F. reflexivity. }
  destruct (Q _ (le_n _)) as (n & E & F). rewrite E. cbn [bind]. eexists. split; [reflexivity|]. split; intros Ha; rewrite Ha; auto.
  intros k Hk. unfold avg1. rewrite F. rewrite (mirror1_ext R g n (fun k => sumR (i_lv iv) (fun i => d i k))) by auto. field.
Qed.
Theorem Ws_zero : forall g E n0 spin vs iv iv' w, Ws g E n0 spin vs iv = Ok (iv', w) ->
  (forall k, (k < Nelem g)%nat -> n0 k <> 0) -> (forall k, (k < Nelem g)%nat -> w k = 0) ->
  exists n, Ws_density g spin iv' = Ok n /\ forall k, (k < Nelem g)%nat -> n k = n0 k.
Proof.
  intros g E n0 spin vs iv iv' w H Hn Hw. destruct (Ws_frame _ _ _ _ _ _ _ _ H) as (_ & _ & _ & c & f & n & _ & _ & D & W).
  exists n. split; auto. intros k Hk. specialize (Hw k Hk). rewrite W in Hw. destruct (Nat.ltb_spec k (Nelem g)); [|lia].
  apply Rmult_integral in Hw. destruct Hw as [Hw|Hw]; [|lra]. exfalso. unfold Rdiv in Hw. rewrite Rmult_1_l in Hw.
  revert Hw. apply Rinv_neq_0_compat. auto.
Qed.

Lemma lsq_frame : forall g E n0 spin x0 iv iv' x inf, lsq_run g E n0 spin x0 iv = Ok (iv', x, inf) ->
  frame iv iv' /\ (exists tr, v_lsq E iv spin x0 = (tr, x, inf) /\
    (forall u tr', tr = (tr' ++ [u])%list -> forall i, (i < i_lv iv)%nat ->
       s_veff (i_sol iv' i spin) = if io_ab (i_opt iv) then avg1 g u else u)).
Proof.
  intros g E n0 spin x0 iv iv' x inf H. unfold lsq_run in H. destruct (v_lsq E iv spin x0) as [[tr x1] inf1] eqn:L.
  destruct (fold_left (fun r v => do iv0 <- r; do p <- Ws g E n0 spin v iv0; Ok (fst p)) tr (Ok iv)) as [iv1|] eqn:F; cbn [bind] in H; [|discriminate].
  inversion H; subst. clear H.
  assert (Q : forall tr iv1, fold_left (fun r v => do iv0 <- r; do p <- Ws g E n0 spin v iv0; Ok (fst p)) tr (Ok iv) = Ok iv1 -> frame iv iv1).
  { clear. induction tr as [|u tr IH] using rev_ind; intros iv1 F; simpl in F; [inversion F; apply frame_refl|].
    rewrite fold_left_app in F. simpl in F.
    destruct (fold_left (fun r v => do iv0 <- r; do p <- Ws g E n0 spin v iv0; Ok (fst p)) tr (Ok iv)) as [iv2|]; cbn [bind] in F; [|discriminate].
    destruct (Ws g E n0 spin u iv2) as [[iv3 w]|] eqn:W; cbn [bind] in F; [|discriminate]. inversion F; subst.
    destruct (Ws_frame _ _ _ _ _ _ _ _ W) as (A & _). eapply frame_trans; [apply IH; auto|exact A]. }
  split; [apply (Q tr); auto|]. exists tr. split; auto. intros u tr' -> i Hi. rewrite fold_left_app in F. simpl in F.
  destruct (fold_left (fun r v => do iv0 <- r; do p <- Ws g E n0 spin v iv0; Ok (fst p)) tr' (Ok iv)) as [iv2|] eqn:F2; cbn [bind] in F; [|discriminate].
  destruct (Ws g E n0 spin u iv2) as [[iv3 w]|] eqn:W; cbn [bind] in F; [|discriminate]. inversion F; subst.
  destruct (Q _ _ F2) as (A & B & _). destruct (Ws_frame _ _ _ _ _ _ _ _ W) as (_ & _ & V & _).
  rewrite A in V. apply V. rewrite B. auto.
Qed.

(** One spin column: the stored potential is least_squares' answer, the solvers keep the last potential tried. *)
Theorem wuyang_unpolarised : forall g E n0a vs0 iv iv' out, fst (as_cols n0a) = 1%nat -> io_ess (i_opt iv) = false ->
  linresponse g E n0a vs0 iv = Ok (iv', out) ->
  exists guess iv0 tr x inf h c, lin_guess 1 iv vs0 = Ok (A2 c guess) /\ (1 <= c)%nat /\ (1 <= i_cols iv)%nat /\
    i_sol iv0 = i_sol iv /\ i_opt iv0 = i_opt iv /\
    v_lsq E iv0 0 (fun k => guess k 0%nat) = (tr, x, inf) /\
    (exists f, i_vs iv' = Some (A2 c f) /\ forall k, f k 0%nat = x k) /\
    get_homo (i_sol iv' 0%nat 0%nat) = Ok h /\ (exists u, i_us iv' = Some (U2 1 1 u) /\ u 0%nat 0%nat = h) /\
    (exists o, out = OArr (i_lv iv) (i_cols iv) o /\ forall i j, o i j = if (j =? 0)%nat then Some inf else None) /\
    (forall u tr', tr = (tr' ++ [u])%list -> forall i, (i < i_lv iv)%nat -> s_veff (i_sol iv' i 0%nat) = if io_ab (i_opt iv) then avg1 g u else u).
Proof.
  intros g E n0a vs0 iv iv' out Hp He H. unfold linresponse in H. destruct (as_cols n0a) as [pol n0]. simpl in Hp. subst pol.
  destruct (lin_guess 1 iv vs0) as [guess|] eqn:G; cbn [bind] in H; [|discriminate]. rewrite He in H.
  set (iv0 := inv_us (inv_vs iv (Some match guess with A1 _ => A1 (fun _ => 0) | A2 c _ => A2 c (fun _ _ => 0) end)) (Some (U2 1 1 (fun _ _ => 0)))) in H.
  cbn [forN bind] in H. unfold lin_spin in H.
  destruct (Nat.ltb_spec 0 (i_cols iv0)) as [Hc|]; cbn [negb bind] in H; [|discriminate].
  destruct guess as [f|c f]; cbn [bind] in H; [discriminate|]. unfold column in H.
  destruct (Nat.ltb_spec 0 c); cbn [bind] in H; [|discriminate].
  destruct (lsq_run g E (fun k => n0 k 0%nat) 0 (fun k => f k 0%nat) iv0) as [[[iv1 x] inf]|] eqn:L; cbn [bind] in H; [|discriminate].
  destruct (lsq_frame _ _ _ _ _ _ _ _ _ L) as ((F1 & F2 & F3 & F4 & F5) & tr & T1 & T2).
  rewrite F4, F5 in H. unfold iv0 in H at 1. cbn [i_vs i_us inv_us inv_vs set_vcol] in H. destruct (Nat.ltb_spec 0 c); [|lia]. cbn [bind] in H.
  destruct (get_homo (i_sol iv1 0%nat 0%nat)) as [h|] eqn:Hh; cbn [bind] in H; [|discriminate].
  unfold iv0 in H at 1. cbn [i_vs i_us inv_us inv_vs set_urow] in H. cbn [Nat.ltb Nat.leb bind fst snd] in H.
  assert (Y1 := f_equal (fun r => match r with Ok (i, _) => i | Err _ => iv end) H).
  assert (Y2 := f_equal (fun r => match r with Ok (_, i) => i | Err _ => out end) H). cbv beta iota in Y1, Y2. clear H.
  exists f, iv0, tr, x, inf, h, c. split; [auto|]. split; [lia|]. split; [exact Hc|]. split; [reflexivity|]. split; [reflexivity|]. split; [auto|].
  rewrite <- Y1. cbn [i_vs i_us i_sol inv_us inv_vs]. split; [eexists; split; [reflexivity|]; intros; reflexivity|].
  split; [auto|]. split; [eexists; split; [reflexivity|]; reflexivity|].
  split; [eexists; split; [symmetry; exact Y2|]; intros; reflexivity|].
  intros u tr' Ht i Hi. apply (T2 u tr'); auto.
Qed.
(** No potential to start from: an unbound name, or arrays that do not fit. *)
Theorem wuyang_no_guess : forall g E n0a iv, i_vset iv 0%nat 0%nat = false ->
  linresponse g E n0a None iv = Err (if (fst (as_cols n0a) =? 1)%nat then NameError else ValueError).
Proof. intros g E n0a iv H. unfold linresponse. destruct (as_cols n0a) as [pol n0]. unfold lin_guess. rewrite H. reflexivity. Qed.
(** The start: a potential the first solver already has is preferred to the given one. *)
Theorem wuyang_start : forall pol iv vs0 c f, lin_guess pol iv vs0 = Ok (A2 c f) ->
  (i_vset iv 0%nat 0%nat = true -> c = 1%nat /\ forall k, f k 0%nat = s_veff (i_sol iv 0%nat 0%nat) k) /\
  (i_vset iv 0%nat 0%nat = false -> vs0 = Some (A2 c f)).
Proof.
  intros pol iv vs0 c f H. unfold lin_guess in H. destruct (i_vset iv 0%nat 0%nat).
  - injection H as <- <-. split; [auto|discriminate].
  - destruct vs0 as [a|]; [|discriminate]. injection H as ->. split; [discriminate|auto].
Qed.
(** More spin columns. *)
Theorem wuyang_polarised_never : forall g E n0a vs0 iv r, (2 <= fst (as_cols n0a))%nat -> io_ess (i_opt iv) = false ->
  linresponse g E n0a vs0 iv <> Ok r.
Proof.
  intros g E n0a vs0 iv r Hp He H. unfold linresponse in H. destruct (as_cols n0a) as [pol n0]. simpl in Hp.
  destruct (lin_guess _ iv vs0) as [guess|] eqn:G; cbn [bind] in H; [|discriminate]. rewrite He in H.
  match type of H with context [forN pol (lin_spin g E n0 guess) (?A, _)] => set (iv0 := A) in H end.
  destruct (forN pol (lin_spin g E n0 guess) (iv0, fun _ _ => None)) as [[iv1 o]|] eqn:L; cbn [bind] in H; [|discriminate].
  assert (Q := forN_inv _ (fun i (st : inverter * (nat -> nat -> option info)) =>
     (exists u, i_us (fst st) = Some (U2 1 pol u)) /\ (i <= 1)%nat) _ _ _ _ L). cbv beta in Q. cbn [fst] in Q.
  destruct Q as [_ Q]; [split; [eexists; reflexivity|lia]| |lia].
  intros i [a oa] [b ob] Hi [[u U] Hi1] S1. cbn [fst] in *. unfold lin_spin in S1.
  destruct (negb (i <? i_cols a)%nat); [discriminate|].
  match type of S1 with bind ?X _ = _ => destruct X as [x0|] end; cbn [bind] in S1; [|discriminate].
  destruct (lsq_run g E (fun k => n0 k i) i x0 a) as [[[a1 x] inf]|] eqn:Q; cbn [bind] in S1; [|discriminate].
  destruct (lsq_frame _ _ _ _ _ _ _ _ _ Q) as ((F1 & F2 & F3 & F4 & F5) & _).
  destruct (set_vcol (i_vs a1) i x) as [vs'|]; cbn [bind] in S1; [|discriminate].
  destruct (get_homo (i_sol a1 0%nat i)) as [h|]; cbn [bind] in S1; [|discriminate].
  rewrite F5, U in S1. unfold set_urow in S1. destruct (Nat.ltb_spec i 1); cbn [bind] in S1; [|discriminate].
  assert (Y1 := f_equal (fun r => match r with Ok (i, _) => i | Err _ => a end) S1). cbv beta iota in Y1. rewrite <- Y1.
  split; [|lia]. cbn [i_us inv_us]. eexists. reflexivity.
Qed.
Lemma lin_spin_form : forall g E n0 c f i iv o iv1 x inf h cv fv r cu u, (i < i_cols iv)%nat -> (i < c)%nat ->
  lsq_run g E (fun k => n0 k i) i (fun k => f k i) iv = Ok (iv1, x, inf) -> get_homo (i_sol iv1 0%nat i) = Ok h ->
  i_vs iv = Some (A2 cv fv) -> (i < cv)%nat -> i_us iv = Some (U2 r cu u) ->
  lin_spin g E n0 (A2 c f) i (iv, o) = if (i <? r)%nat then
    Ok (inv_us (inv_vs iv1 (Some (A2 cv (fun k s => if (s =? i)%nat then x k else fv k s)))) (Some (U2 r cu (fun k s => if (k =? i)%nat then h else u k s))),
        fun p q => if (q =? i)%nat then Some inf else o p q) else Err IndexError.
Proof.
  intros g E n0 c f i iv o iv1 x inf h cv fv r cu u Hi Hc L Hh Hv Hcv Hu. unfold lin_spin.
  destruct (Nat.ltb_spec i (i_cols iv)); [|lia]. cbn [negb]. unfold column. destruct (Nat.ltb_spec i c); [|lia]. cbn [bind].
  rewrite L. cbn [bind]. destruct (lsq_frame _ _ _ _ _ _ _ _ _ L) as ((F1 & F2 & F3 & F4 & F5) & _).
  rewrite F4, Hv. cbn [set_vcol]. destruct (Nat.ltb_spec i cv); [|lia]. cbn [bind]. rewrite Hh. cbn [bind]. rewrite F5, Hu. cbn [set_urow].
  destruct (i <? r)%nat; reflexivity.
Qed.
(** The exception, when the numerical libraries do their part. *)
Theorem wuyang_polarised_error : forall g E n0 c f iv, io_ess (i_opt iv) = false -> (2 <= i_cols iv)%nat -> (2 <= c)%nat ->
  i_vset iv 0%nat 0%nat = false ->
  (forall iv0 i x0, (i < 2)%nat -> i_cols iv0 = i_cols iv -> exists iv1 x inf h, lsq_run g E (fun k => n0 k i) i x0 iv0 = Ok (iv1, x, inf) /\ get_homo (i_sol iv1 0%nat i) = Ok h) ->
  linresponse g E (A2 2 n0) (Some (A2 c f)) iv = Err IndexError.
Proof.
  intros g E n0 c f iv He Hc Hc2 Hv Hl. unfold linresponse, as_cols, lin_guess. rewrite Hv. cbn [bind]. rewrite He.
  set (iv0 := inv_us (inv_vs iv (Some (A2 c (fun _ _ => 0)))) (Some (U2 1 2 (fun _ _ => 0)))).
  cbn [forN bind].
  destruct (Hl iv0 0%nat (fun k => f k 0%nat) ltac:(lia) eq_refl) as (iv1 & x & inf & h & L & Hh).
  destruct (lsq_frame _ _ _ _ _ _ _ _ _ L) as ((F1 & F2 & F3 & F4 & F5) & _).
  rewrite (lin_spin_form g E n0 c f 0 iv0 _ iv1 x inf h c (fun _ _ => 0) 1 2 (fun _ _ => 0)) by (auto; simpl; lia).
  cbn [Nat.ltb Nat.leb bind]. match goal with |- context [lin_spin _ _ _ _ 1 (?A, _)] => set (iv2 := A) end.
  assert (C2 : i_cols iv2 = i_cols iv) by (unfold iv2; simpl; rewrite F3; reflexivity).
  destruct (Hl iv2 1%nat (fun k => f k 1%nat) ltac:(lia) C2) as (iv3 & x' & inf' & h' & L' & Hh').
  erewrite (lin_spin_form g E n0 c f 1 iv2 _ iv3 x' inf' h' c _ 1 2 _); [reflexivity|rewrite C2; lia|lia|auto|auto|reflexivity|lia|reflexivity].
Qed.
(** ens_spin_sym: one column is inverted and copied; the second solver gets the potential but keeps its old orbitals. *)
Theorem wuyang_ess : forall g E n0a vs0 iv iv' out, io_ess (i_opt iv) = true -> linresponse g E n0a vs0 iv = Ok (iv', out) ->
  exists x c f h u, i_vs iv' = Some (A2 (2 * c) f) /\ (1 <= c)%nat /\ (forall k, f k 0%nat = x k /\ f k c = x k) /\
    i_us iv' = Some (U2 1 (2 * fst (as_cols n0a)) u) /\ (forall j, u 0%nat j = h) /\ get_homo (i_sol iv' 0%nat 0%nat) = Ok h /\
    (2 <= i_cols iv)%nat /\ s_veff (i_sol iv' 0%nat 1%nat) = x.
Proof.
  intros g E n0a vs0 iv iv' out He H. unfold linresponse in H. destruct (as_cols n0a) as [pol n0]. cbn [fst].
  destruct (lin_guess _ iv vs0) as [guess|] eqn:G; cbn [bind] in H; [|discriminate]. rewrite He in H.
  destruct (pol =? 0)%nat; [discriminate|].
  match type of H with context [lsq_run _ _ _ _ _ ?A] => set (iv0 := A) in H end.
  destruct guess as [f|c f]; cbn [bind] in H; [discriminate|]. unfold column in H.
  destruct (Nat.ltb_spec 0 c) as [Hc|]; cbn [bind] in H; [|discriminate].
  destruct (lsq_run g E (fun k => n0 k 0%nat) 0 (fun k => f k 0%nat) iv0) as [[[iv1 x] inf]|] eqn:L; cbn [bind] in H; [|discriminate].
  destruct (lsq_frame _ _ _ _ _ _ _ _ _ L) as ((F1 & F2 & F3 & F4 & F5) & _).
  rewrite F4, F5 in H. unfold iv0 in H at 1. cbn [i_vs i_us inv_us inv_vs set_vcol] in H. destruct (Nat.ltb_spec 0 c); [|lia]. cbn [bind] in H.
  destruct (get_homo (i_sol iv1 0%nat 0%nat)) as [h|] eqn:Hh; cbn [bind] in H; [|discriminate].
  unfold iv0 in H at 1. cbn [i_vs i_us inv_us inv_vs set_urow] in H. change (0 <? 1)%nat with true in H. cbn [bind fst snd] in H.
  destruct (Nat.ltb_spec 1 (i_cols iv)); cbn [negb] in H; [|discriminate].
  assert (Y1 := f_equal (fun r => match r with Ok (i, _) => i | Err _ => iv end) H). cbv beta iota in Y1. clear H.
  rewrite <- Y1. cbn [i_vs i_us inv_setveff inv_us inv_vs dup_vs dup_us i_sol]. exists x, c. do 3 eexists. 
  split; [reflexivity|]. split; [lia|]. split.
  { intros k. unfold dup_cols. destruct (Nat.ltb_spec 0 c); [|lia]. destruct (Nat.ltb_spec c c); [lia|]. rewrite Nat.sub_diag. auto. }
  split; [reflexivity|]. split.
  { intros j. unfold dup_cols. simpl. destruct (j <? pol)%nat; reflexivity. }
  split; [rewrite upd2_other by auto; exact Hh|]. split; [lia|]. rewrite upd2_same. reflexivity.
Qed.

(** * The kinetic potential *)
Theorem vt_orbital : forall g E n0 phi0 e0 vs0 sp iv iv' flag out,
  orbitalinvert g E n0 phi0 e0 vs0 sp iv = Ok (iv', flag, out) -> i_vs iv = None -> i_us iv = None ->
  exists h vt, get_homo (i_sol iv' 0%nat sp) = Ok h /\ get_vt g iv' = Ok (Nelem g, i_cols iv, vt) /\
    (forall k, (k < Nelem g)%nat -> vt k sp = (if (k =? sp)%nat then h else 0) - s_veff (i_sol iv' 0%nat sp) k) /\
    (forall k t, (k < Nelem g)%nat -> (t < i_cols iv)%nat -> t <> sp -> vt k t = if (k =? sp)%nat then h else 0).
Proof.
  intros g E n0 phi0 e0 vs0 sp iv iv' flag out H Hv Hu.
  destruct (orbitalinvert_inv _ _ _ _ _ _ _ _ _ _ _ H) as (x & s1 & it & r & h & vs & us & _ & Hsp & _ & _ & _ & _ & Hs & _ & _ & _ & _ & _ & Hh & V & U & M & Hsn).
  rewrite Hv, Hu in M. destruct M as [-> ->]. rewrite Hu in Hsn. exists h. unfold get_vt. rewrite U, V. cbn [need bind].
  assert (B : forall a, bdim a a = Some a) by (intros; unfold bdim; rewrite Nat.eqb_refl; auto).
  rewrite !B. eexists. split; [rewrite Hs; exact Hh|]. split; [reflexivity|]. rewrite Hs. cbn [s_veff set_veff].
  assert (X : forall a k, (k < a)%nat -> bix a k = k) by (intros a k Hk; unfold bix; destruct (Nat.eqb_spec a 1); lia).
  split.
  - intros k Hk. cbv beta. rewrite !X by auto. rewrite Nat.eqb_refl. reflexivity.
  - intros k t Hk Ht Hne. cbv beta. rewrite !X by auto. destruct (Nat.eqb_spec t sp); [lia|]. ring.
Qed.
(** Fully occupied orbitals: the top eigenvalue is 0 by convention and the kinetic potential is minus the potential. *)
Theorem vt_orbital_full : forall g E n0 phi0 e0 vs0 sp iv iv' flag out,
  orbitalinvert g E n0 phi0 e0 vs0 sp iv = Ok (iv', flag, out) -> i_vs iv = None -> i_us iv = None ->
  let s := i_sol iv 0%nat sp in s_N s = INR (s_Nmo s) * shell_size 0 (s_pol s) -> (1 <= s_Nmo s)%nat ->
  exists vt, get_vt g iv' = Ok (Nelem g, i_cols iv, vt) /\ forall k, (k < Nelem g)%nat -> vt k sp = - s_veff (i_sol iv' 0%nat sp) k.
Proof.
  intros g E n0 phi0 e0 vs0 sp iv iv' flag out H Hv Hu s HN HM.
  destruct (vt_orbital _ _ _ _ _ _ _ _ _ _ _ H Hv Hu) as (h & vt & Hh & G & V & _). exists vt. split; auto. intros k Hk. rewrite V by auto.
  destruct (orbitalinvert_inv _ _ _ _ _ _ _ _ _ _ _ H) as (x & s1 & it & r & h' & vs & us & _ & Hsp & Hm & _ & (S1 & S2 & S3 & S4 & S5 & S6) & _ & Hs & _ & _ & _ & _ & _ & Hh' & _).
  fold s in Hm, S1, S2, S3, S4, S5, S6, Hs, Hh'.
  assert (Z0 : h = 0).
  { rewrite Hs in Hh. assert (Q : get_homo (o_store g (s_Nmo s) x s1) = Ok h) by exact Hh.
    destruct (o_store_homo g (s_Nmo s) x s1 ltac:(rewrite S1, S2, S3, Hm; exact HN) HM) as [Q' _]. congruence. }
  rewrite Z0. destruct (k =? sp)%nat; ring.
Qed.
Theorem vt_wuyang : forall g iv c f u, i_vs iv = Some (A2 c f) -> i_us iv = Some (U2 1 1 u) -> (1 <= c)%nat ->
  exists vt, get_vt g iv = Ok (Nelem g, c, vt) /\ forall k s, (k < Nelem g)%nat -> (s < c)%nat -> vt k s = u 0%nat 0%nat - f k s.
Proof.
  intros g iv c f u Hv Hu Hc. unfold get_vt. rewrite Hv, Hu. cbn [need bind].
  assert (B1 : bdim (Nelem g) 1 = Some (Nelem g)) by (unfold bdim; destruct (Nat.eqb_spec (Nelem g) 1) as [->|]; auto).
  assert (B2 : bdim (Nelem g) (Nelem g) = Some (Nelem g)) by (unfold bdim; rewrite Nat.eqb_refl; auto).
  assert (B3 : bdim 1 c = Some c) by (unfold bdim; destruct (Nat.eqb_spec 1 c) as [<-|]; auto).
  rewrite B1, B2, B3. eexists. split; [reflexivity|]. intros k s Hk Hs. cbv beta.
  assert (X : forall a k, (k < a)%nat -> bix a k = k) by (intros a k0 Hk0; unfold bix; destruct (Nat.eqb_spec a 1); lia).
  rewrite (X (Nelem g) k), (X c s) by auto. reflexivity.
Qed.
(** After simple the kinetic potential is a square array. *)
Theorem vt_simple : forall g iv f r, i_vs iv = Some (A1 f) -> i_us iv = Some (U0 r) ->
  exists vt, get_vt g iv = Ok (Nelem g, Nelem g, vt) /\ forall k l, (k < Nelem g)%nat -> (l < Nelem g)%nat -> vt k l = r - f l.
Proof.
  intros g iv f r Hv Hu. unfold get_vt. rewrite Hv, Hu. cbn [need bind].
  assert (B1 : bdim (Nelem g) 1 = Some (Nelem g)) by (unfold bdim; destruct (Nat.eqb_spec (Nelem g) 1) as [->|]; auto).
  assert (B3 : bdim 1 (Nelem g) = Some (Nelem g)) by (unfold bdim; destruct (Nat.eqb_spec 1 (Nelem g)) as [<-|]; auto).
  rewrite !B1, B3. eexists. split; [reflexivity|]. intros k l Hk Hl. cbv beta.
  assert (X : forall a k, (k < a)%nat -> bix a k = k) by (intros a k0 Hk0; unfold bix; destruct (Nat.eqb_spec a 1); lia).
  rewrite (X (Nelem g) l) by auto. reflexivity.
Qed.
Lemma vt_none : forall g iv, i_us iv = None -> get_vt g iv = Err TypeError.
Proof. intros. unfold get_vt. rewrite H. reflexivity. Qed.

(** * simple *)
Lemma simple_guess_half : forall g n k, simple_guess g n k = (vW_potential g n k - vW_potential g n (Nelem g - 1)) / 2.
Proof.
  intros. unfold simple_guess, vW_potential. unfold Rdiv.
  assert (Q : forall y z, 1 * / 2 * (1 * / 2 * z) * / y = z * / (2 * y) * / 2).
  { intros. rewrite Rinv_mult. lra. }
  rewrite !Q. ring.
Qed.
(** The potential of a single doubly occupied orbital (m = 0) is its von Weizsaecker potential. *)
Lemma vW_one_orbital : forall g v e p n, (forall k, (k < Nelem g)%nat -> 0 < gw g k) -> (forall k, (k < Nelem g)%nat -> 0 < p k) ->
  (forall k, (k < Nelem g)%nat -> n k = p k ^ 2) ->
  (forall k, (k < Nelem g)%nat -> schroed g (hamiltonian g 0) v e p k = 0) ->
  forall k, (k < Nelem g)%nat -> v k - e = vW_potential g n k.
Proof.
  intros g v e p n Hw Hp Hn Hs k Hk. specialize (Hs k Hk). unfold schroed in Hs. unfold vW_potential.
  assert (SQ : forall l, (l < Nelem g)%nat -> sqrt (n l) = p l) by (intros l Hl; rewrite Hn by auto; apply sqrt_pow2; specialize (Hp l Hl); lra).
  rewrite SQ by auto.
  assert (L : gapply g (elap g) (fun x => sqrt (n x)) k = gapply g (elap g) p k).
  { unfold gapply, matvec. apply sumR_ext. intros. rewrite SQ by auto. reflexivity. }
  rewrite L. 
  assert (HH : sumR (Nelem g) (fun l => hamiltonian g 0 k l * p l) = - (1 / 2) * gapply g (elap g) p k).
  { unfold gapply, matvec. rewrite <- sumR_scal. apply sumR_ext. intros. unfold hamiltonian, diagflat. cbn [Z.modulo Z.div_eucl Z.eqb fst snd].
    change (0 mod 2 =? 0)%Z with true. cbv iota. destruct (k =? i)%nat; simpl; ring. }
  rewrite HH in Hs. specialize (Hw k Hk). specialize (Hp k Hk).
  apply (Rmult_eq_reg_r (gw g k * p k)); [|apply Rgt_not_eq; apply Rmult_lt_0_compat; auto].
  replace (gapply g (elap g) p k / (2 * (p k * gw g k)) * (gw g k * p k)) with (gapply g (elap g) p k / 2) by (field; lra). lra.
Qed.
Lemma simple_density_one : forall g iv, i_lv iv = 1%nat -> i_cols iv = 1%nat ->
  simple_density g iv = do n <- calc_density g (i_sol iv 0%nat 0%nat); Ok (fun k => 0 + n k).
Proof. intros g iv L C. unfold simple_density. rewrite L, C. simpl. reflexivity. Qed.
Lemma simple_density_two : forall g iv n, (1 <= i_lv iv)%nat -> (2 <= i_cols iv)%nat -> simple_density g iv <> Ok n.
Proof.
  intros g iv n L C H. unfold simple_density in H.
  assert (Q := forN_inv _ (fun j (_ : vec) => (j <= 1)%nat) _ _ _ _ H). cbv beta in Q.
  enough (i_cols iv <= 1)%nat by lia. apply Q; [lia|]. intros j x y Hj Hj1 S1. destruct (Nat.eq_dec j 0); [lia|]. exfalso.
  destruct (i_lv iv) as [|lv]; [lia|]. simpl in S1.
  match type of S1 with bind ?X _ = _ => destruct X end; cbn [bind] in S1; [|discriminate].
  destruct (calc_density g (i_sol iv lv j)); cbn [bind] in S1; [|discriminate]. destruct (Nat.eqb_spec j 0); [lia|discriminate].
Qed.
Lemma maxabs_ext : forall n f h, (forall i, (i < n)%nat -> f i = h i) -> maxabs n f = maxabs n h.
Proof. induction n; intros f h H; simpl; auto. rewrite (IHn f h) by auto. rewrite H by lia. reflexivity. Qed.
Lemma grad_rel : forall n0 n : vec, (fun k => 1 / n0 k * (0 + n k - n0 k)) = rel_err n0 n.
Proof. intros. apply FunctionalExtensionality.functional_extensionality. intros k. unfold rel_err, Rdiv. ring. Qed.
Lemma simple_loop_run : forall g E n0 tol v0 s0 fuel p opt v iv iv' vs, i_lv iv = 1%nat -> i_cols iv = 1%nat ->
  fp_run g E n0 tol v0 s0 p opt v (i_sol iv 0%nat 0%nat) -> simple_loop g E n0 tol opt fuel v iv = Ok (iv', vs) ->
  exists p' opt', fp_run g E n0 tol v0 s0 p' opt' vs (i_sol iv' 0%nat 0%nat) /\ (p <= p' <= p + fuel)%nat /\ (opt' <= tol \/ p' = (p + fuel)%nat) /\
    i_lv iv' = 1%nat /\ i_cols iv' = 1%nat /\ i_opt iv' = i_opt iv.
Proof.
  intros g E n0 tol v0 s0. induction fuel; intros p opt v iv iv' vs L C R H; simpl in H.
  - inversion H; subst. exists p, opt. split; [auto|]. split; [lia|]. split; [right; lia|auto].
  - destruct (Rlt_dec tol opt) as [T|T].
    2: { inversion H; subst. exists p, opt. split; [auto|]. split; [lia|]. split; [left; lra|auto]. }
    destruct (simple_step g E n0 v iv) as [[[iv1 v1] o1]|] eqn:S1; cbn [bind] in H; [|discriminate].
    unfold simple_step in S1. rewrite L, C in S1. cbn [Nat.sub] in S1.
    assert (X : i_sol (inv_setveff iv 0 0 v) 0%nat 0%nat = set_veff (i_sol iv 0%nat 0%nat) v) by (unfold inv_setveff; cbn [i_sol]; rewrite upd2_same; reflexivity).
    rewrite X in S1. destruct (v_orb E (set_veff (i_sol iv 0%nat 0%nat) v)) as [r|] eqn:V; cbn [bind] in S1; [|discriminate].
    rewrite simple_density_one in S1 by auto.
    assert (Y : i_sol (inv_solver (inv_setveff iv 0 0 v) 0 0 (set_result (set_veff (i_sol iv 0%nat 0%nat) v) r)) 0%nat 0%nat = set_result (set_veff (i_sol iv 0%nat 0%nat) v) r)
      by (unfold inv_solver; cbn [i_sol]; rewrite upd2_same; reflexivity).
    rewrite Y in S1. destruct (calc_density g (set_result (set_veff (i_sol iv 0%nat 0%nat) v) r)) as [n|] eqn:D; cbn [bind] in S1; [|discriminate].
    rewrite (grad_rel n0 n) in S1.
    assert (W : (fun k => v k + 1 / 10 * (1 / n0 k * (0 + n k - n0 k))) = (fun k => v k + rel_err n0 n k / 10)).
    { apply FunctionalExtensionality.functional_extensionality. intros k. unfold rel_err, Rdiv. ring. }
    rewrite W in S1.
    assert (Q1 := f_equal (fun r => match r with Ok (i, _, _) => i | Err _ => iv end) S1).
    assert (Q2 := f_equal (fun r => match r with Ok (_, i, _) => i | Err _ => v end) S1).
    assert (Q3 := f_equal (fun r => match r with Ok (_, _, i) => i | Err _ => 0 end) S1). cbv beta iota in Q1, Q2, Q3.
    assert (SS : i_sol iv1 0%nat 0%nat = set_veff (set_result (set_veff (i_sol iv 0%nat 0%nat) v) r) (fun k => v k + rel_err n0 n k / 10)).
    { rewrite <- Q1. unfold inv_setveff at 1. cbn [i_sol]. rewrite upd2_same. unfold inv_solver. cbn [i_sol]. rewrite upd2_same. reflexivity. }
    destruct (IHfuel (S p) o1 v1 iv1 iv' vs) as (p' & opt' & A & B & C' & D' & E' & F'); auto.
    + rewrite <- Q1. exact L.
    + rewrite <- Q1. exact C.
    + rewrite SS, <- Q2, <- Q3. apply fp_pass with (opt := opt); auto.
    + exists p', opt'. split; [auto|]. split; [lia|]. split; [destruct C'; [left; auto|right; lia]|]. split; [auto|]. split; [auto|].
      rewrite F', <- Q1. reflexivity.
Qed.
Lemma np_max_ge : forall l m x, np_max_list l = Ok m -> In x l -> x <= m.
Proof.
  intros l m x H Hx. destruct l as [|a l]; [discriminate|]. simpl in H. inversion H; subst. clear H.
  assert (Q : forall l a x, x = a \/ In x l -> x <= fold_left Rmax l a).
  { clear. induction l as [|b l IH]; intros a x [->|H]; simpl; [lra|contradiction| |].
    - eapply Rle_trans; [apply (Rmax_l a b)|apply IH; auto].
    - destruct H as [->|H]; [|apply IH; auto]. eapply Rle_trans; [apply (Rmax_r a x)|apply IH; auto]. }
  apply Q. destruct Hx; auto.
Qed.
Lemma np_max_in : forall l m, np_max_list l = Ok m -> In m l.
Proof.
  intros l m H. destruct l as [|a l]; [discriminate|]. simpl in H. inversion H; subst. clear H.
  revert a. induction l as [|b l IH]; intros a; simpl; auto. destruct (IH (Rmax a b)) as [Q|Q]; auto.
  unfold Rmax in *. destruct (Rle_dec a b); auto.
Qed.
Theorem simple_account : forall g E n0 iv iv' out, i_lv iv = 1%nat -> i_cols iv = 1%nat ->
  simple g E (A1 n0) iv = Ok (iv', out) ->
  let tol := io_tol (i_opt iv) in
  out = OTrue /\ i_vset iv 0%nat 0%nat = false /\
  exists p opt vs u s' c e n eks Vs Ts n', let v0 := fun k => (vW_potential g n0 k - vW_potential g n0 (Nelem g - 1)) / 2 in
    fp_run g E n0 tol v0 (i_sol iv 0%nat 0%nat) p opt vs s' /\ i_sol iv' 0%nat 0%nat = s' /\
    (Z.of_nat p <= Z.max 0 (io_maxit (i_opt iv) - 1))%Z /\ (opt <= tol \/ Z.of_nat p = Z.max 0 (io_maxit (i_opt iv) - 1)) /\
    i_vs iv' = Some (A1 vs) /\ i_us iv' = Some (U0 u) /\
    s_eig s' = Some (c, e) /\ (1 <= c)%nat /\ 0 <= u /\ (forall i, (i < c)%nat -> e i <= u) /\ (u = 0 \/ exists i, (i < c)%nat /\ u = e i) /\
    calc_density g s' = Ok n /\ calc_energy g s' = Ok (eks, Vs, Ts, n') /\ i_Ts iv' = Some (eks - integrate1 g (fun k => n k * vs k)).
Proof.
  intros g E n0 iv iv' out L C H tol. unfold simple in H. destruct (i_vset iv 0%nat 0%nat); [discriminate|].
  destruct (simple_loop g E n0 (io_tol (i_opt iv)) 1 (Z.to_nat (io_maxit (i_opt iv) - 1)) (simple_guess g n0) iv) as [[iv1 vs]|] eqn:Q; cbn [bind] in H; [|discriminate].
  assert (GE : simple_guess g n0 = (fun k => (vW_potential g n0 k - vW_potential g n0 (Nelem g - 1)) / 2))
    by (apply FunctionalExtensionality.functional_extensionality; intros; apply simple_guess_half).
  destruct (simple_loop_run g E n0 tol (simple_guess g n0) (i_sol iv 0%nat 0%nat) _ 0 1 _ iv iv1 vs L C (fp_start _ _ _ _ _ _) Q)
    as (p & opt & A & B & D & F & G & O).
  destruct (simple_us iv1) as [u|] eqn:U; cbn [bind] in H; [|discriminate].
  rewrite L, C in H. cbn [Nat.sub] in H.
  destruct (calc_energy g (i_sol iv1 0%nat 0%nat)) as [[[[eks Vs] Ts] n']|] eqn:EN; cbn [bind] in H; [|discriminate].
  rewrite simple_density_one in H by auto. destruct (calc_density g (i_sol iv1 0%nat 0%nat)) as [n|] eqn:DN; cbn [bind] in H; [|discriminate].
  assert (Q1 := f_equal (fun r => match r with Ok (i, _) => i | Err _ => iv end) H).
  assert (Q2 := f_equal (fun r => match r with Ok (_, i) => i | Err _ => out end) H). cbv beta iota in Q1, Q2.
  split; [auto|]. split; [auto|].
  unfold simple_us in U. rewrite F, G in U. cbn [forN bind] in U. unfold eig_max in U.
  destruct (s_eig (i_sol iv1 0%nat 0%nat)) as [[c e]|] eqn:EI; cbn [bind] in U; [|discriminate].
  destruct (np_max_list (map e (seq 0 c))) as [m|] eqn:NM; cbn [bind] in U; [|discriminate]. assert (UM : (if Rlt_dec 0 m then m else 0) = u) by (inversion U; reflexivity). clear U.
  exists p, opt, vs, u, (i_sol iv1 0%nat 0%nat), c, e, n, eks, Vs, Ts, n'. cbv zeta. rewrite <- GE.
  split; [auto|]. split; [rewrite <- Q1; reflexivity|]. split; [lia|]. split; [destruct D; [left; auto|right; lia]|].
  split; [rewrite <- Q1; reflexivity|]. split; [rewrite <- Q1; reflexivity|]. split; [auto|].
  split. { destruct c; [discriminate|lia]. }
  split. { destruct (Rlt_dec 0 m); lra. }
  split. { intros i Hi. assert (e i <= m) by (eapply np_max_ge; [exact NM|apply in_map; apply in_seq; lia]). destruct (Rlt_dec 0 m); lra. }
  split. { rewrite <- UM. destruct (Rlt_dec 0 m) as [Pm|Pm]; [right|left; reflexivity]. apply np_max_in in NM. apply in_map_iff in NM. destruct NM as (i & Hm & Hi). apply in_seq in Hi. exists i. split; [lia|auto]. }
  split; [auto|]. split; [auto|]. rewrite <- Q1. cbn [i_Ts inv_Ts]. do 2 f_equal. apply integrate1_ext. intros. ring.
Qed.
Lemma calc_density_veff : forall g s v, calc_density g (set_veff s v) = calc_density g s.
Proof.
  intros. assert (Q : forall k, dens_loop g (set_veff s v) k = dens_loop g s k) by (induction k; simpl; [|rewrite IHk]; reflexivity).
  unfold calc_density. change (nocc (set_veff s v)) with (nocc s). destruct (nocc s) as [a b]. rewrite Q. reflexivity.
Qed.
(** The energy and the potential stored at the end belong to different potentials. *)
Theorem simple_Ts_shift : forall g E n0 tol v0 s0 p opt vs s', fp_run g E n0 tol v0 s0 (S p) opt vs s' ->
  exists v n, calc_density g s' = Ok n /\ opt = maxabs (Nelem g) (rel_err n0 n) /\
    forall eks, eks - integrate1 g (fun k => n k * vs k) = (eks - integrate1 g (fun k => n k * v k)) - integrate1 g (fun k => n k * rel_err n0 n k) / 10.
Proof.
  intros g E n0 tol v0 s0 p opt vs s' H. inversion H as [|p' opt' v s r n R T V D]; subst. exists v, n. split; [rewrite calc_density_veff; exact D|]. split; [reflexivity|].
  intros eks. rewrite (integrate1_ext g _ (fun k => n k * v k + 1 / 10 * (n k * rel_err n0 n k))).
  - rewrite integrate1_plus, integrate1_scal. field.
  - intros. field.
Qed.
Theorem simple_2d : forall g E c n0 iv, simple g E (A2 c n0) iv = Err UnboundLocalError.
Proof. reflexivity. Qed.
Theorem simple_again : forall g E n0 iv, i_vset iv 0%nat 0%nat = true -> simple g E (A1 n0) iv = Err AttributeError.
Proof. intros. unfold simple. rewrite H. reflexivity. Qed.
Theorem simple_two_columns : forall g E n0 iv r, (1 <= i_lv iv)%nat -> (2 <= i_cols iv)%nat -> simple g E n0 iv <> Ok r.
Proof.
  intros g E n0 iv r L C H. unfold simple in H. destruct n0 as [n0|]; [|discriminate]. destruct (i_vset iv 0%nat 0%nat); [discriminate|].
  destruct (simple_loop g E n0 (io_tol (i_opt iv)) 1 (Z.to_nat (io_maxit (i_opt iv) - 1)) (simple_guess g n0) iv) as [[iv1 vs]|] eqn:Q; cbn [bind] in H; [|discriminate].
  assert (F : i_lv iv1 = i_lv iv /\ i_cols iv1 = i_cols iv).
  { clear H. revert Q. generalize (Z.to_nat (io_maxit (i_opt iv) - 1)) as fuel. generalize (simple_guess g n0) as v. generalize 1 as o. generalize (io_tol (i_opt iv)) as tol.
    intros tol o v fuel. destruct fuel; simpl; [intros Q; inversion Q; auto|]. destruct (Rlt_dec tol o); [|intros Q; inversion Q; auto].
    destruct (simple_step g E n0 v iv) as [[[iv2 v2] o2]|] eqn:S1; cbn [bind]; [|discriminate]. exfalso. unfold simple_step in S1.
    match type of S1 with bind ?X _ = _ => destruct X end; cbn [bind] in S1; [|discriminate].
    match type of S1 with bind ?X _ = _ => destruct X eqn:D end; cbn [bind] in S1; [|discriminate].
    revert D. apply simple_density_two; simpl; auto. }
  destruct F as [F1 F2]. destruct (simple_us iv1); cbn [bind] in H; [|discriminate].
  match type of H with bind ?X _ = _ => destruct X end; cbn [bind] in H; [|discriminate].
  destruct (simple_density g iv1) eqn:D; cbn [bind] in H; [|discriminate]. revert D. apply simple_density_two; lia.
Qed.

(** * Dispatch *)
Definition invert_types : list string := ["wuyang"; "simple"; "orbitalinvert"; "qinvert"; "eigensolveinvert"; "test"]%string.
Theorem init_type : forall lv cols sol vset opt iv, inverter_init lv cols sol vset opt = Ok iv -> In (io_type (i_opt iv)) invert_types.
Proof.
  intros lv cols sol vset opt iv H. unfold inverter_init in H. destruct (configure InverterOptions opt) as [o|] eqn:Cf; cbn [bind] in H; [|discriminate].
  destruct ((lv =? 0)%nat || (cols =? 0)%nat); [discriminate|]. inversion H; subst. cbn [i_opt io_type].
  refine (configure_choice InverterOptions opt o (OptionsModel.St "invert_type" "wuyang" (Some invert_types)) "wuyang" invert_types _ Cf _ eq_refl eq_refl _).
  - apply schemas_distinct.
  - simpl. tauto.
  - simpl. tauto.
Qed.
Theorem init_bad_type : forall lv cols sol vset opt k t, case_distinct opt -> In (k, VS t) opt -> lower k = "invert_type"%string -> ~ In t invert_types ->
  inverter_init lv cols sol vset opt = Err ValueError.
Proof.
  intros lv cols sol vset opt k t CD Hk El Ht. unfold inverter_init.
  rewrite (configure_bad InverterOptions opt (OptionsModel.St "invert_type" "wuyang" (Some invert_types)) k (VS t) CD); auto.
  - simpl. tauto.
  - unfold value_ok. simpl f_values. cbv iota. apply andb_false_iff. right. apply not_true_is_false. intros Q. apply Ht.
    apply existsb_exists in Q. destruct Q as (x & Hx & Ex). apply String.eqb_eq in Ex. subst. exact Hx.
Qed.
Theorem dispatch : forall g E n0 vs0 phi0 e0 sp iv,
  (io_type (i_opt iv) = "wuyang"%string -> invert g E n0 vs0 phi0 e0 sp iv = linresponse g E n0 vs0 iv) /\
  (io_type (i_opt iv) = "simple"%string -> invert g E n0 vs0 phi0 e0 sp iv = simple g E n0 iv) /\
  (io_type (i_opt iv) = "orbitalinvert"%string -> forall n, n0 = A1 n ->
     invert g E n0 vs0 phi0 e0 sp iv = do r <- orbitalinvert g E n phi0 e0 vs0 sp iv; Ok (fst (fst r), snd r)) /\
  (In (io_type (i_opt iv)) ["qinvert"; "eigensolveinvert"; "test"]%string -> invert g E n0 vs0 phi0 e0 sp iv = Err AttributeError).
Proof.
  intros. unfold invert. split; [|split; [|split]].
  - intros ->. reflexivity.
  - intros ->. reflexivity.
  - intros -> n ->. reflexivity.
  - intros [<-|[<-|[<-|[]]]]; reflexivity.
Qed.
(** use_iterative: no Newton step. *)
Theorem iterative_error : forall g E o M n0 occ xs, io_iter o = true -> o_update g E o M n0 occ true xs = Err NameError.
Proof. intros g E o M n0 occ [x s] H. unfold o_update. rewrite H. reflexivity. Qed.
Theorem orbital_levels : forall g E n0 phi0 e0 vs0 sp iv r, orbitalinvert g E n0 phi0 e0 vs0 sp iv = Ok r -> (i_lv iv <= 1)%nat.
Proof.
  intros g E n0 phi0 e0 vs0 sp iv [[iv' f] o] H. destruct (orbitalinvert_inv _ _ _ _ _ _ _ _ _ _ _ H) as (x & s1 & it & r & h & vs & us & L & _). exact L.
Qed.
Theorem orbital_levels_error : forall g E n0 phi0 e0 vs0 sp iv, (2 <= i_lv iv)%nat -> orbitalinvert g E n0 phi0 e0 vs0 sp iv = Err IndexError.
Proof.
  intros g E n0 phi0 e0 vs0 sp iv H. unfold orbitalinvert. destruct (negb (sp <? i_cols iv)%nat); auto. unfold o_setup.
  match goal with |- context [s_m ?S] => set (s := S) end.
  destruct (s_m s =? 0)%Z; [|reflexivity]. destruct ((s_pol s =? 1)%nat && Z.odd (floorZ (s_N s))); [reflexivity|]. cbn [bind].
  destruct (Nat.ltb_spec 1 (i_lv iv)); [reflexivity|lia].
Qed.
Theorem orbital_odd_error : forall g E n0 phi0 e0 vs0 sp iv, s_pol (i_sol iv 0%nat sp) = 1%nat -> Z.odd (floorZ (s_N (i_sol iv 0%nat sp))) = true ->
  orbitalinvert g E n0 phi0 e0 vs0 sp iv = Err IndexError.
Proof.
  intros g E n0 phi0 e0 vs0 sp iv Hp Ho. unfold orbitalinvert. destruct (negb (sp <? i_cols iv)%nat); auto.
  match goal with |- context [i_sol ?I 0%nat sp] => assert (Q : i_sol I = i_sol iv) by (destruct (i_vs iv), (i_us iv); reflexivity) end. rewrite Q.
  unfold o_setup. destruct (s_m (i_sol iv 0%nat sp) =? 0)%Z; [|reflexivity]. rewrite Hp, Ho. reflexivity.
Qed.
