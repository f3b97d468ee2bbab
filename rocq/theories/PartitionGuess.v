(** Initial guess of the inversion: potential, Galerkin equations, normalisation, and the singular pencil of ab_sym. *)
From Coq Require Import Reals List Arith Lia Lra ZArith Bool String FunctionalExtensionality.
From Verif Require Import Base BaseLemmas GridModel GridSpec GridProofs OpProofs HartreeModel SolverModel SolverSpec SolverProofs SolverThms SolverWitness LibxcModel OptionsModel KSModel KSSpec KSProofs KSThms
  InverterModel InverterSpec PartitionModel PartitionSpec PartitionBase.
Import ListNotations.
Local Open Scope R_scope.

(** * Specification *)
(** Overlap of two functions on the grid. *)
Definition overlap_of (g : grid) (a b : vec) : R := integrate1 g (fun k => a k * b k).
(** The Hamiltonian of angular momentum m in the potential v, as an operator on functions. *)
Definition Hpsi (g : grid) (m : Z) (v f : vec) : vec := fun k => gapply g (hamiltonian g m) f k / gw g k + v k * f k.
(** A function divided by its norm; the zero function is kept. *)
Definition normalised (g : grid) (a : vec) : vec := if Rlt_dec 0 (overlap_of g a a) then fun k => a k / sqrt (overlap_of g a a) else fun _ => 0.
Definition member_of (l : list vec) (j : nat) : vec := nth j l (fun _ => 0).
(** The orbitals of level i and spin of one component. *)
Definition own (p : part) (spin i : nat) (c : comp) (l : list vec) : Prop :=
  exists f n ph, p_f p c = Some f /\ (i < k_lv (f_ks f))%nat /\ (spin < k_cols (f_ks f))%nat /\ s_phi (k_sol (f_ks f) i spin) = Some (n, ph) /\ l = map ph (seq 0 n).
(** The trial functions of level i: the orbitals of all components; with ab_sym those of fragment A, twice. *)
Definition trial (p : part) (spin i : nat) (l : list vec) : Prop :=
  exists la lA lb lB, own p spin i Ca la /\ (if p_ens p then own p spin i CA lA else lA = []) /\
    (if po_ab (p_opt p) then lb = la /\ lB = lA else own p spin i Cb lb /\ if p_ens p then own p spin i CB lB else lB = []) /\
    l = (la ++ lA ++ lb ++ lB)%list.
(** Row i of every solver array has angular momentum i. *)
Definition by_level (p : part) : Prop :=
  forall c f i j, p_f p c = Some f -> (i < k_lv (f_ks f))%nat -> (j < k_cols (f_ks f))%nat -> s_m (k_sol (f_ks f) i j) = Z.of_nat i.
(** Matrices of the normalised trial functions. *)
Definition Smat (g : grid) (l : list vec) : mat := fun i j => overlap_of g (normalised g (member_of l i)) (normalised g (member_of l j)).
Definition Fmat (g : grid) (m : Z) (v : vec) (l : list vec) : mat := fun i j => overlap_of g (normalised g (member_of l i)) (Hpsi g m v (normalised g (member_of l j))).
(** The contract of scipy.linalg.eig for a pencil with real eigenvalues: column c of the second result solves it with eigenvalue c
    and is not zero. *)
Definition pencil_ok (M : nat) (F S : mat) (r : vec * mat) : Prop :=
  forall c, (c < M)%nat -> (exists j, (j < M)%nat /\ snd r j c <> 0) /\
    forall i, (i < M)%nat -> sumR M (fun j => F i j * snd r j c) = fst r c * sumR M (fun j => S i j * snd r j c).
(** The contract of np.argsort. *)
Definition sorts (M : nat) (ev : vec) (ix : nat -> nat) : Prop :=
  (forall j, (j < M)%nat -> (ix j < M)%nat) /\ (forall i j, (i < M)%nat -> (j < M)%nat -> ix i = ix j -> i = j) /\
  forall i j, (i <= j < M)%nat -> ev (ix i) <= ev (ix j).
(** Number of electrons that one orbital of level i is meant to hold. *)
Definition shell_of (ess : bool) (i : nat) : R := (if (i =? 0)%nat then 1 else 2) * (if ess then 1 else 2).
Definition independent (g : grid) (l : list vec) : Prop :=
  forall x : vec, (forall k, (k < Nelem g)%nat -> sumR (List.length l) (fun j => x j * member_of l j k) = 0) -> forall j, (j < List.length l)%nat -> x j = 0.
(** What the external routines have to do on the trial functions of one level. *)
Definition eig_answers (g : grid) (w : penv) (m : Z) (v : vec) (l : list vec) : Prop :=
  let r := pe_eig w (List.length l) (Fmat g m v l) (Smat g l) in
  pencil_ok (List.length l) (Fmat g m v l) (Smat g l) r /\ sorts (List.length l) (fst r) (pe_argsort w (List.length l) (fst r)).
(** Galerkin equations on the span of the trial functions. *)
Definition galerkin (g : grid) (m : Z) (v : vec) (l : list vec) (e : R) (psi : vec) : Prop :=
  (forall chi, In chi l -> overlap_of g chi (Hpsi g m v psi) = e * overlap_of g chi psi) /\
  (exists x : vec, forall k, (k < Nelem g)%nat -> psi k = sumR (List.length l) (fun j => x j * member_of l j k)).

(** * Lemmas *)
Lemma gdotw_overlap : forall g a b, gdotw g a b = overlap_of g a b.
Proof.
  intros. unfold gdotw, overlap_of, integrate1. rewrite <- sumR_scal. apply sumR_ext. intros k _. unfold oWWi, oWi, iprefac. ring.
Qed.
Lemma gunit_normalised : forall g a, gunit g a = normalised g a.
Proof. intros. unfold gunit, normalised. rewrite gdotw_overlap. reflexivity. Qed.
Lemma overlap_ext : forall g a b a' b', (forall k, (k < Nelem g)%nat -> a k = a' k) -> (forall k, (k < Nelem g)%nat -> b k = b' k) -> overlap_of g a b = overlap_of g a' b'.
Proof. intros. apply integrate1_ext. intros. rewrite H, H0 by auto. reflexivity. Qed.
Lemma overlap_sum_r : forall g n a (x : nat -> R) (f : nat -> vec), overlap_of g a (fun k => sumR n (fun j => x j * f j k)) = sumR n (fun j => x j * overlap_of g a (f j)).
Proof.
  intros. unfold overlap_of. rewrite (integrate1_ext g _ (fun k => sumR n (fun j => x j * (a k * f j k)))).
  - rewrite integrate1_sum. apply sumR_ext. intros. apply integrate1_scal.
  - intros k _. rewrite <- sumR_scal. apply sumR_ext. intros. ring.
Qed.
Lemma overlap_scal_l : forall g c a b, overlap_of g (fun k => c * a k) b = c * overlap_of g a b.
Proof. intros. unfold overlap_of. rewrite <- integrate1_scal. apply integrate1_ext. intros. ring. Qed.
Lemma overlap_scal_r : forall g c a b, overlap_of g a (fun k => c * b k) = c * overlap_of g a b.
Proof. intros. unfold overlap_of. rewrite <- integrate1_scal. apply integrate1_ext. intros. ring. Qed.
Lemma Hpsi_sum : forall g m v n (x : nat -> R) (f : nat -> vec) k, Hpsi g m v (fun k => sumR n (fun j => x j * f j k)) k = sumR n (fun j => x j * Hpsi g m v (f j) k).
Proof.
  intros. unfold Hpsi, gapply, matvec. 
  rewrite (sumR_ext (Nelem g) _ (fun j => sumR n (fun i => x i * (hamiltonian g m k j * f i j)))) by (intros j _; rewrite <- sumR_scal; apply sumR_ext; intros; ring).
  rewrite sumR_swap. symmetry.
  transitivity (sumR n (fun j => (sumR (Nelem g) (fun i => x j * (hamiltonian g m k i * f j i))) * / gw g k + v k * (x j * f j k))).
  - apply sumR_ext. intros j _. rewrite sumR_scal. unfold Rdiv. ring.
  - rewrite sumR_plus, sumR_scal_r, sumR_scal. unfold Rdiv. reflexivity.
Qed.
Lemma Hpsi_scal : forall g m v c f k, Hpsi g m v (fun k => c * f k) k = c * Hpsi g m v f k.
Proof.
  intros. pose proof (Hpsi_sum g m v 1 (fun _ => c) (fun _ => f) k) as H. cbn [sumR] in H.
  rewrite Rplus_0_l in H. rewrite <- H. unfold Hpsi, gapply, matvec. f_equal; [f_equal; apply sumR_ext; intros; ring|ring].
Qed.
Lemma Hpsi_ext : forall g m v f f' k, (k < Nelem g)%nat -> (forall i, (i < Nelem g)%nat -> f i = f' i) -> Hpsi g m v f k = Hpsi g m v f' k.
Proof. intros. unfold Hpsi. rewrite (gapply_ext g _ f f') by auto. rewrite H0 by auto. reflexivity. Qed.

(** Where the quadrature weights are positive a function of norm zero vanishes. *)
Lemma norm_zero : forall g a, grid_ok g -> (forall k, (k < Nelem g)%nat -> 0 < gwi g k) -> overlap_of g a a <= 0 -> forall k, (k < Nelem g)%nat -> a k = 0.
Proof.
  intros g a G W H k K. unfold overlap_of, integrate1 in H. pose proof (iprefac_pos g G) as P.
  assert (X : forall i, (i < Nelem g)%nat -> 0 <= gwi g i * gw g i * (a i * a i)).
  { intros i I. pose proof (W i I). pose proof (gw_pos g i G I). apply Rmult_le_pos; [apply Rmult_le_pos; lra|apply Rle_0_sqr]. }
  assert (Z : sumR (Nelem g) (fun i => gwi g i * gw g i * (a i * a i)) = 0).
  { pose proof (sumR_nonneg _ _ X) as N. destruct (Rle_lt_or_eq_dec _ _ N) as [L|E]; auto. exfalso. pose proof (Rmult_lt_0_compat _ _ P L). lra. }
  pose proof (sumR_sq_zero _ _ X Z k K) as E. pose proof (W k K). pose proof (gw_pos g k G K).
  apply Rmult_integral in E. destruct E as [E|E]; [exfalso; apply Rmult_integral in E; lra|apply Rmult_integral in E; tauto].
Qed.
Lemma normalised_back : forall g a, grid_ok g -> (forall k, (k < Nelem g)%nat -> 0 < gwi g k) ->
  exists c, (forall k, (k < Nelem g)%nat -> a k = c * normalised g a k) /\ (0 < overlap_of g a a -> c <> 0).
Proof.
  intros g a G W. unfold normalised. destruct (Rlt_dec 0 (overlap_of g a a)) as [P|P].
  - exists (sqrt (overlap_of g a a)). pose proof (sqrt_lt_R0 _ P). split; [intros; field; lra|lra].
  - exists 0. split; [|tauto]. intros k K. rewrite (norm_zero g a G W) by (auto; lra). ring.
Qed.
Lemma normalised_form : forall g a, exists c, forall k, normalised g a k = c * a k.
Proof. intros. unfold normalised. destruct (Rlt_dec 0 (overlap_of g a a)); [exists (/ sqrt (overlap_of g a a)); intros; field_simplify; try reflexivity|exists 0; intros; ring]; apply Rgt_not_eq, sqrt_lt_R0; auto. Qed.
Lemma normalised_one : forall g a, 0 < overlap_of g a a -> overlap_of g (normalised g a) (normalised g a) = 1.
Proof.
  intros g a P. unfold normalised. destruct (Rlt_dec 0 (overlap_of g a a)) as [_|]; [|tauto]. pose proof (sqrt_lt_R0 _ P) as S.
  set (s := sqrt (overlap_of g a a)) in *. transitivity (overlap_of g (fun k => / s * a k) (fun k => / s * a k)); [apply overlap_ext; intros; field; lra|].
  rewrite overlap_scal_l, overlap_scal_r. assert (E : overlap_of g a a = s * s) by (unfold s; rewrite sqrt_sqrt; lra). rewrite E. field. lra.
Qed.

(** * One level *)
Section Level.
  Variables (g : grid) (w : penv) (v : vec).
  Hypothesis G : grid_ok g.
  Hypothesis W : forall k, (k < Nelem g)%nat -> 0 < gwi g k.
  Lemma col_map : forall l j, (j < List.length l)%nat -> col (map (gunit g) l) j = normalised g (member_of l j).
  Proof. intros l j H. unfold col, member_of. rewrite (nth_indep _ _ (gunit g (fun _ => 0))) by (rewrite map_length; auto). rewrite map_nth. apply gunit_normalised. Qed.
  Lemma col_out : forall l j, ~ (j < List.length l)%nat -> col (map (gunit g) l) j = fun _ => 0.
  Proof. intros l j H. unfold col. apply nth_overflow. rewrite map_length. lia. Qed.
  Lemma unit_zero : normalised g (fun _ => 0) = fun _ => 0.
  Proof. unfold normalised. destruct (Rlt_dec _ _) as [P|]; auto. exfalso. unfold overlap_of in P. rewrite (integrate1_ext g _ (fun _ => 0)) in P by (intros; ring). rewrite integrate1_zero in P. lra. Qed.
  Lemma col_all : forall l j, col (map (gunit g) l) j = normalised g (member_of l j).
  Proof.
    intros l j. destruct (lt_dec j (List.length l)) as [H|H]; [apply col_map; auto|]. rewrite col_out by auto. unfold member_of. rewrite nth_overflow by lia. symmetry. apply unit_zero.
  Qed.
  Lemma level_form : forall ess l mH m,
    guess_level g w ess v (l, mH, m) =
    (let r := pe_eig w (List.length l) (Fmat g mH v l) (Smat g l) in let ix := pe_argsort w (List.length l) (fst r) in
     let occ := if ess then (if (m =? 0)%Z then 1 else 2) else (if (m =? 0)%Z then 2 else 4) in
     (map (fun j => fst r (ix j)) (seq 0 (List.length l)),
      map (fun j => let f := normalised g (fun k => sumR (List.length l) (fun i => normalised g (member_of l i) k * snd r i (ix j))) in fun k => f k * sqrt occ) (seq 0 (List.length l)))).
  Proof.
    intros. unfold guess_level.
    assert (EF : (fun i j => gdotw g (col (map (gunit g) l) i) (guess_H g mH v (col (map (gunit g) l) j))) = Fmat g mH v l).
    { apply functional_extensionality; intros i. apply functional_extensionality; intros j. rewrite gdotw_overlap, !col_all. reflexivity. }
    assert (ES : (fun i j => gdotw g (col (map (gunit g) l) i) (col (map (gunit g) l) j)) = Smat g l).
    { apply functional_extensionality; intros i. apply functional_extensionality; intros j. rewrite gdotw_overlap, !col_all. reflexivity. }
    rewrite EF, ES. destruct (pe_eig w (List.length l) (Fmat g mH v l) (Smat g l)) as [ev u]. cbn [fst snd]. cbv zeta. f_equal.
    apply map_ext. intros j. rewrite gunit_normalised. 
    assert (E : (fun k => sumR (List.length l) (fun i => col (map (gunit g) l) i k * u i (pe_argsort w (List.length l) ev j))) = (fun k => sumR (List.length l) (fun i => normalised g (member_of l i) k * u i (pe_argsort w (List.length l) ev j)))).
    { apply functional_extensionality; intros k. apply sumR_ext. intros i _. rewrite col_all. reflexivity. }
    rewrite E. reflexivity.
  Qed.
  (** A multiple of a combination of the trial functions that solves the pencil. *)
  Lemma galerkin_of : forall m l (x : vec) e s psi,
    (forall i, (i < List.length l)%nat -> sumR (List.length l) (fun j => Fmat g m v l i j * x j) = e * sumR (List.length l) (fun j => Smat g l i j * x j)) ->
    (forall k, (k < Nelem g)%nat -> psi k = s * sumR (List.length l) (fun j => x j * normalised g (member_of l j) k)) ->
    galerkin g m v l e psi.
  Proof.
    intros m l x e s psi H HP. set (M := List.length l) in *. split.
    - intros chi I. destruct (In_nth _ _ (fun _ => 0) I) as (i & Hi & E). fold M in Hi. change (member_of l i = chi) in E.
      destruct (normalised_back g chi G W) as (c & Hc & _).
      assert (A : overlap_of g chi (Hpsi g m v psi) = c * s * sumR M (fun j => Fmat g m v l i j * x j)).
      { transitivity (overlap_of g (fun k => c * normalised g chi k) (fun k => s * sumR M (fun j => x j * Hpsi g m v (normalised g (member_of l j)) k))).
        - apply overlap_ext; auto. intros k K. rewrite <- Hpsi_sum, <- Hpsi_scal. apply Hpsi_ext; auto.
        - rewrite overlap_scal_l, overlap_scal_r, overlap_sum_r. rewrite Rmult_assoc. do 2 f_equal. apply sumR_ext. intros j _. unfold Fmat. rewrite E, (Rmult_comm _ (x j)). reflexivity. }
      assert (B : overlap_of g chi psi = c * s * sumR M (fun j => Smat g l i j * x j)).
      { transitivity (overlap_of g (fun k => c * normalised g chi k) (fun k => s * sumR M (fun j => x j * normalised g (member_of l j) k))).
        - apply overlap_ext; auto.
        - rewrite overlap_scal_l, overlap_scal_r, overlap_sum_r. rewrite Rmult_assoc. do 2 f_equal. apply sumR_ext. intros j _. unfold Smat. rewrite E, (Rmult_comm _ (x j)). reflexivity. }
      rewrite A, B, H by auto. ring.
    - assert (Q : forall n, exists y : vec, forall j, (j < n)%nat -> forall k, s * (x j * normalised g (member_of l j) k) = y j * member_of l j k).
      { induction n as [|n (y & IH)]; [exists (fun _ => 0); intros; lia|]. destruct (normalised_form g (member_of l n)) as (c & Hc).
        exists (fun j => if (j =? n)%nat then s * x n * c else y j). intros j Hj k. destruct (Nat.eqb_spec j n) as [->|]; [rewrite Hc; ring|apply IH; lia]. }
      destruct (Q M) as (y & Hy). exists y. intros k K. rewrite HP by auto. rewrite <- sumR_scal. apply sumR_ext. intros j Hj. apply Hy; auto.
  Qed.
  Lemma galerkin_rayleigh : forall m l e psi, galerkin g m v l e psi -> overlap_of g psi (Hpsi g m v psi) = e * overlap_of g psi psi.
  Proof.
    intros m l e psi (A & x & X). 
    assert (Q : forall f, overlap_of g psi f = sumR (List.length l) (fun j => x j * overlap_of g (member_of l j) f)).
    { intros f. transitivity (overlap_of g f (fun k => sumR (List.length l) (fun j => x j * member_of l j k))).
      - unfold overlap_of. apply integrate1_ext. intros k K. rewrite X by auto. ring.
      - rewrite overlap_sum_r. apply sumR_ext. intros j _. f_equal. unfold overlap_of. apply integrate1_ext. intros; ring. }
    rewrite !Q. rewrite <- sumR_scal. apply sumR_ext. intros j Hj. rewrite A by (apply nth_In; auto). ring.
  Qed.
  Definition level_ok (ess : bool) (i : nat) (l : list vec) (e : list R) (ph : list vec) : Prop :=
    List.length e = List.length l /\ List.length ph = List.length l /\
    (forall j, (j < List.length l)%nat -> (forall k, (k < Nelem g)%nat -> member_of ph j k = 0) \/ overlap_of g (member_of ph j) (member_of ph j) = shell_of ess i) /\
    (eig_answers g w (Z.of_nat i) v l ->
      (forall j, (j < List.length l)%nat -> galerkin g (Z.of_nat i) v l (nth j e 0) (member_of ph j) /\
         overlap_of g (member_of ph j) (Hpsi g (Z.of_nat i) v (member_of ph j)) = nth j e 0 * overlap_of g (member_of ph j) (member_of ph j)) /\
      (forall j j', (j <= j' < List.length l)%nat -> nth j e 0 <= nth j' e 0) /\
      (independent g l -> forall j, (j < List.length l)%nat -> overlap_of g (member_of ph j) (member_of ph j) = shell_of ess i)).
  Lemma nth_map_seq : forall (A : Type) (f : nat -> A) n j d, (j < n)%nat -> nth j (map f (seq 0 n)) d = f j.
  Proof. intros A f n j d H. rewrite (nth_indep _ d (f 0%nat)) by (rewrite map_length, seq_length; auto). rewrite map_nth, seq_nth by auto. reflexivity. Qed.
  Lemma independent_norm : forall l j, independent g l -> (j < List.length l)%nat -> 0 < overlap_of g (member_of l j) (member_of l j).
  Proof.
    intros l j I H. destruct (Rlt_dec 0 (overlap_of g (member_of l j) (member_of l j))) as [|N]; auto. exfalso.
    pose proof (norm_zero g _ G W (Rnot_lt_le _ _ N)) as Z. assert (E : (fun q => if (q =? j)%nat then 1 else 0) j = 0); [|cbv beta in E; rewrite Nat.eqb_refl in E; lra].
    apply (I (fun q => if (q =? j)%nat then 1 else 0)); auto. intros k K. apply sumR_zero. intros q Hq. destruct (Nat.eqb_spec q j) as [->|]; [rewrite Z by auto|]; ring.
  Qed.
  Lemma level_spec : forall ess i l e ph, guess_level g w ess v (l, Z.of_nat i, Z.of_nat i) = (e, ph) -> level_ok ess i l e ph.
  Proof.
    intros ess i l e ph H. rewrite level_form in H. cbv zeta in H. set (M := List.length l) in *.
    set (r := pe_eig w M (Fmat g (Z.of_nat i) v l) (Smat g l)) in *. set (ix := pe_argsort w M (fst r)) in *. injection H as He Hp.
    assert (EO : (if ess then if (Z.of_nat i =? 0)%Z then 1 else 2 else if (Z.of_nat i =? 0)%Z then 2 else 4) = shell_of ess i).
    { unfold shell_of. destruct i; [cbn [Nat.eqb]; change (Z.of_nat 0 =? 0)%Z with true|cbn [Nat.eqb]; replace (Z.of_nat (S i) =? 0)%Z with false by (symmetry; apply Z.eqb_neq; lia)]; destruct ess; ring. }
    rewrite EO in Hp. assert (SP : 0 < shell_of ess i) by (unfold shell_of; destruct (i =? 0)%nat, ess; lra).
    assert (NE : forall j, (j < M)%nat -> nth j e 0 = fst r (ix j)) by (intros j Hj; rewrite <- He; apply (nth_map_seq R (fun j => fst r (ix j))); auto).
    assert (NP : forall j, (j < M)%nat -> member_of ph j = fun k => normalised g (fun k => sumR M (fun i => normalised g (member_of l i) k * snd r i (ix j))) k * sqrt (shell_of ess i)).
    { intros j Hj. unfold member_of at 1. rewrite <- Hp. rewrite nth_map_seq by auto. reflexivity. }
    assert (NORM : forall j, (j < M)%nat -> 0 < overlap_of g (fun k => sumR M (fun i => normalised g (member_of l i) k * snd r i (ix j))) (fun k => sumR M (fun i => normalised g (member_of l i) k * snd r i (ix j))) ->
              overlap_of g (member_of ph j) (member_of ph j) = shell_of ess i).
    { intros j Hj P. rewrite NP by auto. set (f := normalised g _). transitivity (overlap_of g (fun k => sqrt (shell_of ess i) * f k) (fun k => sqrt (shell_of ess i) * f k)); [apply overlap_ext; intros; ring|].
      rewrite overlap_scal_l, overlap_scal_r. unfold f. rewrite normalised_one by auto. rewrite Rmult_1_r. apply sqrt_sqrt. lra. }
    split; [rewrite <- He, map_length, seq_length; reflexivity|]. split; [rewrite <- Hp, map_length, seq_length; reflexivity|]. fold M.
    split; [|intros AN; split; [|split]].
    - intros j Hj. destruct (Rlt_dec 0 (overlap_of g (fun k => sumR M (fun i => normalised g (member_of l i) k * snd r i (ix j))) (fun k => sumR M (fun i => normalised g (member_of l i) k * snd r i (ix j))))) as [P|P].
      + right. apply NORM; auto.
      + left. intros k K. rewrite NP by auto. unfold normalised at 1. destruct (Rlt_dec 0 _) as [P'|]; [tauto|]. ring.
    - intros j Hj. destruct AN as (PE & SO & _ & _). fold M in PE, SO. fold r in PE, SO. fold ix in SO. rewrite NE by auto.
      assert (GA : galerkin g (Z.of_nat i) v l (fst r (ix j)) (member_of ph j)).
      { destruct (PE (ix j) (SO j Hj)) as (_ & E). destruct (normalised_form g (fun k => sumR M (fun i => normalised g (member_of l i) k * snd r i (ix j)))) as (c & Hc).
        apply (galerkin_of _ _ (fun q => snd r q (ix j)) _ (c * sqrt (shell_of ess i))); [exact E|]. intros k K. rewrite NP by auto. rewrite Hc.
        rewrite Rmult_assoc, (Rmult_comm _ (sqrt _)), <- Rmult_assoc. f_equal. apply sumR_ext. intros q _. ring. }
      split; auto. eapply galerkin_rayleigh; eauto.
    - intros j j' Hj. rewrite !NE by lia. apply AN. fold M. lia.
    - intros IND j Hj. apply NORM; auto. apply Rnot_le_lt. intros N. pose proof (norm_zero g _ G W N) as Z. cbv beta in Z.
      destruct AN as (PE & SO & _ & _). fold M in PE, SO. fold r in PE, SO. fold ix in SO. destruct (PE (ix j) (SO j Hj)) as ((q & Hq & NZ) & _).
      assert (X : forall n, exists y : vec, forall a, (a < n)%nat -> (a < M)%nat -> (forall k, (k < Nelem g)%nat -> normalised g (member_of l a) k * snd r a (ix j) = y a * member_of l a k) /\ (y a = 0 -> snd r a (ix j) = 0)).
      { induction n as [|n (y & IH)]; [exists (fun _ => 0); intros; lia|]. destruct (lt_dec n M) as [L|L].
        - exists (fun a => if (a =? n)%nat then snd r n (ix j) / sqrt (overlap_of g (member_of l n) (member_of l n)) else y a). intros a A1 A2. destruct (Nat.eqb_spec a n) as [->|]; [|apply IH; lia].
          pose proof (independent_norm l n IND L) as P. pose proof (sqrt_lt_R0 _ P) as S. split.
          + intros k K. unfold normalised. destruct (Rlt_dec 0 _); [field; lra|tauto].
          + intros E. unfold Rdiv in E. apply Rmult_integral in E. destruct E as [E|E]; auto. exfalso. revert E. apply Rinv_neq_0_compat. lra.
        - exists y. intros a A1 A2. apply IH; lia. }
      destruct (X M) as (y & HY). apply NZ. apply (HY q Hq Hq). apply IND; auto. intros k K. rewrite <- (Z k K). apply sumR_ext. intros a Ha. symmetry. apply HY; auto.
  Qed.
End Level.

(** * The whole guess *)
Lemma get_f_inv : forall p c f, get_f p c = Ok f -> p_f p c = Some f.
Proof. intros p c f H. unfold get_f in H. destruct (p_f p c); cbn in H; congruence. Qed.
Lemma sol_phi_own : forall p c f spin i l, p_f p c = Some f -> sol_phi f i spin = Ok l -> own p spin i c l.
Proof.
  intros p c f spin i l F H. unfold sol_phi, sol_at in H. destruct ((i <? k_lv (f_ks f))%nat && (spin <? k_cols (f_ks f))%nat)%bool eqn:B; [|discriminate].
  cbn [bind] in H. apply andb_true_iff in B. destruct B as (B1 & B2). apply Nat.ltb_lt in B1, B2. destruct (s_phi (k_sol (f_ks f) i spin)) as [[n ph]|] eqn:E; [|discriminate]. injection H as <-.
  exists f, n, ph. repeat (split; [assumption|]). reflexivity.
Qed.
Lemma sol_at_m : forall p c f i j s, by_level p -> p_f p c = Some f -> sol_at f i j = Ok s -> s_m s = Z.of_nat i.
Proof.
  intros p c f i j s L F H. unfold sol_at in H. destruct ((i <? k_lv (f_ks f))%nat && (j <? k_cols (f_ks f))%nat)%bool eqn:B; [|discriminate]. injection H as <-.
  apply andb_true_iff in B. destruct B as (B1 & B2). apply Nat.ltb_lt in B1, B2. eapply L; eauto.
Qed.
Ltac step H := match type of H with bind ?e _ = Ok _ => let E := fresh "E" in let x := fresh "x" in destruct e as [x|] eqn:E; [cbn [bind] in H|discriminate] end.
Lemma basis_trial : forall p spin i l mH m, by_level p -> guess_basis spin i p = Ok (l, mH, m) -> trial p spin i l /\ mH = Z.of_nat i /\ m = Z.of_nat i.
Proof.
  intros p spin i l mH m L H. unfold guess_basis in H.
  destruct (get_f p Ca) as [fa|] eqn:Fa; [|discriminate]. cbn [bind] in H. apply get_f_inv in Fa.
  destruct (sol_phi fa i spin) as [la|] eqn:Pa; [|discriminate]. cbn [bind] in H. pose proof (sol_phi_own _ _ _ _ _ _ Fa Pa) as Oa.
  destruct (sol_at fa i spin) as [sa|] eqn:Sa; [|discriminate]. cbn [bind] in H. pose proof (sol_at_m _ _ _ _ _ _ L Fa Sa) as Ma.
  destruct (get_f p Cb) as [fb|] eqn:Fb; [|discriminate]. cbn [bind] in H. apply get_f_inv in Fb.
  destruct (sol_at fb i spin) as [sb|] eqn:Sb; [|discriminate]. cbn [bind] in H. pose proof (sol_at_m _ _ _ _ _ _ L Fb Sb) as Mb.
  unfold trial. destruct (p_ens p) eqn:EN.
  - destruct (get_f p CA) as [fA|] eqn:FA; [|discriminate]. cbn [bind] in H. apply get_f_inv in FA.
    destruct (sol_phi fA i spin) as [lA|] eqn:PA; [|discriminate]. cbn [bind] in H. pose proof (sol_phi_own _ _ _ _ _ _ FA PA) as OA.
    destruct (sol_at fA i spin) as [sA|] eqn:SA; [|discriminate]. cbn [bind] in H. pose proof (sol_at_m _ _ _ _ _ _ L FA SA) as MA.
    destruct (po_ab (p_opt p)).
    + cbn [bind] in H. injection H as <- <- <-. split; auto. exists la, lA, la, lA. auto.
    + destruct (sol_phi fb i spin) as [lb|] eqn:Pb; [|discriminate]. cbn [bind] in H. pose proof (sol_phi_own _ _ _ _ _ _ Fb Pb) as Ob.
      destruct (get_f p CB) as [fB|] eqn:FB; [|discriminate]. cbn [bind] in H. apply get_f_inv in FB.
      destruct (sol_phi fB i spin) as [lB|] eqn:PB; [|discriminate]. cbn [bind] in H. pose proof (sol_phi_own _ _ _ _ _ _ FB PB) as OB.
      injection H as <- <- <-. split; auto. exists la, lA, lb, lB. auto.
  - cbn [bind] in H. destruct (po_ab (p_opt p)).
    + cbn [bind] in H. injection H as <- <- <-. split; auto. exists la, [], la, []. auto.
    + destruct (sol_phi fb i spin) as [lb|] eqn:Pb; [|discriminate]. cbn [bind] in H. pose proof (sol_phi_own _ _ _ _ _ _ Fb Pb) as Ob.
      injection H as <- <- <-. split; auto. exists la, [], lb, []. auto.
Qed.
Theorem guess_spec : forall g w spin p ph e v0, grid_ok g -> (forall k, (k < Nelem g)%nat -> 0 < gwi g k) -> by_level p ->
  initialguessinvert g w spin p = Ok (ph, e, v0) ->
  exists n B E P, ph = flat_map P (seq 0 n) /\ e = flat_map E (seq 0 n) /\
    (forall c f, In c (comps_ab p) -> p_f p c = Some f -> (k_lv (f_ks f) <= n)%nat) /\
    forall i, (i < n)%nat -> trial p spin i (B i) /\ level_ok g w v0 (po_ess (p_opt p)) i (B i) (E i) (P i).
Proof.
  intros g w spin p ph e v0 G W L H. unfold initialguessinvert in H.
  destruct (guess_v0 g spin p) as [v|] eqn:EV; [|discriminate]. cbn [bind] in H.
  match type of H with bind ?x _ = _ => destruct x as [n|] eqn:EN end; [|discriminate]. cbn [bind] in H.
  match type of H with bind ?x _ = _ => destruct x as [r|] eqn:ER end; [|discriminate]. cbn [bind] in H. injection H as <- <- <-.
  assert (NL : forall c f, In c (comps_ab p) -> p_f p c = Some f -> (k_lv (f_ks f) <= n)%nat).
  { assert (Q : forall l m n, forL l (fun c m => do f <- get_f p c; if (spin <? k_cols (f_ks f))%nat then Ok (Nat.max m (k_lv (f_ks f))) else Err IndexError) m = Ok n ->
       (m <= n)%nat /\ forall c f, In c l -> p_f p c = Some f -> (k_lv (f_ks f) <= n)%nat).
    { induction l as [|c l IH]; intros m n' Q.
      - injection Q as <-. split; auto. intros ? ? [].
      - cbn [forL] in Q. destruct (get_f p c) as [f|] eqn:Fc; [|discriminate]. cbn [bind] in Q. apply get_f_inv in Fc.
        destruct (spin <? k_cols (f_ks f))%nat; [|discriminate]. cbn [bind] in Q. destruct (IH _ _ Q) as (I1 & I2). split; [lia|]. intros c' f' [<- | IN] Ff; [|eapply I2; eauto].
        rewrite Fc in Ff. injection Ff as <-. lia. }
    destruct (Q _ _ _ EN) as (_ & Q2). exact Q2. }
  assert (K : exists B E P, fst r = flat_map P (seq 0 n) /\ snd r = flat_map E (seq 0 n) /\
     forall i, (i < n)%nat -> trial p spin i (B i) /\ level_ok g w v (po_ess (p_opt p)) i (B i) (E i) (P i)).
  { refine (forN_inv _ (fun n r => exists B E P, fst r = flat_map P (seq 0 n) /\ snd r = flat_map E (seq 0 n) /\
      forall i, (i < n)%nat -> trial p spin i (B i) /\ level_ok g w v (po_ess (p_opt p)) i (B i) (E i) (P i)) n _ _ _ ER _ _).
    - exists (fun _ => []), (fun _ => []), (fun _ => []). split; [reflexivity|]. split; [reflexivity|]. intros; lia.
    - intros i x y Hi (B & E & P & I1 & I2 & I3) Q. destruct (guess_basis spin i p) as [[[l mH] m]|] eqn:EB; [|discriminate]. cbn [bind] in Q.
      destruct (basis_trial _ _ _ _ _ _ L EB) as (T & -> & ->). destruct (guess_level g w (po_ess (p_opt p)) v (l, Z.of_nat i, Z.of_nat i)) as [e' ph'] eqn:GL. injection Q as <-. cbn [fst snd].
      pose proof (level_spec g w v G W _ _ _ _ _ GL) as LO.
      exists (fun a => if (a =? i)%nat then l else B a), (fun a => if (a =? i)%nat then e' else E a), (fun a => if (a =? i)%nat then ph' else P a).
      rewrite seq_S, !flat_map_app. cbn [flat_map Nat.add]. rewrite Nat.eqb_refl, !app_nil_r.
      assert (X : forall (A : Type) (f : nat -> list A) z, flat_map (fun a => if (a =? i)%nat then z else f a) (seq 0 i) = flat_map f (seq 0 i)).
      { intros A f z. rewrite !flat_map_concat_map. f_equal. apply map_ext_in. intros a Ha. apply in_seq in Ha. destruct (Nat.eqb_spec a i); [lia|reflexivity]. }
      rewrite !X, I1, I2. split; [reflexivity|]. split; [reflexivity|]. intros a Ha. destruct (Nat.eqb_spec a i) as [->|]; [auto|apply I3; lia]. }
  destruct K as (B & E & P & K1 & K2 & K3). exists n, B, E, P. auto.
Qed.

(** ** The guess for the potential *)
Theorem guess_potential : forall g w spin p ph e v0, initialguessinvert g w spin p = Ok (ph, e, v0) ->
  forall F V Q u, (forall c, In c (comps_ab p) -> p_f p c = Some (F c) /\ k_veff (f_ks (F c)) = Some (V c) /\ f_Q (F c) = Some (Q c)) ->
  (po_ess (p_opt p) = true -> forall c, In c (comps_ab p) -> k_u (f_ks (F c)) = Some (u c)) ->
  let o := if (spin =? 0)%nat then 1%nat else 0%nat in
  let S := fun k => lsum (comps_ab p) (fun c => V c k spin * Q c k spin + if po_ess (p_opt p) then (V c k o - u c) * Q c k o else 0) in
  forall ia ir, is_point g ia ir -> v0 (pos g ia ir) = S (pos g ia ir) + if po_ab (p_opt p) then S (pos g (Na g - 1 - ia) ir) else 0.
Proof.
  intros g w spin p ph e v0 H F V Q u HF HU o S ia ir PT. unfold initialguessinvert in H.
  destruct (guess_v0 g spin p) as [v|] eqn:EV; [|discriminate]. cbn [bind] in H.
  match type of H with bind ?x _ = _ => destruct x as [n|] end; [|discriminate]. cbn [bind] in H.
  match type of H with bind ?x _ = _ => destruct x as [r|] end; [|discriminate]. cbn [bind] in H. injection H as _ _ <-.
  unfold guess_v0 in EV. match type of EV with bind ?x _ = _ => destruct x as [v1|] eqn:E1 end; [|discriminate]. cbn [bind] in EV.
  match type of EV with bind ?x _ = _ => destruct x as [v2|] eqn:E2 end; [|discriminate]. cbn [bind] in EV. injection EV as <-.
  assert (A1 : forall l a b, (forall c, In c l -> In c (comps_ab p)) ->
     forL l (fun c acc => do f <- get_f p c; do ve <- need (k_veff (f_ks f)); do cv <- column (p_pol p) ve spin; do cq <- Qcol (p_pol p) f spin; Ok (fun k => acc k + cv k * cq k)) a = Ok b ->
     forall k, b k = a k + lsum l (fun c => V c k spin * Q c k spin)).
  { induction l as [|c l IH]; intros a b I J k; [injection J as <-; cbn [lsum]; ring|]. cbn [forL] in J. destruct (HF c) as (F1 & F2 & F3); [apply I; left; auto|].
    unfold get_f in J at 1. rewrite F1 in J. cbn [have bind] in J. rewrite F2 in J. cbn [need bind] in J. unfold column at 1 in J. destruct (spin <? p_pol p)%nat eqn:B; [|discriminate]. cbn [bind] in J.
    unfold Qcol in J at 1. rewrite F3 in J. unfold column at 1 in J. rewrite B in J. cbn [bind] in J. rewrite (IH _ _ ltac:(intros; apply I; right; auto) J). cbn [lsum]. ring. }
  assert (A2 : forall l a b, (forall c, In c l -> In c (comps_ab p)) -> po_ess (p_opt p) = true ->
     forL l (fun c acc => do f <- get_f p c; do ve <- need (k_veff (f_ks f)); do cv <- column (p_pol p) ve o; do u <- need (k_u (f_ks f)); do cq <- Qcol (p_pol p) f o; Ok (fun k => acc k + (cv k - u) * cq k)) a = Ok b ->
     forall k, b k = a k + lsum l (fun c => (V c k o - u c) * Q c k o)).
  { induction l as [|c l IH]; intros a b I ES J k; [injection J as <-; cbn [lsum]; ring|]. cbn [forL] in J. destruct (HF c) as (F1 & F2 & F3); [apply I; left; auto|]. pose proof (HU ES c ltac:(apply I; left; auto)) as F4.
    unfold get_f in J at 1. rewrite F1 in J. cbn [have bind] in J. rewrite F2 in J. cbn [need bind] in J. unfold column at 1 in J. destruct (o <? p_pol p)%nat eqn:B; [|discriminate]. cbn [bind] in J. rewrite F4 in J. cbn [need bind] in J.
    unfold Qcol in J at 1. rewrite F3 in J. unfold column at 1 in J. rewrite B in J. cbn [bind] in J. rewrite (IH _ _ ltac:(intros; apply I; right; auto) ES J). cbn [lsum]. ring. }
  assert (LP : forall l (h h' : comp -> R), lsum l (fun c => h c + h' c) = lsum l h + lsum l h') by (induction l; intros; cbn [lsum]; [ring|rewrite IHl; ring]).
  assert (LZ : forall l, lsum l (fun _ => 0) = 0) by (induction l; cbn [lsum]; [ring|rewrite IHl; ring]).
  assert (B : forall k, v2 k = S k).
  { intros k. unfold S. pose proof (A1 _ _ _ (fun c h => h) E1 k) as X. destruct (po_ess (p_opt p)) eqn:ES.
    - rewrite (A2 _ _ _ (fun c h => h) eq_refl E2 k), X. rewrite LP. ring.
    - injection E2 as <-. rewrite X, LP, LZ. ring. }
  destruct (po_ab (p_opt p)).
  - rewrite mirror1_pos by auto. rewrite !B. reflexivity.
  - rewrite B. ring.
Qed.
(** With ab_sym each trial function occurs twice, so that the trial functions are dependent and every number solves the pencil. *)
Theorem guess_singular : forall g p spin i l m v, po_ab (p_opt p) = true -> trial p spin i l -> l <> [] ->
  exists x : vec, (exists j, (j < List.length l)%nat /\ x j <> 0) /\ (forall k, sumR (List.length l) (fun j => x j * member_of l j k) = 0) /\
    forall e a, sumR (List.length l) (fun j => Fmat g m v l a j * x j) = e * sumR (List.length l) (fun j => Smat g l a j * x j).
Proof.
  intros g p spin i l m v AB (la & lA & lb & lB & _ & _ & T & ->) NE. rewrite AB in T. destruct T as (-> & ->).
  rewrite app_assoc in *. generalize dependent (la ++ lA)%list. clear la lA. intros h NE.
  assert (HN : (0 < List.length h)%nat) by (destruct h; [contradiction|cbn; lia]). set (n := List.length h) in *.
  assert (X : forall (f : vec -> R), sumR (List.length (h ++ h)) (fun j => f (member_of (h ++ h) j) * (if (j =? 0)%nat then 1 else if (j =? n)%nat then -1 else 0)) = 0).
  { intros f. rewrite app_length. fold n. rewrite sumR_app.
    assert (E : member_of (h ++ h) n = member_of (h ++ h) 0) by (unfold member_of; rewrite app_nth2 by (fold n; lia); rewrite app_nth1 by (fold n; lia); fold n; rewrite Nat.sub_diag; reflexivity).
    match goal with |- ?A + ?B = 0 => assert (EA : A = f (member_of (h ++ h) 0)); [|assert (EB : B = - f (member_of (h ++ h) 0)); [|rewrite EA, EB; ring]] end.
    - rewrite (sumR_single n 0%nat); [cbn [Nat.eqb]; ring|auto|]. intros j Hj N. destruct (Nat.eqb_spec j 0); [contradiction|]. destruct (Nat.eqb_spec j n); [lia|ring].
    - rewrite (sumR_single n 0%nat); [|auto|].
      + rewrite Nat.add_0_r, E, Nat.eqb_refl. destruct (Nat.eqb_spec n 0); [lia|ring].
      + intros j Hj N. destruct (Nat.eqb_spec (n + j) 0); [lia|]. destruct (Nat.eqb_spec (n + j) n); [lia|ring]. }
  exists (fun j => if (j =? 0)%nat then 1 else if (j =? n)%nat then -1 else 0). split; [|split].
  - exists 0%nat. split; [rewrite app_length; fold n; lia|]. cbn [Nat.eqb]. lra.
  - intros k. etransitivity; [|exact (X (fun f => f k))]. apply sumR_ext. intros. apply Rmult_comm.
  - intros e a. pose proof (X (fun f => overlap_of g (normalised g (member_of (h ++ h) a)) (Hpsi g m v (normalised g f)))) as X1.
    pose proof (X (fun f => overlap_of g (normalised g (member_of (h ++ h) a)) (normalised g f))) as X2. cbv beta in X1, X2. unfold Fmat, Smat. rewrite X1, X2. ring.
Qed.
