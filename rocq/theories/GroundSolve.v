(** Which levels calc_orbitals finds. *)
From Coq Require Import Reals List Arith Lia Lra ZArith Bool Relations Permutation.
From Verif Require Import Base BaseLemmas GridModel Poly GridSpec GridProofs FDProofs OpProofs AxisProofs GridWitness GridMore SolverModel SolverSpec SolverResp SolverThms
  MaxPrinciple NCSigns MirrorPart ZMatrix Ground GroundThms.
Import ListNotations.
Local Open Scope R_scope.
Local Opaque sinh cosh.

(** scipy's eigs with sigma = e0 and k = n (CADMium/pssolver/calc_orbitals.py:38): n solutions, and every solution
    with another value is at least as far from the shift as all of them. *)
Definition nearest (g : grid) (m : Z) (v : vec) (e0 : R) (n : nat) (ev : vec) (pv : nat -> vec) : Prop :=
  (forall i, (i < n)%nat -> somewhere g (pv i) /\ eigenpair g (hamiltonian g m) v (ev i) (pv i)) /\
  (forall e p, somewhere g p -> eigenpair g (hamiltonian g m) v e p ->
     (exists i, (i < n)%nat /\ ev i = e) \/ forall i, (i < n)%nat -> Rabs (ev i - e0) <= Rabs (e - e0)).

Lemma nth_in_range : forall perm n i, Permutation perm (seq 0 n) -> (i < n)%nat -> (nth i perm 0 < n)%nat.
Proof.
  intros perm n i P H. assert (L : length perm = n) by (rewrite (Permutation_length P); apply seq_length).
  assert (I1 : In (nth i perm 0%nat) (seq 0 n)) by (apply (Permutation_in _ P), nth_In; lia). apply in_seq in I1. lia.
Qed.
Lemma nth_onto : forall perm n j, Permutation perm (seq 0 n) -> (j < n)%nat -> exists i, (i < n)%nat /\ nth i perm 0%nat = j.
Proof.
  intros perm n j P H. assert (L : length perm = n) by (rewrite (Permutation_length P); apply seq_length).
  assert (I1 : In j perm) by (apply (Permutation_in _ (Permutation_sym P)), in_seq; lia).
  destruct (In_nth _ _ 0%nat I1) as (i & Hi & E). exists i. split; [lia|exact E].
Qed.

(** A shift at or below the lowest level finds the lowest levels. *)
Lemma lowest_found : forall g s m v a u eigs asort e0 fuel ev pv, three_point g -> ground g m v a u ->
  eigs e0 = Some (ev, pv) -> (forall xs, argsort_ok xs (asort xs)) -> nearest g m v e0 (s_Nmo s) ev pv -> (1 <= s_Nmo s)%nat -> e0 <= a ->
  exists e ph, calc_orbitals g s eigs asort e0 fuel = Some (e, ph) /\
    e 0%nat = a /\
    (forall i j, (i <= j)%nat -> (j < s_Nmo s)%nat -> e i <= e j) /\
    (forall e' p, somewhere g p -> eigenpair g (hamiltonian g m) v e' p ->
       (exists i, (i < s_Nmo s)%nat /\ e i = e') \/ e (s_Nmo s - 1)%nat <= e') /\
    (no_near (s_Nmo s) e -> (s_sym s = true -> forall k, (k < Nelem g)%nat -> mirror1 g v k = v k) ->
       exists p c, ph 0%nat = Some p /\ c <> 0 /\ forall k, (k < Nelem g)%nat -> p k = c * u k).
Proof.
  intros g s m v a u eigs asort e0 fuel ev pv T G He Ha [C1 C2] N L.
  destruct (calc_orbitals_sorted g s eigs asort e0 fuel ev pv He Ha) as (perm & e & ph & R1 & P & V & S & _).
  exists e, ph. split; [exact R1|].
  assert (E0 : e 0%nat = a).
  { pose proof (nth_in_range perm _ 0%nat P ltac:(lia)) as B. destruct (C1 _ B) as [Z Ep]. rewrite <- (V 0%nat) in Ep.
    pose proof (ground_lowest g T m v a u _ _ G Z Ep) as LE. destruct G as [U Eu].
    destruct (C2 a u (nodeless_somewhere g u U) Eu) as [(j & J & Ej)|F].
    - destruct (nth_onto perm _ j P J) as (i & I1 & Ei). pose proof (S 0%nat i ltac:(lia) I1) as Q. rewrite (V i), Ei, Ej in Q. lra.
    - pose proof (F _ B) as Q. rewrite <- (V 0%nat) in Q. rewrite !Rabs_pos_eq in Q by lra. lra. }
  split; [exact E0|]. split; [exact S|]. split.
  - intros e' p Z Ep. destruct (C2 e' p Z Ep) as [(j & J & Ej)|F].
    + left. destruct (nth_onto perm _ j P J) as (i & I1 & Ei). exists i. split; [exact I1|]. rewrite (V i), Ei. exact Ej.
    + right. pose proof (ground_lowest g T m v a u e' p G Z Ep) as LE.
      pose proof (nth_in_range perm _ (s_Nmo s - 1)%nat P ltac:(lia)) as B. pose proof (F _ B) as Q. rewrite <- (V (s_Nmo s - 1)%nat) in Q.
      pose proof (S 0%nat (s_Nmo s - 1)%nat ltac:(lia) ltac:(lia)) as Q'. rewrite !Rabs_pos_eq in Q by lra. lra.
  - intros NN Sy.
    assert (X : exists x c, c <> 0 /\ (forall k, (k < Nelem g)%nat -> x k = c * u k) /\ ph 0%nat = if s_sym s then sym_col g (Some x) else Some x).
    { unfold calc_orbitals in R1. rewrite He in R1. injection R1 as Re Rp. subst e. rewrite <- Rp. cbv beta.
      set (q := nth 0 (asort (map ev (seq 0 (s_Nmo s)))) 0%nat).
      assert (Q : (q < s_Nmo s)%nat).
      { apply nth_in_range; [|lia]. destruct (Ha (map ev (seq 0 (s_Nmo s)))) as (PP & _). rewrite map_length, seq_length in PP. exact PP. }
      destruct (C1 q Q) as [Z Ep]. pose proof (E0) as EE. cbv beta in EE. fold q in EE. rewrite EE in Ep.
      destruct (ground_others g T m v a u a (pv q) G Z Ep) as [(c & C & _ & F)|(B & _)]; [|lra].
      exists (pv q), c. split; [exact C|]. split; [exact F|]. rewrite mix_all_none by exact NN.
      replace (0 <? s_Nmo s)%nat with true by (symmetry; apply Nat.ltb_lt; lia). rewrite andb_true_r. fold q. reflexivity. }
    destruct X as (x & c & C & F & X). destruct (s_sym s) eqn:Es; [|exists x, c; auto].
    pose proof (ground_even g T m v a u G (Sy eq_refl)) as Ev.
    assert (Xe : forall k, (k < Nelem g)%nat -> mirror1 g x k = x k).
    { intros k K. rewrite (mirror1_ext _ g x (fun k => c * u k)) by auto. rewrite (mirror1_map _ _ g (fun t => c * t)) by auto. rewrite Ev, F by auto. reflexivity. }
    assert (D : 0 < sumR (Nelem g) (fun k => x k * mirror1 g x k)).
    { destruct G as [U _]. rewrite (sumR_ext _ (fun k => x k * mirror1 g x k) (fun k => c ^ 2 * (u k * u k))) by (intros k K; rewrite (Xe k K), (F k K); ring).
      pose proof (Nelem_pos g) as Z0. pose proof (term_le (Nelem g) (fun k => c ^ 2 * (u k * u k)) 0%nat Z0 ltac:(intros k K; apply Rmult_le_pos; [apply pow2_ge_0|pose proof (U k K); nra])) as TL.
      cbv beta in TL. apply Rlt_le_trans with (2 := TL). pose proof (U 0%nat Z0). apply Rmult_lt_0_compat; [|nra]. replace (c ^ 2) with (Rsqr c) by (unfold Rsqr; ring). apply Rsqr_pos_lt, C. }
    destruct (sym_col g (Some x)) as [y|] eqn:Y; [|exfalso; exact (sym_col_some g x Y)]. rewrite X.
    unfold sym_col in Y. destruct Rlt_dec as [_|K]; [|contradiction]. apply unit_col_form in Y. destruct Y as (-> & NZ).
    eexists. exists (2 * c / nrm g (fun k => x k + mirror1 g x k)). split; [reflexivity|]. split.
    + unfold Rdiv. apply Rmult_integral_contrapositive_currified; [lra|]. apply Rinv_neq_0_compat. exact NZ.
    + intros k K. cbv beta. rewrite (Xe k K) at 1. rewrite (F k K). field. exact NZ.
Qed.
(** In particular if the shift is below the potential everywhere. *)
Lemma below_potential : forall g m v a u e0, three_point g -> ground g m v a u -> (forall k, (k < Nelem g)%nat -> e0 <= v k) -> e0 <= a.
Proof. intros g m v a u e0 T G B. destruct (ground_above_potential g T m v a u G) as (k & K & L). pose proof (B k K). lra. Qed.

(** Any other shift is the level of an orbital with nodes in some potential. *)
Definition signs : vec := fun k => if (k =? 0)%nat then -1 else 1.
Lemma signs_sq : forall k, signs k * signs k = 1.
Proof. intros k. unfold signs. destruct (k =? 0)%nat; ring. Qed.
Definition v_bad (g : grid) (m : Z) (e0 : R) : vec := fun k => e0 - signs k * sumR (Nelem g) (fun j => hamiltonian g m k j * signs j) / gw g k.
Lemma bad_pair : forall g m e0, three_point g -> eigenpair g (hamiltonian g m) (v_bad g m e0) e0 signs.
Proof.
  intros g m e0 (Hg & _) k K. unfold v_bad. set (h := sumR _ _). pose proof (gw_pos g k Hg K). pose proof (signs_sq k) as Q.
  replace (h + gw g k * (e0 - signs k * h / gw g k) * signs k) with (h * (1 - signs k * signs k) + e0 * gw g k * signs k) by (field; lra). rewrite Q. ring.
Qed.
Lemma Nelem_two : forall g, grid_ok g -> (2 <= Nelem g)%nat.
Proof. intros g Hg. pose proof (Na_ge2 g Hg). pose proof (Nr_pos g). unfold Nelem. nia. Qed.
Lemma bad_above : forall g m e0 a u, three_point g -> ground g m (v_bad g m e0) a u -> a < e0.
Proof.
  intros g m e0 a u T G. assert (N : (2 <= Nelem g)%nat) by (apply Nelem_two, T).
  assert (Z : somewhere g signs) by (exists 0%nat; split; [lia|unfold signs; simpl; lra]).
  destruct (ground_others g T m _ a u e0 signs G Z (bad_pair g m e0 T)) as [(c & C & _ & F)|(L & _)]; [|exact L].
  exfalso. destruct G as [U _]. pose proof (F 0%nat ltac:(lia)) as F0. pose proof (F 1%nat ltac:(lia)) as F1. unfold signs in F0, F1. simpl in F0, F1.
  pose proof (U 0%nat ltac:(lia)). pose proof (U 1%nat ltac:(lia)). nra.
Qed.
Lemma ground_missed : forall g s m e0 asort fuel, three_point g -> s_Nmo s = 1%nat -> (forall xs, argsort_ok xs (asort xs)) ->
  exists v ev pv a u e ph, ground g m v a u /\ nearest g m v e0 1 ev pv /\
    calc_orbitals g s (fun _ => Some (ev, pv)) asort e0 fuel = Some (e, ph) /\ a < e 0%nat.
Proof.
  intros g s m e0 asort fuel T N1 Ha. exists (v_bad g m e0), (fun _ => e0), (fun _ => signs).
  destruct (ground_exists g T m (v_bad g m e0)) as (a & u & G). exists a, u.
  destruct (calc_orbitals_sorted g s (fun _ => Some (fun _ => e0, fun _ => signs)) asort e0 fuel _ _ eq_refl Ha) as (perm & e & ph & R1 & _ & V & _).
  exists e, ph. split; [exact G|]. split.
  - split.
    + intros i _. split; [|apply bad_pair; auto]. exists 0%nat. split; [apply Nelem_pos|unfold signs; simpl; lra].
    + intros e' p _ _. right. intros i _. rewrite Rminus_eq_0, Rabs_R0. apply Rabs_pos.
  - split; [exact R1|]. rewrite (V 0%nat). apply (bad_above g m e0 a u T G).
Qed.
