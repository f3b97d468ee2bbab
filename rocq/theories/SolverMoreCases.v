(** Further concrete cases for the solver properties: sorting of orbitals and the Newton update. *)
From Coq Require Import Reals List Arith Lia Lra ZArith Bool FunctionalExtensionality Permutation.
From Verif Require Import Base BaseLemmas GridModel GridSpec GridProofs FDProofs OpProofs AxisProofs GridWitness GridMore HartreeSpec LinAlg
  SolverModel SolverSpec SolverProofs SolverThms SolverResp SolverWitness SolverCases.
Import ListNotations.
Local Open Scope R_scope.
Local Opaque sinh cosh.

Lemma perm_two : forall p, Permutation p [0%nat; 1%nat] -> p = [0%nat; 1%nat] \/ p = [1%nat; 0%nat].
Proof.
  intros p H. pose proof (Permutation_length H) as L. destruct p as [|a [|b [|c p]]]; try discriminate.
  assert (A : In a [0; 1]%nat) by (apply (Permutation_in _ H); simpl; auto). assert (B : In b [0; 1]%nat) by (apply (Permutation_in _ H); simpl; auto).
  assert (ND : NoDup [a; b]) by (apply (Permutation_NoDup (Permutation_sym H)); repeat constructor; simpl; intuition lia).
  inversion ND as [|? ? N _]; subst. simpl in A, B, N. destruct A as [<-|[<-|[]]]; destruct B as [<-|[<-|[]]]; auto; exfalso; apply N; auto.
Qed.
Lemma sorted_case : exists s eigs asort ev pv e ph, s_sym s = true /\ s_Nmo s = 2%nat /\ eigs (-20) = Some (ev, pv) /\ (forall xs, argsort_ok xs (asort xs)) /\
  calc_orbitals g22 s eigs asort (-20) 0 = Some (e, ph) /\ ev 1%nat < ev 0%nat /\ e 0%nat = -2 /\ no_near 2 e /\ forall i, (i < 2)%nat -> ph i <> None.
Proof.
  destruct orbitals_nan_refuted as (_ & _ & _ & asort & _ & _ & _ & HA & _).
  set (s := mkSolver 0 1 4 2 false true (fun _ => 0) None None). set (ev := fun i : nat => if (i =? 0)%nat then -1 else -2). set (pv := fun i k : nat => if (i =? 0)%nat then 1 else 1 + INR k).
  destruct (calc_orbitals_sorted g22 s (fun _ => Some (ev, pv)) asort (-20) 0 ev pv eq_refl HA) as (perm & e & ph & C & P & E & M & NN).
  exists s, (fun _ => Some (ev, pv)), asort, ev, pv, e, ph. do 3 (split; [reflexivity|]). split; [exact HA|]. split; [exact C|]. split; [unfold ev; simpl; lra|].
  assert (Q : perm = [1%nat; 0%nat]).
  { destruct (perm_two perm P) as [Q|Q]; [|exact Q]. exfalso. specialize (M 0%nat 1%nat ltac:(lia) ltac:(simpl; lia)). rewrite !E, Q in M. unfold ev in M. simpl in M. lra. }
  assert (E0 : e 0%nat = -2) by (rewrite E, Q; reflexivity). assert (E1 : e 1%nat = -1) by (rewrite E, Q; reflexivity).
  assert (N2 : no_near 2 e). { intros i j Hi Hj. replace i with 0%nat by lia. replace j with 1%nat by lia. rewrite E0, E1. replace (-2 - -1) with (-1) by ring. rewrite Rabs_left by lra. replace (- -1) with (/ 1) by field. apply Rinv_le_contravar; simpl; lra. }
  split; [exact E0|]. split; [exact N2|]. apply (NN N2).
Qed.
Lemma newton_case : let H := ks_ham g22 i_solver22 in
  let start := fun j => if (j =? 0)%nat then i_phi j else normalize_col g22 (norm_occ i_solver22) (i_phi j) in
  let sol := fun q => i_lin (newton_C g22 H (i_eig q) (start q)) (newton_rhs g22 (res_col g22 H (i_eig q) (i_phi q))) in
  s_Nmo i_solver22 = 2%nat /\ (forall j, (j < 2)%nat -> 0 < norm2 g22 (i_phi j)) /\
  (forall q, (q < 2)%nat -> unconverged g22 H 0 (i_eig q) (i_phi q) ->
     solves (S (Nelem g22)) (newton_C g22 H (i_eig q) (start q)) (newton_rhs g22 (res_col g22 H (i_eig q) (i_phi q))) (sol q)) /\
  (forall j q, (q <= j < 2)%nat -> 0 < norm2 g22 (fun k => start j k - sol q k)) /\ unconverged g22 H 0 (i_eig 0%nat) (i_phi 0%nat).
Proof.
  intros H start sol. split; [reflexivity|]. split; [intros; apply i_norm, i_c_pos|]. split; [|split; [|exact i_unconv0]].
  - intros q Hq U. destruct q as [|q]; [exact i_solves|]. exfalso. replace (S q) with 1%nat in U by lia. exact (i_conv1 U).
  - intros j q _. exact (i_start_pos j q).
Qed.
