(** Concrete grids meeting the hypotheses of the grid theorems: the least-squares fields are the exact
    (Lagrange) solutions, so the contracts [lstsq_ok] and [fd_ok] are satisfiable for every size. *)
From Coq Require Import Reals List Arith Lia Lra ZArith.
From Coquelicot Require Import Coquelicot.
From Verif Require Import Base BaseLemmas GridModel Poly GridSpec GridProofs NCProofs FDProofs.
Import ListNotations.
Local Open Scope R_scope.

Definition fd_sol (b d : nat) : vec :=
  vander_sol (2 * b + 1) (fd_x (sym_stencil b)) (fun p => if (p =? d)%nat then INR (fact p) else 0).
Definition grid_of (NP NMa NMr : nat) (a L : R) (b : nat) : grid :=
  mkGrid NP NMa NMr a L (sym_stencil b)
    (vander_sol NP nc_x (nc_b NP)) (vander_sol NP nc_x1 nc_b1) (fd_sol b 1) (fd_sol b 2).

Lemma fd_sol_ok : forall b d, solves (length (sym_stencil b)) (transp (fd_table (sym_stencil b))) (fd_rhs d) (fd_sol b d).
Proof.
  intros b d p Hp. rewrite sym_stencil_length in Hp |- *.
  pose proof (sym_distinct b) as HD. rewrite sym_stencil_length in HD.
  pose proof (vander_exists (2 * b + 1) (fd_x (sym_stencil b)) (fun p => if (p =? d)%nat then INR (fact p) else 0)
    HD p Hp) as E.
  fold (fd_sol b d) in E. unfold transp, fd_table, fd_rhs.
  rewrite (sumR_ext _ _ (fun j => - 1 / INR (fact p) * (fd_x (sym_stencil b) j ^ p * fd_sol b d j))) by (intros; ring).
  rewrite sumR_scal, E. pose proof (INR_fact_neq_0 p). destruct (p =? d)%nat; field; auto.
Qed.

Lemma grid_of_lstsq : forall NP NMa NMr a L b, lstsq_ok (grid_of NP NMa NMr a L b).
Proof.
  intros. unfold lstsq_ok, grid_of; simpl.
  repeat split; try apply fd_sol_ok; intros p Hp; apply vander_exists; auto using nc_x_distinct, nc_x1_distinct.
Qed.
Lemma grid_of_fd : forall NP NMa NMr a L b, (1 <= b)%nat -> fd_ok (grid_of NP NMa NMr a L b) b.
Proof. intros. unfold fd_ok, grid_of; simpl. repeat split; auto; apply fd_sol_ok. Qed.
Lemma grid_of_ok : forall NP NMa NMr a L b, (2 <= NP)%nat -> (1 <= NMa)%nat -> (1 <= NMr)%nat -> 0 < a -> 0 < L ->
  grid_ok (grid_of NP NMa NMr a L b).
Proof. intros. unfold grid_ok, grid_of; simpl. auto. Qed.

(** The grid of the project's own tests: NP = 7, four blocks in each direction, stencil -4..4. *)
Definition g_test : grid := grid_of 7 4 4 1 3 4.
Lemma g_test_ok : grid_ok g_test.
Proof. apply grid_of_ok; try lia; lra. Qed.
Lemma g_test_lstsq : lstsq_ok g_test.
Proof. apply grid_of_lstsq. Qed.
Lemma g_test_fd : fd_ok g_test 4.
Proof. apply grid_of_fd; lia. Qed.
Lemma g_test_sizes : Na g_test = 25%nat /\ Nr g_test = 25%nat /\ Nelem g_test = 625%nat /\ gNMa g_test = gNMr g_test.
Proof. repeat split; reflexivity. Qed.

(** Two smallest grids used in counterexamples. *)
Definition g22 : grid := grid_of 2 1 1 1 1 1.
Definition g23 : grid := grid_of 2 1 2 1 1 1.
Lemma nc2 : forall w sol1, solves 2 nc_A (nc_b 2) w -> solves 2 nc_A1 nc_b1 sol1 ->
  w 0%nat = / 2 /\ w 1%nat = / 2 /\ sol1 1%nat = / 4.
Proof.
  intros w s Hw Hs.
  pose proof (Hw 0%nat ltac:(lia)) as W0. pose proof (Hw 1%nat ltac:(lia)) as W1.
  pose proof (Hs 0%nat ltac:(lia)) as S0. pose proof (Hs 1%nat ltac:(lia)) as S1.
  unfold nc_A, nc_A1, nc_b, nc_b1, nc_x, nc_x1 in *. simpl in *. lra.
Qed.
Lemma g22_w : forall i, (i < 2)%nat -> wa g22 i = 3 / 4 /\ wr g22 i = 3 / 4.
Proof.
  intros i Hi. destruct (nc2 (ls_nc g22) (ls_nc1 g22)) as (A & B & C); [apply (grid_of_lstsq 2 1 1 1 1 1)..|].
  unfold wa, wr, nc_weights, nc_ends, nc_w1, nc_NP. change (gNP g22) with 2%nat.
  change (gNMa g22) with 1%nat. change (gNMr g22) with 1%nat.
  set (w := ls_nc g22) in *. set (s := ls_nc1 g22) in *.
  destruct i as [|[|i]]; [| |lia]; simpl; lra.
Qed.
Lemma g23_w : wa g23 0%nat = 3 / 4 /\ wa g23 1%nat = 3 / 4 /\ wr g23 0%nat = 3 / 4 /\ wr g23 1%nat = 1 /\ wr g23 2%nat = 3/4.
Proof.
  destruct (nc2 (ls_nc g23) (ls_nc1 g23)) as (A & B & C); [apply (grid_of_lstsq 2 1 2 1 1 1)..|].
  unfold wa, wr, nc_weights, nc_ends, nc_w1, nc_NP. change (gNP g23) with 2%nat.
  change (gNMa g23) with 1%nat. change (gNMr g23) with 2%nat.
  set (w := ls_nc g23) in *. set (s := ls_nc1 g23) in *. simpl; lra.
Qed.
(** Stencil -1..1: the textbook coefficients. *)
Lemma fd1_coef : forall g, fd_ok g 1 ->
  d1 g 0%nat = - / 2 /\ d1 g 1%nat = 0 /\ d1 g 2%nat = / 2 /\
  d2 g 0%nat = 1 /\ d2 g 1%nat = - 2 /\ d2 g 2%nat = 1.
Proof.
  intros g (E & _ & H1 & H2). rewrite E in H1, H2.
  assert (X : forall j, fd_x (sym_stencil 1) j = IZR (nth j [-1; 0; 1]%Z 0%Z)) by reflexivity.
  pose proof (H1 0%nat ltac:(simpl; lia)) as A0. pose proof (H1 1%nat ltac:(simpl; lia)) as A1.
  pose proof (H1 2%nat ltac:(simpl; lia)) as A2.
  pose proof (H2 0%nat ltac:(simpl; lia)) as B0. pose proof (H2 1%nat ltac:(simpl; lia)) as B1.
  pose proof (H2 2%nat ltac:(simpl; lia)) as B2.
  unfold transp, fd_table, fd_rhs in *. rewrite sym_stencil_length in *.
  simpl in A0, A1, A2, B0, B1, B2. unfold fd_x in *. simpl in A0, A1, A2, B0, B1, B2.
  assert (Q1 : ls_fd1 g 0%nat = - / 2 /\ ls_fd1 g 1%nat = 0 /\ ls_fd1 g 2%nat = / 2) by lra.
  assert (Q2 : ls_fd2 g 0%nat = 1 /\ ls_fd2 g 1%nat = - 2 /\ ls_fd2 g 2%nat = 1) by lra.
  unfold d1, d2, fd_coef. destruct Q1 as (Qa & Qb & Qc). destruct Q2 as (Qd & Qe & Qf).
  rewrite Qa, Qb, Qc, Qd, Qe, Qf.
  assert (P : / 10 ^ 10 <= / 2) by (apply Rinv_le_contravar; [lra|simpl; lra]).
  assert (F : forall x, x = 0 \/ / 2 <= x \/ x <= - / 2 -> fd_flush x = x).
  { intros x Hx. apply fd_flush_id. destruct Hx as [Hx|Hx]; [left; auto|right].
    unfold Rabs; destruct (Rcase_abs x); lra. }
  repeat split; apply F; lra.
Qed.
