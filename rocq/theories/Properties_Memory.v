(** Properties C110-C111: Kohnsham.scf keeps no hidden state; runs that do not move. *)
From Coq Require Import Reals List Arith Lia Lra ZArith Bool String.
From Verif Require Import Base BaseLemmas GridModel GridSpec HartreeModel SolverModel LibxcModel OptionsModel KSModel KSSpec KSProofs KSThms KSLoop KSEnergy SelfConsistent NonInteracting GridWitness SolverCases KSWit KSMemory KSMemoryWit.
Import ListNotations.
Local Open Scope R_scope.

(** * C110: a pass depends on the density only *)
Theorem C110_pass : forall g w o o' l l' a b a' b', steady g w -> so_alpha o' = so_alpha o -> so_flip o' = so_flip o -> frame (c_ks a) (c_ks b) -> k_n (c_ks b) = k_n (c_ks a) -> k_vext (c_ks b) = k_vext (c_ks a) ->
  scf_body g w o l a = Ok a' -> scf_body g w o' l' b = Ok b' ->
  frame (c_ks a') (c_ks b') /\ k_n (c_ks b') = k_n (c_ks a') /\ k_vext (c_ks b') = k_vext (c_ks a') /\ c_oldE b' = c_oldE a' /\ c_oldn b' = c_oldn a' /\
  (forall i j, place (c_ks a) i j -> k_sol (c_ks b') i j = k_sol (c_ks a') i j).
Proof. exact pass_memoryless. Qed.
Print Assumptions C110_pass.
(** Tolerance, iteration limit, diagonaliser and finishing order do not change the iterates. *)
Theorem C110_same_iterates : forall g w o o' sched sched' k s t, steady g w -> so_alpha o' = so_alpha o -> so_flip o' = so_flip o -> so_cont o' = so_cont o -> scf_trace g w o sched k s -> scf_trace g w o' sched' k t -> c_iter t = c_iter s ->
  k_n (c_ks t) = k_n (c_ks s) /\ c_oldE t = c_oldE s /\ forall i j, place k i j -> k_sol (c_ks t) i j = k_sol (c_ks s) i j.
Proof. intros g w o o' sched sched' k s t ST A F C Ts Tt I. destruct (same_iterates g w o o' sched sched' k s t ST (conj A F) C Ts Tt I) as ((_ & N & _) & E & _ & S). auto. Qed.
Print Assumptions C110_same_iterates.
(** A call that ends is continued by a second call with continuing=True exactly as if it had not ended. *)
Theorem C110_continued : forall g w sched sched1 sched2 d d1 d2 o o1 o2 k s t st, steady g w -> scf_options d = Ok o -> scf_options d1 = Ok o1 -> scf_options d2 = Ok o2 ->
  so_alpha o1 = so_alpha o -> so_flip o1 = so_flip o -> so_alpha o2 = so_alpha o -> so_flip o2 = so_flip o -> so_cont o1 = so_cont o -> so_cont o2 = true ->
  ks_scf g w sched1 d1 k = Ok s -> ks_scf g w sched2 d2 (c_ks s) = Ok t -> ks_scf g w sched d k = Ok st -> (c_iter st = c_iter s + (c_iter t - 1))%Z -> (2 <= c_iter t)%Z ->
  k_n (c_ks t) = k_n (c_ks st) /\ c_oldE t = c_oldE st /\ forall i j, place k i j -> k_sol (c_ks t) i j = k_sol (c_ks st) i j.
Proof.
  intros g w sched sched1 sched2 d d1 d2 o o1 o2 k s t st ST O O1 O2 A1 F1 A2 F2 C1 C2 S T U I I2.
  destruct (scf_inv _ _ _ _ _ _ S) as (o' & Q & TS & _). rewrite O1 in Q. injection Q as <-. destruct (scf_inv _ _ _ _ _ _ T) as (o' & Q & TT & _). rewrite O2 in Q. injection Q as <-. destruct (scf_inv _ _ _ _ _ _ U) as (o' & Q & TU & _). rewrite O in Q. injection Q as <-.
  destruct (continued g w o o1 o2 sched sched1 sched2 k s st t ST (conj A1 F1) (conj A2 F2) C1 C2 TS TT TU I) as ((_ & N & _) & E). destruct (E I2) as (E1 & _ & E2). auto.
Qed.
Print Assumptions C110_continued.
(** the same for every state the calls pass through *)
Theorem C110_continued_states : forall g w o o1 o2 sched sched1 sched2 k s st t, steady g w -> same_rule o o1 -> same_rule o o2 -> so_cont o1 = so_cont o -> so_cont o2 = true ->
  scf_trace g w o1 sched1 k s -> scf_trace g w o2 sched2 (c_ks s) t -> scf_trace g w o sched k st -> (c_iter st = c_iter s + (c_iter t - 1))%Z ->
  same_state k st t /\
  ((2 <= c_iter t)%Z -> c_oldE t = c_oldE st /\ c_oldn t = c_oldn st /\ forall i j, place k i j -> k_sol (c_ks t) i j = k_sol (c_ks st) i j).
Proof. exact continued. Qed.
Print Assumptions C110_continued_states.
(** one pass, then a second call with one pass, against a call with two passes; the density moves *)
Lemma C110_witness : exists k d d1 d2 o o1 o2 st s t k0 n0 n, ks_init g22 0 0 2 1 2 (fun _ _ => 1%nat) 1 2 ex_N ex_opt = Ok k /\ ks_scf g22 fr_env (fun _ => keys k) d k = Ok st /\ ks_scf g22 fr_env (fun _ => keys k) d1 k = Ok s /\
  ks_scf g22 fr_env (fun _ => keys (c_ks s)) d2 (c_ks s) = Ok t /\ scf_options d = Ok o /\ scf_options d1 = Ok o1 /\ scf_options d2 = Ok o2 /\ steady g22 fr_env /\ same_rule o o1 /\ same_rule o o2 /\ so_cont o1 = so_cont o /\ so_cont o2 = true /\
  c_iter st = 3%Z /\ c_iter s = 2%Z /\ c_iter t = 2%Z /\ scf_start g22 fr_env o (keys k) k = Ok k0 /\ k_n k0 = Some n0 /\ n0 1%nat 0%nat = n0 0%nat 0%nat /\ k_n (c_ks s) = Some n /\ n 1%nat 0%nat <> n 0%nat 0%nat.
Proof. exact fr_continued. Qed.

(** * C111: runs that do not move *)
(** From a density that the solvers reproduce, or with mixing factor 0, the loop makes two passes, keeps the density and reports the difference 0. *)
Theorem C111_static : forall g w sched d k st o n, ks_scf g w sched d k = Ok st -> scf_options d = Ok o -> steady g w -> so_flip o = false -> k_pol k = 2%nat -> (0 < Nelem g)%nat ->
  (exists k0, scf_start g w o (sched 0%Z) k = Ok k0 /\ k_n k0 = Some n) -> so_alpha o = 0 \/ self_consistent g w k n -> (forall s, (s < 2)%nat -> 0 < amount g n s) ->
  0 <= so_tol o < 1 -> (3 <= so_maxiter o)%Z -> c_oldE st <> Fin 0 ->
  k_n (c_ks st) = Some n /\ c_iter st = 3%Z /\ c_diff st = Fin 0.
Proof. exact static_run. Qed.
Print Assumptions C111_static.
(** Therefore the reported difference does not show self-consistency: with mixing factor 0 a run ends after two passes with difference 0 at a density that the solvers do not reproduce. *)
Theorem C111_self_consistency_refuted : exists g w sched d k st o n, ks_scf g w sched d k = Ok st /\ scf_options d = Ok o /\ steady g w /\ c_iter st = 3%Z /\ (c_iter st < so_maxiter o)%Z /\ c_diff st = Fin 0 /\ k_n (c_ks st) = Some n /\
  forall k1 it dif l vh nout, calc_hxc_potential g w (c_ks st) = Ok k1 -> k_vhxc k1 = Some vh -> delivered g w it dif l (c_ks st) (outer k) vh nout -> exists x, (x < Nelem g)%nat /\ nout x 0%nat <> n x 0%nat.
Proof.
  destruct fr_zero_run as (k & st & o & k0 & n & _ & R & O & ST & F & P & S & N & A & AM & T & M & E & D). exists g22, fr_env, (fun _ => keys k), fr_zero, k, st, o, n.
  destruct (static_run _ _ _ _ _ _ _ n R O ST F P) as (X1 & X2 & X3); [rewrite g22_n; lia|exists k0; auto|left; exact A|exact AM|exact T|rewrite M; lia|rewrite E; intros Q; injection Q as Q; lra|].
  do 4 (split; [assumption|]). split; [rewrite X2, M; lia|]. do 2 (split; [assumption|]). intros k1 it dif l vh nout. apply D. destruct (scf_inv _ _ _ _ _ _ R) as (o' & O' & TR & _). rewrite O in O'. injection O' as <-. exact TR.
Qed.
Print Assumptions C111_self_consistency_refuted.
(** mixing factor 0; and a call continuing from a self-consistent density with mixing factor 1/2 *)
Lemma C111_witness : (exists k st o k0 n, ks_init g22 0 0 2 1 2 (fun _ _ => 1%nat) 1 2 ex_N ex_opt = Ok k /\ ks_scf g22 fr_env (fun _ => keys k) fr_zero k = Ok st /\ scf_options fr_zero = Ok o /\ steady g22 fr_env /\
  so_flip o = false /\ k_pol k = 2%nat /\ scf_start g22 fr_env o (keys k) k = Ok k0 /\ k_n k0 = Some n /\ so_alpha o = 0 /\ (forall s, (s < 2)%nat -> 0 < amount g22 n s) /\
  0 <= so_tol o < 1 /\ so_maxiter o = 100%Z /\ c_oldE st = Fin (-2)) /\
  exists k d d1 s q o n st, ks_init g22 0 0 2 1 2 (fun _ _ => 1%nat) 1 2 ex_N ex_opt = Ok k /\ ks_scf g22 fr_env (fun _ => keys k) d1 k = Ok s /\ q = c_ks s /\
  ks_scf g22 fr_env (fun _ => keys q) d q = Ok st /\ scf_options d = Ok o /\ steady g22 fr_env /\ so_flip o = false /\ k_pol q = 2%nat /\ (exists k0, scf_start g22 fr_env o (keys q) q = Ok k0 /\ k_n k0 = Some n) /\
  so_alpha o = 1 / 2 /\ self_consistent g22 fr_env q n /\ (forall s, (s < 2)%nat -> 0 < amount g22 n s) /\ 0 <= so_tol o < 1 /\ so_maxiter o = 100%Z /\ c_oldE st = Fin (-2) /\ n 1%nat 0%nat <> n 0%nat 0%nat.
Proof.
  split; [|exact fr_settled]. destruct fr_zero_run as (k & st & o & k0 & n & A1 & A2 & A3 & A4 & A5 & A6 & A7 & A8 & A9 & A10 & A11 & A12 & A13 & _). exists k, st, o, k0, n. repeat (split; [assumption|]). assumption.
Qed.
