(** Property C125: Kohnsham.scf when the solvers contract densities. *)
From Coq Require Import Reals List Arith Lia Lra ZArith Bool String.
From Verif Require Import Base BaseLemmas GridModel GridSpec HartreeModel SolverModel LibxcModel OptionsModel KSModel KSSpec KSLoop SelfConsistent NonInteracting GridWitness SolverCases KSWit KSMemory KSMemoryWit Contraction ContractionWit.
Import ListNotations.
Local Open Scope R_scope.

(** Each pass brings the density closer to the self-consistent one by the factor 1 - alpha (1 - q). *)
Theorem C125_rate : forall g w o sched k P q, so_flip o = false -> 0 <= so_alpha o <= 1 -> contracts g w k P q -> stays g w k P (so_alpha o) -> (forall k0 n, scf_start g w o (sched 0%Z) k = Ok k0 -> k_n k0 = Some n -> P n) ->
  forall ns e n0 k0 st, self_consistent g w k ns -> P ns -> scf_start g w o (sched 0%Z) k = Ok k0 -> k_n k0 = Some n0 -> near g e n0 ns -> scf_trace g w o sched k st ->
  exists n, k_n (c_ks st) = Some n /\ near g ((1 - so_alpha o * (1 - q)) ^ Z.to_nat (c_iter st - 1) * e) n ns.
Proof. exact converges. Qed.
Print Assumptions C125_rate.
(** The change made by a pass bounds the distance from the self-consistent density, with the factor 1 / (alpha (1 - q)). *)
Theorem C125_change : forall g w o sched k P q, so_flip o = false -> 0 <= so_alpha o <= 1 -> contracts g w k P q -> stays g w k P (so_alpha o) -> (forall k0 n, scf_start g w o (sched 0%Z) k = Ok k0 -> k_n k0 = Some n -> P n) ->
  forall ns st st' n n' dl, self_consistent g w k ns -> P ns -> scf_trace g w o sched k st -> scf_body g w o (sched (c_iter st)) st = Ok st' -> k_n (c_ks st) = Some n -> k_n (c_ks st') = Some n' ->
  q < 1 -> 0 < so_alpha o -> 0 <= dl -> near g dl n' n -> near g (dl / (so_alpha o * (1 - q))) n ns /\ near g ((1 - so_alpha o * (1 - q)) * (dl / (so_alpha o * (1 - q)))) n' ns.
Proof. exact posterior. Qed.
Print Assumptions C125_change.
(** There is at most one self-consistent density. *)
Theorem C125_unique : forall g w k P q, contracts g w k P q -> forall a b, q < 1 -> self_consistent g w k a -> self_consistent g w k b -> P a -> P b -> forall x s, (x < Nelem g)%nat -> (s < 2)%nat -> a x s = b x s.
Proof. exact one_density. Qed.
Print Assumptions C125_unique.
(** The loop leaves with a residual not above the tolerance after at most K + 2 passes. *)
Theorem C125_stops : forall g w o sched k P q, so_flip o = false -> 0 <= so_alpha o <= 1 -> 0 <= q -> contracts g w k P q -> stays g w k P (so_alpha o) -> (forall k0 n, scf_start g w o (sched 0%Z) k = Ok k0 -> k_n k0 = Some n -> P n) ->
  forall d st e n0 k0 K L E0 A, ks_scf g w sched d k = Ok st -> scf_options d = Ok o -> k_pol k = 2%nat -> (0 < Nelem g)%nat ->
  scf_start g w o (sched 0%Z) k = Ok k0 -> k_n k0 = Some n0 -> (forall m, answer g w k n0 m -> near g e m n0) -> 0 <= e -> 0 <= L -> 0 < E0 -> 0 < A ->
  (forall a a' b b' na nb f, scf_trace g w o sched k a -> scf_test o a = Ok true -> scf_body g w o (sched (c_iter a)) a = Ok a' -> scf_trace g w o sched k b -> scf_test o b = Ok true -> scf_body g w o (sched (c_iter b)) b = Ok b' ->
     k_n (c_ks a) = Some na -> k_n (c_ks b) = Some nb -> near g f na nb -> exists Ea Eb, c_oldE a' = Fin Ea /\ c_oldE b' = Fin Eb /\ Rabs (Ea - Eb) <= L * f) ->
  (forall a E, scf_trace g w o sched k a -> (2 <= c_iter a)%Z -> c_oldE a = Fin E -> E0 <= Rabs E) ->
  (forall a n s, scf_trace g w o sched k a -> (2 <= c_iter a)%Z -> k_n (c_ks a) = Some n -> (s < 2)%nat -> A <= amount g n s) ->
  L * ((1 - so_alpha o * (1 - q)) ^ K * (so_alpha o * e)) <= so_tol o * E0 -> bulk g * ((1 - so_alpha o * (1 - q)) ^ S K * (so_alpha o * e)) <= so_tol o * A -> 0 <= so_tol o -> (Z.of_nat K + 3 <= so_maxiter o)%Z ->
  (c_iter st <= Z.of_nat K + 3)%Z /\ exists r, c_diff st = Fin r /\ r <= so_tol o.
Proof. exact stops. Qed.
Print Assumptions C125_stops.
(** two electrons with mixing factor 1/2: contraction with q = 0, a start that is not self-consistent, and an iteration limit that suffices *)
Lemma C125_witness : exists k d o st k0 n0 ns e K, ks_init g22 0 0 2 1 2 (fun _ _ => 1%nat) 1 2 ex_N ex_opt = Ok k /\ ks_scf g22 fr_env (fun _ => keys k) d k = Ok st /\ scf_options d = Ok o /\ so_flip o = false /\ so_alpha o = 1 / 2 /\
  contracts g22 fr_env k (fun _ => True) 0 /\ stays g22 fr_env k (fun _ => True) (so_alpha o) /\ scf_start g22 fr_env o (keys k) k = Ok k0 /\ k_n k0 = Some n0 /\ self_consistent g22 fr_env k ns /\ near g22 e n0 ns /\ (exists x, (x < Nelem g22)%nat /\ n0 x 0%nat <> ns x 0%nat) /\
  k_pol k = 2%nat /\ (0 < Nelem g22)%nat /\ (forall m, answer g22 fr_env k n0 m -> near g22 e m n0) /\ 0 <= e /\
  (forall a a' b b' na nb f, scf_trace g22 fr_env o (fun _ => keys k) k a -> scf_test o a = Ok true -> scf_body g22 fr_env o (keys k) a = Ok a' -> scf_trace g22 fr_env o (fun _ => keys k) k b -> scf_test o b = Ok true -> scf_body g22 fr_env o (keys k) b = Ok b' ->
     k_n (c_ks a) = Some na -> k_n (c_ks b) = Some nb -> near g22 f na nb -> exists Ea Eb, c_oldE a' = Fin Ea /\ c_oldE b' = Fin Eb /\ Rabs (Ea - Eb) <= 0 * f) /\
  (forall a E, scf_trace g22 fr_env o (fun _ => keys k) k a -> (2 <= c_iter a)%Z -> c_oldE a = Fin E -> 2 <= Rabs E) /\
  (forall a n s, scf_trace g22 fr_env o (fun _ => keys k) k a -> (2 <= c_iter a)%Z -> k_n (c_ks a) = Some n -> (s < 2)%nat -> 1 <= amount g22 n s) /\
  0 * (rate o 0 ^ K * (so_alpha o * e)) <= so_tol o * 2 /\ bulk g22 * (rate o 0 ^ S K * (so_alpha o * e)) <= so_tol o * 1 /\ 0 < so_tol o < 1 /\ (Z.of_nat K + 3 <= so_maxiter o)%Z.
Proof. exact co_run. Qed.
