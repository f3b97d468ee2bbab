(** Properties C112-C114: what happens when the distance between the nuclei is multiplied by lam and nothing else
    changes (uniform scaling). *)
From Coq Require Import Reals List Arith Lia Lra ZArith Bool String.
From Verif Require Import Base BaseLemmas GridModel GridSpec GridProofs OpProofs GridMore HartreeModel HartreeSpec HartreeThms SolverModel SolverSpec LibxcModel OptionsModel
  KSModel KSSpec KSProofs KSThms KSLoop SelfConsistent NonInteracting GridWitness SolverWitness SolverCases KSWit Scaling ScalingThms ScalingRun ScalingWit.
Import ListNotations.
Local Open Scope R_scope.

(** * C112: lengths, volumes and operators *)
Theorem C112_geometry : forall lam g k, 0 < lam -> let g' := stretch lam g in
  gZ g' k = lam * gZ g k /\ gY g' k = lam * gY g k /\ gw g' k = lam ^ 3 * gw g k /\ gf g' k = gf g k / lam ^ 2 /\
  forall f, integrate1 g' f = lam ^ 3 * integrate1 g f.
Proof.
  intros lam g k Hl g'. split; [apply sc_Z|]. split; [apply sc_Y|]. split; [apply sc_w|]. split; [|intro; apply sc_integrate].
  unfold g'. rewrite sc_f. unfold Rdiv. ring.
Qed.
Print Assumptions C112_geometry.
Theorem C112_operators : forall lam g, 0 < lam -> 0 < ga g -> let g' := stretch lam g in
  (forall f k, gapply g' (gradr g') f k = gapply g (gradr g) f k / lam) /\ (forall f k, gapply g' (grada g') f k = gapply g (grada g) f k / lam) /\
  (forall f k, gapply g' (divr g') f k = gapply g (divr g) f k / lam) /\ (forall f k, gapply g' (diva g') f k = gapply g (diva g) f k / lam) /\
  (forall f k, gw g k <> 0 -> gapply g' (elap g') f k / gw g' k = gapply g (elap g) f k / gw g k / lam ^ 2) /\
  (forall f k, gw g k <> 0 -> gapply g' (olap g') f k / gw g' k = gapply g (olap g) f k / gw g k / lam ^ 2) /\
  (forall f k, gw g k <> 0 -> matvec (Na g * bcN g) (blap g') f k / gw g' k = matvec (Na g * bcN g) (blap g) f k / gw g k / lam ^ 2).
Proof.
  intros lam g Hl Ha g'.
  assert (I : forall M M' : mat, (forall i j, M' i j = / lam * M i j) -> forall f k, gapply g' M' f k = gapply g M f k / lam).
  { intros M M' H f k. unfold g'. rewrite (sc_apply lam g M M' (/ lam) 1 f f k H); [unfold Rdiv; ring|]. intros. ring. }
  assert (L : forall (M M' : mat) n, (forall i j, M' i j = lam * M i j) -> forall f k, gw g k <> 0 -> matvec n M' f k / gw g' k = matvec n M f k / gw g k / lam ^ 2).
  { intros M M' n H f k W. unfold g'. rewrite sc_w. unfold matvec. rewrite (sumR_ext _ _ (fun j => lam * (M k j * f j))) by (intros; rewrite H; ring).
    rewrite sumR_scal. field. lra. }
  split; [apply I; intros; apply sc_gradr|]. split; [apply I; intros; apply sc_grada|].
  split; [apply I; intros; apply sc_divr, Hl|]. split; [apply I; intros; apply sc_diva, Hl|].
  split; [intros f k W; apply L; [intros; apply sc_elap|exact W]|]. split; [intros f k W; apply L; [intros; apply sc_olap|exact W]|].
  intros f k W. apply L; [intros; apply sc_blap|exact W].
Qed.
Print Assumptions C112_operators.
Theorem C112_nuclei : forall lam g Za Zb pol sym x j, 0 < lam ->
  coulomb (stretch lam g) Za Zb x = coulomb g Za Zb x / lam /\
  ks_vnuc (stretch lam g) (Za / lam) (Zb / lam) pol sym x j = ks_vnuc g Za Zb pol sym x j / lam ^ 2.
Proof.
  intros lam g Za Zb pol sym x j Hl. split; [rewrite sc_coulomb; unfold Rdiv; ring|apply vnuc_scaled, Hl].
Qed.
Print Assumptions C112_nuclei.
(** twice the distance between the nuclei: eight times the volume *)
Lemma C112_witness : ga (stretch 2 g22) = 2 * ga g22 /\ 0 < ga g22 /\ (forall k, (k < Nelem g22)%nat -> gw g22 k <> 0) /\
  0 < integrate1 g22 (fun _ => 1) /\ integrate1 (stretch 2 g22) (fun _ => 1) = 8 * integrate1 g22 (fun _ => 1).
Proof.
  split; [reflexivity|]. pose proof g22_ok as G. split; [apply G|]. split; [intros k Hk; apply Rgt_not_eq, gw_pos; auto|].
  split; [apply g22_int_pos; intros; lra|]. rewrite sc_integrate. ring.
Qed.

(** * C113: orbitals, densities and energies *)
Theorem C113_schroedinger : forall lam g, 0 < lam -> forall m v p e k,
  sumR (Nelem g) (fun j => (hamiltonian g m k j + diagflat (fun x => gw g x * v x) k j) * p j) = e * gw g k * p k <->
  sumR (Nelem g) (fun j => (hamiltonian (stretch lam g) m k j + diagflat (fun x => gw (stretch lam g) x * (v x / lam ^ 2)) k j) * p j)
    = e / lam ^ 2 * gw (stretch lam g) k * p k.
Proof. intros lam g Hl m v p e k. symmetry. apply (sc_eigen lam g Hl). Qed.
Print Assumptions C113_schroedinger.
Theorem C113_density : forall lam g s, 0 < lam ->
  carried (fun n n' => forall k, n' k = n k / lam ^ 3) (calc_density g s) (calc_density (stretch lam g) (lowered lam s)).
Proof. intros. apply sc_density. Qed.
Print Assumptions C113_density.
Theorem C113_energy : forall lam g s, 0 < lam -> carried
  (fun x y => let '(eks, Vs, Ts, n) := x in let '(eks', Vs', Ts', n') := y in
     eks' = eks / lam ^ 2 /\ (forall k, n' k = n k / lam ^ 3) /\
     exists t, Ts = Fin t /\ Ts' = Fin (t / lam ^ 2) /\
     exists v, v = integrate1 g (fun k => s_veff s k * n k) /\
       (Rabs v <= 10 ^ 5 -> Vs = Fin v) /\ (Rabs v / lam ^ 2 <= 10 ^ 5 -> Vs' = Fin (v / lam ^ 2)))
  (calc_energy g s) (calc_energy (stretch lam g) (lowered lam s)).
Proof. intros. apply sc_energy. assumption. Qed.
Print Assumptions C113_energy.
Theorem C113_homo : forall lam s, (0 < fst (nocc s))%Z ->
  carried (fun e e' => e' = e / lam ^ 2) (get_homo s) (get_homo (lowered lam s)).
Proof. intros lam s H. apply (sc_homo lam s H). Qed.
Print Assumptions C113_homo.
Theorem C113_kinetic_density : forall lam g s, 0 < lam ->
  carried (fun t t' => forall k, t' k = t k / lam ^ 5) (calc_ked_WFI g (hamiltonian g (s_m s)) s)
    (calc_ked_WFI (stretch lam g) (hamiltonian (stretch lam g) (s_m (lowered lam s))) (lowered lam s)).
Proof. intros. apply sc_ked. assumption. Qed.
Print Assumptions C113_kinetic_density.
(** Complete runs without interaction: nuclear charges divided by lam at lam times the distance. *)
Theorem C113_run_density : forall g lam w w' o sched sched' Za Zb pol lv cols lv' cols' Nmo N opt k k' st st', 0 < lam -> scaled_workers g lam w w' -> steady g w -> steady (stretch lam g) w' ->
  ks_init g Za Zb pol lv cols Nmo lv' cols' N opt = Ok k -> ks_init (stretch lam g) (Za / lam) (Zb / lam) pol lv cols Nmo lv' cols' N opt = Ok k' ->
  o_int (k_opt k) = "ni"%string -> so_cont o = false -> so_flip o = false ->
  scf_trace g w o sched k st -> scf_trace (stretch lam g) w' o sched' k' st' ->
  exists n n', k_n (c_ks st) = Some n /\ k_n (c_ks st') = Some n' /\ forall x s, (x < Nelem g)%nat -> n' x s = n x s / lam ^ 3.
Proof. exact scaled_density. Qed.
Print Assumptions C113_run_density.
Theorem C113_run_energy : forall g lam w w' o sched sched' Za Zb pol lv cols lv' cols' Nmo N opt k k' st st', 0 < lam -> 0 < ga g -> scaled_workers g lam w w' -> steady g w -> steady (stretch lam g) w' ->
  ks_init g Za Zb pol lv cols Nmo lv' cols' N opt = Ok k -> ks_init (stretch lam g) (Za / lam) (Zb / lam) pol lv cols Nmo lv' cols' N opt = Ok k' ->
  o_int (k_opt k) = "ni"%string -> o_sym (k_opt k) = false -> pol = cols -> so_cont o = false -> so_flip o = false ->
  scf_trace g w o sched k st -> scf_trace (stretch lam g) w' o sched' k' st' -> (2 <= c_iter st)%Z -> (2 <= c_iter st')%Z ->
  exists e, c_oldE st = Fin (e + Za * Zb / (2 * ga g)) /\ c_oldE st' = Fin (e / lam ^ 2 + Za * Zb / (2 * ga g) / lam ^ 3).
Proof. exact scaled_energy. Qed.
Print Assumptions C113_run_energy.
(** two protons with two electrons, and two half charges twice as far apart *)
Lemma C113_witness : exists k k' st st' o, ks_init g22 1 1 2 1 2 (fun _ _ => 1%nat) 1 2 ex_N ni_opt = Ok k /\ ks_init (stretch 2 g22) (1 / 2) (1 / 2) 2 1 2 (fun _ _ => 1%nat) 1 2 ex_N ni_opt = Ok k' /\
  ks_scf g22 ex_env (fun _ => keys k) [] k = Ok st /\ ks_scf (stretch 2 g22) far_env (fun _ => keys k') [] k' = Ok st' /\
  scaled_workers g22 2 ex_env far_env /\ steady g22 ex_env /\ steady (stretch 2 g22) far_env /\ o_int (k_opt k) = "ni"%string /\ o_sym (k_opt k) = false /\ so_cont o = false /\ so_flip o = false /\
  scf_trace g22 ex_env o (fun _ => keys k) k st /\ scf_trace (stretch 2 g22) far_env o (fun _ => keys k') k' st' /\ (2 <= c_iter st)%Z /\ (2 <= c_iter st')%Z.
Proof. exact far_case. Qed.

(** * C114: Hartree and exchange potentials *)
Theorem C114_hartree : forall lam g spL spU L U spL' spU' L' U' cols (n : nat -> nat -> R) v,
  0 < lam -> 0 < ga g ->
  solver_for (Nelem g) L spL -> solver_for (Nelem g) U spU -> solver_for (Nelem g) L' spL' -> solver_for (Nelem g) U' spU' ->
  (forall i j, (i < Nelem g)%nat -> (j < Nelem g)%nat -> matmul (Nelem g) L U i j = elap g i j) ->
  (forall i j, (i < Nelem g)%nat -> (j < Nelem g)%nat -> matmul (Nelem g) L' U' i j = elap (stretch lam g) i j) ->
  nonsing (Nelem g) (elap g) ->
  v_hartree g spL spU (A2 cols n) = Ok v ->
  exists v', v_hartree (stretch lam g) spL' spU' (A2 cols (fun k s => n k s / lam ^ 3)) = Ok v' /\ shape v' = shape v /\
  forall k s, (k < Nelem g)%nat -> entry v' k s = entry v k s / lam.
Proof. exact sc_hartree. Qed.
Print Assumptions C114_hartree.
Theorem C114_sigma : forall lam g pol (n : mat), 0 < lam ->
  carried (fun a b => fst b = fst a /\ forall k j, snd b k j = snd a k j / lam ^ 8) (sigma g pol n) (sigma (stretch lam g) pol (fun k s => n k s / lam ^ 3)).
Proof. intros lam g pol n Hl. apply (sc_sigma lam g Hl). reflexivity. Qed.
Print Assumptions C114_sigma.
Theorem C114_exchange : forall lam g lib fam id pol (n : mat), 0 < lam -> (forall F, lib id pol = Ok F -> exchange_like lam F) ->
  carried (fun x y => fst (fst y) = fst (fst x) / lam /\ (forall k, snd (fst y) k = snd (fst x) k / lam) /\ forall k s, snd y k s = snd x k s / lam)
    (get_xc g lib fam id pol n) (get_xc (stretch lam g) lib fam id pol (fun k s => n k s / lam ^ 3)).
Proof. intros lam g lib fam id pol n Hl. apply (sc_xc lam g Hl). Qed.
Print Assumptions C114_exchange.
Lemma C114_witness : (exists spL spU L U spL' L' v, 0 < ga g3p /\
    solver_for (Nelem g3p) L spL /\ solver_for (Nelem g3p) U spU /\ solver_for (Nelem g3p) L' spL' /\
    (forall i j, (i < Nelem g3p)%nat -> (j < Nelem g3p)%nat -> matmul (Nelem g3p) L U i j = elap g3p i j) /\
    (forall i j, (i < Nelem g3p)%nat -> (j < Nelem g3p)%nat -> matmul (Nelem g3p) L' U i j = elap (stretch 2 g3p) i j) /\
    nonsing (Nelem g3p) (elap g3p) /\ v_hartree g3p spL spU (A2 2 (fun _ _ => 1)) = Ok v) /\
  (forall F, grad_lib 0%nat 1%nat = Ok F -> exchange_like 2 F) /\ exists x, get_xc g22 grad_lib "gga" 0%nat 1%nat (fun k _ => INR k) = Ok x.
Proof.
  split; [|split; [intros F H; apply (grad_exchange 2 0%nat 1%nat); [lra|exact H]|eexists; reflexivity]].
  destruct g3p_factors as (spL & spU & L & U & F & SL & SU & NL & NU & LU).
  destruct g3p_mirror_hyps as (G & _ & _ & _ & _ & _ & B & NE).
  destruct (hartree_succeeds g3p spL spU 1 (fun _ _ => 1) F B) as (_ & (v & V)).
  exists spL, spU, L, U, (fun b => spL (fun k => b k / 2)), (fun i j => 2 * L i j), v.
  split; [apply G|]. do 2 (split; [assumption|]). split; [|split; [exact LU|split; [|split; [exact NE|exact V]]]].
  - intros b i Hi. rewrite (sumR_ext _ _ (fun j => 2 * (L i j * spL (fun k => b k / 2) j))) by (intros; ring). rewrite sumR_scal, (SL _ i Hi). field.
  - intros i j Hi Hj. rewrite sc_elap, <- LU by assumption. unfold matmul. rewrite <- sumR_scal. apply sumR_ext. intros. ring.
Qed.
