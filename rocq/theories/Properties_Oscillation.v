(** Property C131: Kohnsham.scf without convergence. *)
From Coq Require Import Reals List Arith Lia Lra ZArith Bool String.
From Verif Require Import Base GridModel GridSpec SolverModel LibxcModel OptionsModel KSModel KSSpec KSProofs KSThms KSLoop KSTotal SelfConsistent NonInteracting GridWitness KSWit KSMemory Contraction PingPong.
Import ListNotations.
Local Open Scope R_scope.

(** Two electrons on the 2 x 2 grid with a deterministic eigensolver: for every mixing factor there is a tolerance that no number of passes reaches. Every call returns normally, after as many passes as maxiter allows,
    with a residual above that tolerance. *)
Theorem C131_converges_refuted : exists g w k, steady g w /\ ks_init g 0 0 2 1 2 (fun _ _ => 1%nat) 1 2 ex_N ex_opt = Ok k /\
  forall a, 0 < a <= 1 -> exists t, 0 < t /\ forall d o, scf_options d = Ok o -> so_alpha o = a -> so_flip o = false -> so_cont o = false -> so_auto o = false -> so_tol o < t ->
  exists st r, ks_scf g w (fun _ => keys k) d k = Ok st /\ c_iter st = Z.max 1 (so_maxiter o) /\ c_diff st = Fin r /\ so_tol o < r.
Proof.
  destruct pp_case as (k & KI & _ & H). exists g22, pp_env, k. split; [exact pp_steady|]. split; [exact KI|]. intros a Ha.
  exists (Rmin 1 (a * (pp_least * pp_jump))). split; [exact (pp_bound_pos (mkSO false false false false 0 0 a) Ha)|]. intros d o O AL HF HC HU HT. subst a.
  destruct (H d o O HF HC HU Ha HT) as (st & r & E1 & E2 & E3 & E4). exists st, r. split; [exact E1|]. split; [exact E2|]. split; [exact E3|]. unfold pp_bound in E4. lra.
Qed.
Print Assumptions C131_converges_refuted.
(** In the same case there is no self-consistent density. *)
Theorem C131_density_refuted : exists g w k, steady g w /\ ks_init g 0 0 2 1 2 (fun _ _ => 1%nat) 1 2 ex_N ex_opt = Ok k /\ ~ exists n, self_consistent g w k n.
Proof.
  destruct pp_case as (k & KI & A & _). exists g22, pp_env, k. split; [exact pp_steady|]. split; [exact KI|]. intros (n & S). apply self_answer in S. destruct (A n n S) as (x & s & _ & _ & J).
  rewrite Rminus_eq_0, Rabs_R0 in J. pose proof pp_jump_pos. lra.
Qed.
Print Assumptions C131_density_refuted.
(** options as in the theorem: plain iteration and half-and-half mixing with 1000 passes and the smallest tolerance *)
Lemma C131_witness : forall a, a = 1 \/ a = 1 / 2 -> exists o, scf_options [("alpha"%string, VR a); ("maxiter"%string, VZ 1000); ("e_tol"%string, VR 0)] = Ok o /\ so_alpha o = a /\ so_flip o = false /\ so_cont o = false /\ so_auto o = false /\ so_tol o = 0 /\ so_maxiter o = 1000%Z.
Proof. intros a _. eexists. split; [reflexivity|]. repeat split. Qed.
