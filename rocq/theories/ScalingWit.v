(** Concrete cases for the scaling properties. *)
From Coq Require Import Reals List Arith Lia Lra ZArith Bool String.
From Verif Require Import Base BaseLemmas GridModel GridSpec GridProofs HartreeModel SolverModel SolverSpec SolverProofs LibxcModel OptionsModel
  KSModel KSSpec KSProofs KSThms KSLoop KSEnergy KSTotal SelfConsistent NonInteracting GridWitness SolverWitness SolverCases KSWit KSMemoryWit Scaling ScalingThms ScalingRun.
Import ListNotations.
Local Open Scope R_scope.

(** H2+-like problem at twice the distance: eigenvalues four times smaller, orbitals with another norm. *)
Definition far_env : env := mkEnv (fun _ _ => Some ((1%nat, fun _ => - (1 / 4)), Some (1%nat, fun _ _ => 3)))
  (fun _ _ => Ok (fun n _ => mkXc (fun _ => 1) (fun _ _ => 1) (fun _ _ => 0))) (fun b => b) (fun b => b).
Lemma far_scaled : scaled_workers g22 2 ex_env far_env.
Proof.
  intros it it' s s' r r' _ _ H H'. injection H as <-. injection H' as <-. split; [reflexivity|]. split.
  - intros i _. cbn [fst snd]. lra.
  - cbn [snd]. split; [reflexivity|]. intros i _. exists 3. split; [lra|]. intros. lra.
Qed.
Lemma const_steady : forall g, steady g ex_env /\ steady g far_env.
Proof. intro g. split; intros it it' s s' _ _; reflexivity. Qed.

Definition far_object (k : ks) : Prop := k_pol k = 2%nat /\ k_cols k = 2%nat /\ k_lv k = 1%nat /\ o_sym (k_opt k) = false /\ o_int (k_opt k) = "ni"%string /\
  forall i j, place k i j -> s_m (k_sol k i j) = 0%Z /\ s_pol (k_sol k i j) = 2%nat /\ s_N (k_sol k i j) = 1.
Lemma far_init : forall g Za Zb, exists k, ks_init g Za Zb 2 1 2 (fun _ _ => 1%nat) 1 2 ex_N ni_opt = Ok k /\ far_object k.
Proof.
  intros g Za Zb. assert (H : exists k, ks_init g Za Zb 2 1 2 (fun _ _ => 1%nat) 1 2 ex_N ni_opt = Ok k) by (eapply init_total; [reflexivity|]; intros; unfold ex_N; lra).
  destruct H as (k & H). exists k. split; [exact H|]. apply init_spec in H. destruct H as (o & C & _ & _ & ZA & ZB & P & L & CC & OI & OS & _ & _ & _ & OF & V & _ & _ & _ & _ & _ & S).
  injection C as <-. do 5 (split; [assumption|]). intros i j H. destruct (S i j H) as (_ & S1 & S2 & S3 & _).
  split; [|auto]. rewrite S1. destruct H as (Hi & _). rewrite L in Hi. replace i with 0%nat by lia. reflexivity.
Qed.
Lemma far_runs : forall g w k, (0 < Nelem g)%nat -> w = ex_env \/ w = far_env -> far_object k ->
  exists st o, ks_scf g w (fun _ => keys k) [] k = Ok st /\ scf_options [] = Ok o /\ so_cont o = false /\ so_flip o = false /\ scf_trace g w o (fun _ => keys k) k st /\ (2 <= c_iter st)%Z.
Proof.
  intros g w k HN HW (P & C & L & OS & OI & S).
  assert (CP : capable w k).
  { intros it i j s Hp (S1 & S2 & S3 & S4). destruct (S i j Hp) as (M & PP & N). rewrite S3, N. split; [lra|].
    destruct HW as [-> | ->]; exists 1%nat; do 2 eexists; (split; [reflexivity|]); rewrite S1, S2, M, PP; unfold shell_size; simpl; lra. }
  edestruct (scf_total g w k) with (sched := fun _ : Z => keys k) (d := @nil (string * pv)) as (st & E); try eassumption; try reflexivity; try (intros _; apply keys_schedule); try discriminate; try lia; [left; exact OI|].
  destruct (scf_inv _ _ _ _ _ _ E) as (o & O & T & X). exists st, o. pose proof O as OE. injection OE as OE.
  split; [exact E|]. split; [exact O|]. split; [rewrite <- OE; reflexivity|]. split; [rewrite <- OE; reflexivity|]. split; [exact T|].
  apply (first_pass _ _ _ _ _ _ T X).
  - rewrite <- OE. cbn [so_tol]. change (10 * / 10 ^ 6 < 10). replace (10 * / 10 ^ 6) with (1 / 100000) by field. lra.
  - rewrite <- OE. cbn [so_maxiter]. change (2 <= 100)%Z. lia.
Qed.
Theorem far_case : exists k k' st st' o, ks_init g22 1 1 2 1 2 (fun _ _ => 1%nat) 1 2 ex_N ni_opt = Ok k /\ ks_init (stretch 2 g22) (1 / 2) (1 / 2) 2 1 2 (fun _ _ => 1%nat) 1 2 ex_N ni_opt = Ok k' /\
  ks_scf g22 ex_env (fun _ => keys k) [] k = Ok st /\ ks_scf (stretch 2 g22) far_env (fun _ => keys k') [] k' = Ok st' /\
  scaled_workers g22 2 ex_env far_env /\ steady g22 ex_env /\ steady (stretch 2 g22) far_env /\ o_int (k_opt k) = "ni"%string /\ o_sym (k_opt k) = false /\ so_cont o = false /\ so_flip o = false /\
  scf_trace g22 ex_env o (fun _ => keys k) k st /\ scf_trace (stretch 2 g22) far_env o (fun _ => keys k') k' st' /\ (2 <= c_iter st)%Z /\ (2 <= c_iter st')%Z.
Proof.
  destruct (far_init g22 1 1) as (k & K & O). destruct (far_init (stretch 2 g22) (1 / 2) (1 / 2)) as (k' & K' & O').
  assert (HN : (0 < Nelem g22)%nat) by (rewrite g22_n; lia).
  destruct (far_runs g22 ex_env k HN (or_introl eq_refl) O) as (st & o & E & OO & OC & OF & T & I).
  destruct (far_runs (stretch 2 g22) far_env k' HN (or_intror eq_refl) O') as (st' & o' & E' & OO' & _ & _ & T' & I').
  rewrite OO in OO'. injection OO' as <-. pose proof O as (_ & _ & _ & OS & OI & _).
  exists k, k', st, st', o. do 4 (split; [assumption|]). split; [exact far_scaled|]. split; [apply const_steady|]. split; [apply const_steady|]. repeat (split; [assumption|]). assumption.
Qed.

(** An exchange-like functional: energy density (sum of squared gradients)^2 / n^4. *)
Definition grad_lib : libfun := fun _ pol => Ok (fun n sg => match sg with
  | None => mkXc (fun _ => 0) (fun _ _ => 0) (fun _ _ => 0)
  | Some s => mkXc (fun k => s k 0%nat ^ 2 / n k 0%nat ^ 5) (fun k _ => - 4 * s k 0%nat ^ 2 / n k 0%nat ^ 5) (fun k _ => 2 * s k 0%nat / n k 0%nat ^ 4)
  end).
Lemma grad_exchange : forall lam id pol F, 0 < lam -> grad_lib id pol = Ok F -> exchange_like lam F.
Proof.
  intros lam id pol F Hl H. injection H as <-. intros n n' sg sg' Hn Hs. destruct sg as [a|], sg' as [b|]; try contradiction; cbn [xc_zk xc_vrho xc_vsigma].
  - change (forall k j, b k j = a k j / lam ^ 8) in Hs.
    split; [|split]; intros; rewrite ?Hs, ?Hn; unfold Rdiv; rewrite !Rinv_mult, ?Rinv_inv; set (y := / n k 0%nat); field; lra.
  - repeat split; intros; unfold Rdiv; ring.
Qed.
