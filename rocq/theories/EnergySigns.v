(** Signs and bounds of the classical energy terms of Kohnsham.scf. *)
From Coq Require Import Reals List Arith Lia Lra ZArith Bool String.
From Verif Require Import Base BaseLemmas GridModel GridSpec GridProofs HartreeModel SolverModel SolverSpec SolverProofs LibxcModel OptionsModel KSModel KSSpec KSProofs KSThms KSLoop KSEnergy KSTotal SelfConsistent NonInteracting NCSignsThms KSMemory.
Import ListNotations.
Local Open Scope R_scope.

(** * A non-negative density in a bounded potential *)
Section Bounds.
Variables (g : grid) (pol : nat) (n v : mat).
Hypotheses (Hg : grid_ok g) (W : forall k, (k < Nelem g)%nat -> 0 < gwi g k) (NN : forall x s, (x < Nelem g)%nat -> 0 <= n x s).
Lemma interaction_between : forall lo hi, (forall x j, (x < Nelem g)%nat -> (j < pol)%nat -> lo j <= v x j <= hi j) ->
  sumR pol (fun j => lo j * integrate1 g (fun x => n x j)) <= interaction g pol n v <= sumR pol (fun j => hi j * integrate1 g (fun x => n x j)).
Proof.
  intros lo hi H. unfold interaction. split; apply sumR_le; intros j Hj; rewrite <- integrate1_scal; apply int_mono; auto; intros x Hx; destruct (H x j Hx Hj); pose proof (NN x j Hx); nra.
Qed.
End Bounds.

(** * After a pass *)
Section Run.
Variables (g : grid) (w : env) (o : scfopt) (sched : Z -> list (nat * nat)) (k : ks) (st : scst) (ev : kse).
Hypotheses (Hg : grid_ok g) (W : forall k, (k < Nelem g)%nat -> 0 < gwi g k) (WO : worker_ok g w) (SY : o_sym (k_opt k) = false) (PL : forall i j, place k i j -> KSSpec.placed (k_sol k i j)) (HC : so_cont o = false) (HF : so_flip o = false)
  (AL : 0 <= so_alpha o <= 1) (PC : k_pol k = k_cols k) (T : scf_trace g w o sched k st) (I2 : (2 <= c_iter st)%Z) (KE : k_E (c_ks st) = Some ev).
Lemma run_parts : exists n, k_n (c_ks st) = Some n /\ (forall x s, (x < Nelem g)%nat -> 0 <= n x s) /\ (forall j, (j < k_pol k)%nat -> integrate1 g (fun x => n x j) = electrons k j) /\
  E_Enuc ev = interaction g (k_pol k) n (k_vnuc k) /\ E_Vext ev = interaction g (k_pol k) n (outer k) /\ E_Vnn ev = k_Za k * k_Zb k / (2 * ga g) /\
  (o_int (k_opt k) <> "ni"%string -> exists vh, v_hartree g (e_spL w) (e_spU w) (A2 (k_pol k) n) = Ok vh /\ E_Eh ev = Some (1 / 2 * integrate1 g (fun x => sumR (k_pol k) (fun s => n x s) * entry vh x 0))).
Proof.
  destruct (trace_count g w o sched k WO ltac:(congruence) PL HF ltac:(congruence) st T) as (n & N1 & N2). destruct (trace_nonneg g w o sched k WO PL AL ltac:(congruence) st T) as (n' & N1' & N3). assert (n' = n) by congruence. subst n'.
  exists n. split; [exact N1|]. split; [exact N3|]. split; [rewrite PC; exact N2|]. clear N2 N3 N1'.
  pose proof (trace_frame _ _ _ _ _ _ T) as ((F1 & F2 & F3 & F4 & _ & _ & F7 & _) & _). pose proof (trace_vext _ _ _ _ _ _ T) as VX.
  destruct T as [kk SS|x y Tx Tt B]; [cbn in I2; lia|]. clear T. apply KSLoop.body_inv in B. destruct B as (_ & y1 & ve & vh & sol & k3 & nout & n1 & k4 & k5 & E1 & r & _ & _ & _ & _ & _ & _ & X & Y & _ & _ & ->). cbn [c_ks] in *.
  pose proof (energy_inv _ _ _ _ X) as (E' & nn & ve' & X1 & X2 & X3 & _ & _ & _ & _ & _ & X4 & X5 & X6 & X7).
  apply energy_keep in X. destruct X as (Ea & Va & ->). apply chempot_spec in Y. destruct Y as (uu & -> & _).
  cbn [set_u set_EV k_E k_n k_vext k_opt k_Za k_Zb k_pol k_vnuc] in *. assert (Ea = ev) by congruence. subst Ea. injection X1 as <-. assert (nn = n) by congruence. subst nn. assert (ve' = outer k) by congruence. subst ve'.
  rewrite F4, F7 in X4. rewrite F4 in X5. rewrite F2, F3 in X6. do 3 (split; [assumption|]). intros NI. destruct X7 as [(Z & _)|(_ & vhxc & vv & Ex & ex & vx & Ec & ec & vc & Eh & _ & _ & Q1 & _ & _ & Q2 & Q3 & _)]; [rewrite F1 in Z; contradiction|].
  rewrite F4 in Q1, Q3. exists vv. split; [exact Q1|]. rewrite Q2, Q3. reflexivity.
Qed.
(** The interaction with the external potential. *)
Theorem external_between : forall lo hi, (forall x j, (x < Nelem g)%nat -> (j < k_pol k)%nat -> lo j <= outer k x j <= hi j) ->
  sumR (k_pol k) (fun j => lo j * electrons k j) <= E_Vext ev <= sumR (k_pol k) (fun j => hi j * electrons k j).
Proof.
  intros lo hi H. destruct run_parts as (n & _ & NN & NE & _ & -> & _). pose proof (interaction_between g (k_pol k) n (outer k) Hg W NN lo hi H) as (A & B).
  rewrite (sumR_ext _ _ (fun j => lo j * electrons k j)) in A by (intros; rewrite NE by assumption; reflexivity). rewrite (sumR_ext _ _ (fun j => hi j * electrons k j)) in B by (intros; rewrite NE by assumption; reflexivity). split; assumption.
Qed.
(** The interaction with the nuclei. *)
Theorem nuclear_between : forall lo hi, (forall x j, (x < Nelem g)%nat -> (j < k_pol k)%nat -> lo <= k_vnuc k x j <= hi) ->
  lo * sumR (k_pol k) (electrons k) <= E_Enuc ev <= hi * sumR (k_pol k) (electrons k).
Proof.
  intros lo hi H. destruct run_parts as (n & _ & NN & NE & -> & _). pose proof (interaction_between g (k_pol k) n (k_vnuc k) Hg W NN (fun _ => lo) (fun _ => hi) H) as (A & B). cbv beta in A, B.
  rewrite (sumR_ext _ _ (fun j => lo * electrons k j)) in A by (intros; rewrite NE by assumption; reflexivity). rewrite (sumR_ext _ _ (fun j => hi * electrons k j)) in B by (intros; rewrite NE by assumption; reflexivity).
  rewrite sumR_scal in A, B. split; assumption.
Qed.
(** The electrostatic energy of the electrons. *)
Theorem hartree_between : forall lo hi, o_int (k_opt k) <> "ni"%string -> (forall n vh x, k_n (c_ks st) = Some n -> v_hartree g (e_spL w) (e_spU w) (A2 (k_pol k) n) = Ok vh -> (x < Nelem g)%nat -> lo <= entry vh x 0 <= hi) ->
  exists Eh, E_Eh ev = Some Eh /\ 1 / 2 * (lo * sumR (k_pol k) (electrons k)) <= Eh <= 1 / 2 * (hi * sumR (k_pol k) (electrons k)).
Proof.
  intros lo hi NI H. destruct run_parts as (n & N1 & NN & NE & _ & _ & _ & Q). destruct (Q NI) as (vh & Q1 & Q2). eexists. split; [exact Q2|].
  assert (S : integrate1 g (fun x => sumR (k_pol k) (fun s => n x s) * entry vh x 0) = interaction g (k_pol k) n (fun x _ => entry vh x 0)).
  { unfold interaction. rewrite <- integrate1_sum. apply integrate1_ext. intros x _. rewrite Rmult_comm, <- sumR_scal. apply sumR_ext. intros. ring. }
  rewrite S. pose proof (interaction_between g (k_pol k) n (fun x _ => entry vh x 0) Hg W NN (fun _ => lo) (fun _ => hi) (fun x j Hx _ => H n vh x N1 Q1 Hx)) as (A & B). cbv beta in A, B.
  rewrite (sumR_ext _ _ (fun j => lo * electrons k j)) in A by (intros; rewrite NE by assumption; reflexivity). rewrite (sumR_ext _ _ (fun j => hi * electrons k j)) in B by (intros; rewrite NE by assumption; reflexivity).
  rewrite sumR_scal in A, B. lra.
Qed.
End Run.
