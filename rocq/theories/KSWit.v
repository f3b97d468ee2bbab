(** Kohn-Sham object: exceptions of the SCF loop, and a concrete calculation meeting the hypotheses. *)
From Coq Require Import Reals List Arith Lia Lra ZArith Bool String.
From Verif Require Import Base BaseLemmas GridModel GridSpec GridProofs NCProofs AxisProofs GridWitness HartreeModel SolverModel SolverSpec SolverProofs SolverThms
  SolverWitness SolverCases LibxcModel OptionsModel OptionsProofs KSModel KSSpec KSProofs KSThms KSLoop KSEnergy KSTotal.
Import ListNotations.
Local Open Scope R_scope.
Local Opaque sinh cosh.

(** * auto_tol *)
Definition with_auto (b : bool) (o : scfopt) : scfopt :=
  mkSO (so_cont o) (so_iter o) (so_flip o) b (so_maxiter o) (so_tol o) (so_alpha o).
Lemma body_auto : forall g w o l st, so_auto o = true ->
  scf_body g w o l st = match scf_body g w (with_auto false o) l st with Ok _ => Err NameError | Err e => Err e end.
Proof.
  intros g w o l st HA. unfold scf_body, with_auto. cbn [so_cont so_iter so_flip so_auto so_maxiter so_tol so_alpha]. rewrite HA.
  destruct (calc_hxc_potential g w (c_ks st)) as [k1|]; [|reflexivity]. cbn [bind].
  destruct (need (k_vext k1)) as [ve|]; [|reflexivity]. cbn [bind].
  destruct (need (k_vhxc k1)) as [vh|]; [|reflexivity]. cbn [bind]. cbv zeta.
  destruct (distribute_scf k1 _) as [sol|]; [|reflexivity]. cbn [bind].
  destruct (ks_density g w _ _ _ _) as [[k3 nout]|]; [|reflexivity]. cbn [bind].
  destruct (need (k_n k3)) as [n|]; [|reflexivity]. cbn [bind].
  destruct (ks_energy g w _) as [k4|]; [|reflexivity]. cbn [bind].
  destruct (calc_chempot k4) as [k5|]; [|reflexivity]. cbn [bind].
  destruct (need (k_E k5)) as [E|]; [|reflexivity]. cbn [bind].
  destruct (residual _ _ _ _ _ _) as [r|]; reflexivity.
Qed.
Lemma auto_return : forall g w sched d k o st, scf_options d = Ok o -> so_auto o = true -> ks_scf g w sched d k = Ok st ->
  c_iter st = 1%Z /\ (so_maxiter o <= 1)%Z /\ so_tol o < 10.
Proof.
  intros g w sched d k o st HO HA H. destruct (scf_inv _ _ _ _ _ _ H) as (o' & HO' & T & E). rewrite HO in HO'. injection HO' as <-.
  pose proof (auto_tol_no_iteration _ _ _ _ _ _ HA T) as I1. split; auto.
  inversion T as [k0 S|st0 st1 T0 _ B]; subst.
  - unfold scf_test in E. rewrite HA in E. cbn [c_diff c_iter] in E. unfold gtb in E. destruct (Rlt_dec (so_tol o) 10); [|discriminate].
    injection E as E. apply Z.ltb_ge in E. auto.
  - apply body_frame in B. destruct B as (_ & B & _). pose proof (trace_bound _ _ _ _ _ _ T0). lia.
Qed.
Lemma auto_fails : forall g w k sched d o, (0 < Nelem g)%nat -> capable w k -> hxc_available g w k -> (1 <= k_cols k <= k_pol k)%nat -> (1 <= k_lv k)%nat ->
  scf_options d = Ok o -> so_auto o = true -> (forall t, schedule k (sched t)) -> (so_cont o = true -> k_n k <> None) ->
  (1 < so_maxiter o)%Z \/ 10 <= so_tol o -> ks_scf g w sched d k = Err NameError.
Proof.
  intros g w k sched d o HN HC HX HP HL HO HA SC HCo Hm. unfold ks_scf. rewrite HO. cbn [bind].
  destruct (start_total g w k HN HC HP HL o (sched 0%Z) (SC _) HCo) as (k0 & E & F & N & V). rewrite E. cbn [bind].
  cbn [scf_loop]. unfold scf_test. rewrite HA. cbn [c_diff c_iter]. unfold gtb. destruct (Rlt_dec (so_tol o) 10); [|reflexivity].
  destruct Hm as [Hm|Hm]; [|lra]. destruct (Z.ltb_spec 1 (so_maxiter o)); [|lia]. cbn [bind].
  rewrite body_auto by auto. 
  destruct (body_total g w k HN HC HX HP HL (with_auto false o) (sched 1%Z) (mkSt k0 (Fin 10) (Fin 0) (fun _ _ => 0) 1%Z)) as (st & B); auto.
  rewrite B. reflexivity.
Qed.

(** * no NameError otherwise *)
Definition no_ne {A : Type} (r : res A) : Prop := r <> Err NameError.
Lemma ne_bind : forall (A B : Type) (m : res A) (f : A -> res B), no_ne m -> (forall a, m = Ok a -> no_ne (f a)) -> no_ne (bind m f).
Proof. intros A B [a|e] f H1 H2; cbn [bind]; auto. unfold no_ne in *. congruence. Qed.
Lemma ne_ok : forall (A : Type) (a : A), no_ne (Ok a).
Proof. unfold no_ne. congruence. Qed.
Lemma ne_err : forall (A : Type) e, e <> NameError -> no_ne (A := A) (Err e).
Proof. unfold no_ne. congruence. Qed.
Lemma ne_forN : forall (S : Type) n (f : nat -> S -> res S) s, (forall i x, no_ne (f i x)) -> no_ne (forN n f s).
Proof. induction n; intros f s H; cbn [forN]; [apply ne_ok|]. apply ne_bind; auto. Qed.
Create HintDb nedb.
Ltac ne := repeat first [ solve [auto 3 with nedb] | apply ne_ok | apply ne_err; discriminate | assumption
  | apply ne_bind; [|intros ? ?] | apply ne_forN; intros ? ?
  | match goal with |- no_ne (if ?b then _ else _) => destruct b | |- no_ne (match ?x with _ => _ end) => destruct x end ].
Lemma ne_need : forall (A : Type) (o : option A), no_ne (need o). Proof. unfold need. intros. ne. Qed.
Global Hint Resolve ne_need : nedb.
Lemma ne_pyidx : forall n i, no_ne (pyidx n i). Proof. unfold pyidx. intros. ne. Qed.
Global Hint Resolve ne_pyidx : nedb.
Lemma ne_phi : forall s i, no_ne (phi_col s i). Proof. unfold phi_col. intros. destruct (s_phi s) as [[]|]; ne. Qed.
Global Hint Resolve ne_phi : nedb.
Lemma ne_eig : forall s i, no_ne (eig_at s i). Proof. unfold eig_at. intros. destruct (s_eig s) as [[]|]; ne. Qed.
Global Hint Resolve ne_eig : nedb.
Lemma ne_density : forall g s, no_ne (calc_density g s).
Proof.
  intros. unfold calc_density. destruct (nocc s) as [No nu]. apply ne_bind; [|intros ? _].
  - induction (Z.to_nat No); cbn [dens_loop]; ne.
  - ne.
Qed.
Global Hint Resolve ne_density : nedb.
Lemma ne_eks : forall s, no_ne (calc_eks s).
Proof.
  intros. unfold calc_eks. destruct (nocc s) as [No nu]. apply ne_bind; [|intros ? _].
  - induction (Z.to_nat No); cbn [eks_loop]; ne.
  - ne.
Qed.
Global Hint Resolve ne_eks : nedb.
Lemma ne_homo : forall s, no_ne (get_homo s).
Proof. intros. unfold get_homo. destruct (nocc s). cbv zeta. ne. Qed.
Global Hint Resolve ne_homo : nedb.
Lemma ne_energy1 : forall g s, no_ne (calc_energy g s).
Proof. intros. unfold calc_energy. ne. Qed.
Global Hint Resolve ne_energy1 : nedb.
Lemma ne_hartree : forall g a b n, no_ne (v_hartree g a b n).
Proof. intros. unfold v_hartree. cbv zeta. ne. Qed.
Global Hint Resolve ne_hartree : nedb.
Lemma ne_xc : forall g lib fam id pol n, (forall id pol, lib id pol <> Err NameError) -> no_ne (get_xc g lib fam id pol n).
Proof.
  intros g lib fam id pol n H. unfold get_xc. cbv zeta. apply ne_bind; [|intros; apply ne_ok]. unfold get_xc_dictionary.
  apply ne_bind; [apply H|intros ? _]. ne. unfold sigma. cbv zeta. ne.
Qed.
Global Hint Resolve ne_xc : nedb.
Lemma ne_tget : forall d i, no_ne (tget d i). Proof. intros. unfold tget. ne. Qed.
Global Hint Resolve ne_tget : nedb.
Lemma ne_ks_density : forall g w it dif l k, no_ne (ks_density g w it dif l k).
Proof.
  intros. unfold ks_density, collect, sum_dens. cbv zeta. ne.
Qed.
Global Hint Resolve ne_ks_density : nedb.
Lemma ne_distribute : forall k v, no_ne (distribute k v).
Proof. intros. unfold distribute, column. ne. Qed.
Global Hint Resolve ne_distribute : nedb.
Lemma ne_distribute_scf : forall k v, no_ne (distribute_scf k v).
Proof. intros. unfold distribute_scf, column. ne. Qed.
Global Hint Resolve ne_distribute_scf : nedb.
Lemma ne_residual : forall g pol E oldE n old, no_ne (residual g pol E oldE n old).
Proof.
  intros. unfold residual, dens_residual. ne. unfold npmax. ne.
Qed.
Global Hint Resolve ne_residual : nedb.
Section NoNameError.
  Variables (g : grid) (w : env).
  Hypothesis HL : forall id pol, e_lib w id pol <> Err NameError.
  Lemma ne_hxc : forall k, no_ne (calc_hxc_potential g w k).
  Proof. intros. unfold calc_hxc_potential. cbv zeta. ne. Qed.
  Lemma ne_ks_energy : forall k, no_ne (ks_energy g w k).
  Proof. intros. unfold ks_energy, energy_loop. cbv zeta. ne. Qed.
  Lemma ne_chempot : forall k, no_ne (calc_chempot k).
  Proof. intros. unfold calc_chempot. ne; unfold pymaxR; ne. Qed.
  Lemma ne_body : forall o l st, so_auto o = false -> no_ne (scf_body g w o l st).
  Proof.
    intros o l st H. unfold scf_body. rewrite H. cbv zeta.
    pose proof ne_hxc. pose proof ne_ks_energy. pose proof ne_chempot. ne.
  Qed.
  Lemma ne_scf : forall sched d k o, scf_options d = Ok o -> so_auto o = false -> ks_scf g w sched d k <> Err NameError.
  Proof.
    intros sched d k o HO HA. unfold ks_scf. rewrite HO. cbn [bind]. apply ne_bind.
    - unfold scf_start, set_effective_potential. cbv zeta. ne.
    - intros k0 _. generalize (mkSt k0 (Fin 10) (Fin 0) (fun _ _ => 0) 1%Z). generalize (Datatypes.S (Z.to_nat (so_maxiter o))).
      induction n as [|n IH]; intros st; cbn [scf_loop]; [apply ne_ok|]. unfold scf_test. rewrite HA. pose proof (ne_body o) as HB. ne.
  Qed.
End NoNameError.

(** * when a run exists *)
Lemma mirror_invariant_blocks : forall g, grid_ok g -> lstsq_ok g -> gNMa g = gNMr g -> (2 <= gNMa g)%nat -> mirror_invariant g.
Proof.
  intros g Hg (HN & _) E H2 f. apply (integrate1_mirror g f E).
  intros i Hi. unfold wa. apply (nc_palin (gNP g) (gNMa g)); auto; try apply Hg. apply nc_NP_ge; auto. apply Hg.
Qed.
Lemma init_total : forall g Za Zb pol lv cols Nmo N opt o, configure KohnShamOptions opt = Ok o ->
  (forall i j, (i < lv)%nat -> (j < cols)%nat -> N i j <> -1) -> exists k, ks_init g Za Zb pol lv cols Nmo lv cols N opt = Ok k.
Proof.
  intros g Za Zb pol lv cols Nmo N opt o C HN. unfold ks_init. rewrite C. cbn [bind]. rewrite !Nat.eqb_refl. cbn [andb negb]. cbv zeta.
  destruct (Pssolver lv cols Nmo N _) as [s|e] eqn:P; cbn [bind]; [eauto|]. exfalso. rewrite Pssolver_fill in P. apply fillI_err in P.
  destruct P as (i & j & Hi & Hj & P). cbv beta in P. unfold i_solver_init in P.
  destruct (solver_config (getB o "fractional") (getB o "sym")) as (c & C2 & _). rewrite C2 in P. cbn [bind] in P.
  destruct (Req_EM_T (N i j) (-1)); [apply (HN i j); auto|discriminate].
Qed.

(** Two electrons, one of each spin, on a 2 x 2 grid; the worker always delivers one constant orbital of energy -1;
    a library with constant energy per particle. *)
Definition ex_env : env := mkEnv (fun _ _ => Some ((1%nat, fun _ => -1), Some (1%nat, fun _ _ => 1)))
  (fun _ _ => Ok (fun n _ => mkXc (fun _ => 1) (fun _ _ => 1) (fun _ _ => 0))) (fun b => b) (fun b => b).
Definition ex_N : mat := fun _ _ => 1.
Definition ex_opt : dict := [("Fractional"%string, VB true)].
Lemma ex_init : exists k, ks_init g22 1 1 2 1 2 (fun _ _ => 1%nat) 1 2 ex_N ex_opt = Ok k.
Proof. eapply init_total; [reflexivity|]. intros. unfold ex_N. lra. Qed.
Lemma ex_static : forall k, ks_init g22 1 1 2 1 2 (fun _ _ => 1%nat) 1 2 ex_N ex_opt = Ok k ->
  k_pol k = 2%nat /\ k_cols k = 2%nat /\ k_lv k = 1%nat /\ o_sym (k_opt k) = false /\ o_int (k_opt k) = "dft"%string /\ o_fam (k_opt k) = "lda"%string /\
  forall i j, place k i j -> s_m (k_sol k i j) = 0%Z /\ s_pol (k_sol k i j) = 2%nat /\ s_N (k_sol k i j) = 1 /\ s_frac (k_sol k i j) = true.
Proof.
  intros k H. apply init_spec in H. destruct H as (o & C & _ & _ & _ & _ & P & L & CC & OI & OS & _ & _ & _ & OF & _ & _ & _ & _ & _ & _ & S).
  injection C as <-. repeat split; auto; destruct (S i j H) as (_ & S1 & S2 & S3 & _ & S4 & _); auto.
  rewrite S1. destruct H as (Hi & _). rewrite L in Hi. replace i with 0%nat by lia. reflexivity.
Qed.
Lemma ex_capable : forall k, ks_init g22 1 1 2 1 2 (fun _ _ => 1%nat) 1 2 ex_N ex_opt = Ok k -> capable ex_env k /\ worker_ok g22 ex_env /\
  (forall i j, place k i j -> placed (k_sol k i j)) /\ hxc_available g22 ex_env k.
Proof.
  intros k H. apply ex_static in H. destruct H as (P & C & L & OS & OI & OF & S). split; [|split; [|split]].
  - intros it i j s Hp (S1 & S2 & S3 & S4). destruct (S i j Hp) as (M & PP & N & F). rewrite S3, N. split; [lra|].
    exists 1%nat, (fun _ => -1), (fun _ _ => 1). split; [reflexivity|]. rewrite S1, S2, M, PP. unfold shell_size. simpl. lra.
  - intros it s r E. injection E as <-. cbn [snd]. intros. apply g22_int_pos. intros. lra.
  - intros i j Hp. destruct (S i j Hp) as (M & PP & N & F). split; [rewrite N; lra|auto].
  - right. intros n. rewrite P, OF. do 3 eexists. split; [reflexivity|]. split; [reflexivity|]. reflexivity.
Qed.
