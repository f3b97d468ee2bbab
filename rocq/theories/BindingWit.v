(** Runs for the theorems of Binding.v: two electrons without interaction on a 16 x 16 grid, for every pair of charges. *)
From Coq Require Import Reals List Arith Lia Lra ZArith Bool String FunctionalExtensionality.
From Verif Require Import Base BaseLemmas GridModel GridSpec GridProofs HartreeModel HartreeThms SolverModel SolverSpec SolverProofs LibxcModel OptionsModel KSModel KSSpec KSProofs KSThms KSLoop KSEnergy KSTotal SelfConsistent NonInteracting
  GridWitness SolverWitness SolverCases KSWit InverterThms KSMemory KSMemoryWit NCSignsThms GroundThms Gauge LevelBounds LevelWit Binding.
Import ListNotations.
Local Open Scope R_scope.
Local Opaque sinh cosh.

Section Case.
Variables Za Zb : R.
Lemma bn_init : exists k, ks_init g3p Za Zb 2 1 2 (fun _ _ => 1%nat) 1 2 ex_N ni_opt = Ok k.
Proof. eapply init_total; [reflexivity|]. intros. unfold ex_N. lra. Qed.
Lemma bn_static : forall k, ks_init g3p Za Zb 2 1 2 (fun _ _ => 1%nat) 1 2 ex_N ni_opt = Ok k -> lv_shape k /\ o_frac (k_opt k) = true /\ k_vext k = None /\ forall x j, (j < 2)%nat -> k_vnuc k x j = coulomb g3p Za Zb x.
Proof.
  intros k H. pose proof H as KV. apply init_spec in H. destruct H as (o & C & _ & _ & ZA & ZB & P & L & CC & OI & OS & OFr & _ & _ & OF & V & _ & _ & _ & _ & _ & S).
  injection C as <-. split; [|split; [exact OFr|split; [exact V|]]].
  - do 5 (split; [assumption|]). intros i j H. destruct (S i j H) as (_ & S1 & S2 & S3 & _ & S4 & _).
    split; [|auto]. rewrite S1. destruct H as (Hi & _). rewrite L in Hi. replace i with 0%nat by lia. reflexivity.
  - unfold ks_init in KV. cbn [configure bind] in KV. destruct (configure KohnShamOptions ni_opt) as [oo|] eqn:Q; [|discriminate]. injection Q as <-. cbn [bind] in KV. cbv zeta in KV. cbn [Nat.eqb andb negb] in KV.
    destruct (Pssolver 1 2 _ _ _) as [sol|]; [|discriminate]. cbn [bind] in KV. injection KV as <-. intros x j Hj. cbn [k_vnuc]. destruct j as [|[|]]; [reflexivity|reflexivity|lia].
Qed.
Theorem bound_case : exists E, bound_run g3p Za Zb 2 E.
Proof.
  destruct (ground_exists g3p g3p_spacing 0 (coulomb g3p Za Zb)) as (a & u & G). set (q := coulomb g3p Za Zb) in *. destruct G as (U & EP). assert (UN : exists x, (x < Nelem g3p)%nat /\ u x <> 0) by (exists 0%nat; split; [exact lv_points|apply Rgt_not_eq, U, lv_points]).
  destruct bn_init as (k & KI). destruct (bn_static k KI) as (SH & FR & VX & VN).
  assert (O : exists o, scf_options [] = Ok o) by (eexists; reflexivity). destruct O as (o & O). pose proof O as OE. injection OE as OE.
  assert (T0 : 10 * / 10 ^ 6 = 1 / 100000) by field.
  assert (Q : so_cont o = false /\ so_auto o = false /\ so_maxiter o = 100%Z /\ so_tol o = 10 * / 10 ^ 6 /\ so_flip o = false) by (rewrite <- OE; repeat split; reflexivity). destruct Q as (Q2 & Q3 & Q4 & Q5 & Q6). rewrite T0 in Q5.
  destruct (lv_runs q u a UN k (keys k) [] o SH (keys_schedule k) O Q3 Q2) as (st & E).
  destruct (scf_inv _ _ _ _ _ _ E) as (o' & O' & T & X). rewrite O in O'. injection O' as <-. pose proof (first_pass _ _ _ _ _ _ T X ltac:(lra) ltac:(lia)) as I2.
  assert (KE : exists ev r, k_E (c_ks st) = Some ev /\ E_E ev = Fin r).
  { destruct T as [kk SS|x y Tx Tt B]; [cbn in I2; lia|]. destruct (pass_results g3p (lv_env q u a) o _ x y (lv_normed q u a UN) B) as (ev & uu & R1 & _). exists ev.
    pose proof (trace_step _ _ _ _ _ _ _ Tx Tt B) as T. destruct (run_started _ _ _ _ _ _ T) as (k0 & S0). pose proof (start_guess g3p (lv_env q u a) o (fun _ : Z => keys k) k Q2 k0 S0) as (q1 & q2 & n0 & _ & _ & _ & N0 & _).
    pose proof SH as (P & C & _ & OS & OI & _).
    assert (ST : steady g3p (lv_env q u a)) by (intros it it' s s' _ H; unfold lv_env; cbn [e_worker]; rewrite (H 0%nat lv_points); reflexivity).
    pose proof (ni_energy g3p (lv_env q u a) o (fun _ : Z => keys k) k y ST OI Q2 Q6 OS ltac:(congruence) T I2 k0 n0 S0 N0) as EN. eexists. split; [exact R1|]. rewrite <- EN.
    apply KSLoop.body_inv in B. destruct B as (_ & y1 & ve & vh & sol & k3 & nout & n1 & k4 & k5 & E1 & r & _ & _ & _ & _ & _ & _ & _ & _ & Y & _ & ->). cbn [c_ks c_oldE] in *. congruence. }
  destruct KE as (ev & e & KE & EE). exists e, (lv_env q u a), (fun _ => keys k), [], k, st, o, ni_opt, 2%nat, (fun _ _ => 1%nat), ex_N, ev. pose proof SH as (P & C & L & OS & OI & S).
  split; [exact KI|]. split; [auto|]. split; [exact OI|]. split; [exact OS|]. split; [intros; unfold ex_N, shell_size; simpl; lra|]. split; [rewrite FR; unfold in_orbital, ex_N; simpl; ring|].
  split; [intros it it' s s' _ H; unfold lv_env; cbn [e_worker]; rewrite (H 0%nat lv_points); reflexivity|]. do 3 (split; [assumption|]). split; [exact E|]. split; [exact I2|]. split; [|auto].
  intros i j x Hp H. destruct T as [kk SS|b t Tb Te TB]; [cbn in I2; lia|]. destruct (lv_veff q u a k o _ b t SH Tb TB i j Hp) as (V1 & V2 & v & V3 & V4).
  assert (HJ : (j < 2)%nat).
  { pose proof (trace_frame _ _ _ _ _ _ (trace_step _ _ _ _ _ _ _ Tb Te TB)) as ((_ & _ & _ & _ & _ & F6 & _) & _). destruct Hp as (_ & Hp). rewrite F6, C in Hp. exact Hp. }
  assert (VQ : forall y, s_veff (k_sol (c_ks t) i j) y = q y) by (intros y; rewrite V1, VN by exact HJ; unfold outer; rewrite VX; unfold q; ring).
  unfold eig_at in H. rewrite V3 in H. cbn [pyidx] in H. destruct (pyidx 1 0) as [z|]; [|discriminate]. cbn [bind] in H. injection H as <-. exists u. rewrite V2, V4, VQ. replace (q 0%nat - q 0%nat + a) with a by ring.
  apply (ground_ext _ _ q); [intros; symmetry; apply VQ|]. split; assumption.
Qed.
End Case.
