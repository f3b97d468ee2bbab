(** Concrete inversions on the 2 x 2 grid: cases in which the hypotheses of the inverter theorems hold. *)
From Coq Require Import Reals List Arith Lia Lra ZArith Bool String.
From Verif Require Import Base BaseLemmas GridModel GridSpec GridProofs GridWitness GridMore SolverModel SolverSpec SolverProofs SolverThms SolverResp SolverWitness SolverCases OptionsModel OptionsProofs KSModel KSSpec KSTotal InverterModel InverterSpec InverterOrb InverterLoop InverterRun InverterThms InverterMore.
Import ListNotations.
Local Open Scope R_scope.
Local Opaque sinh cosh.

Lemma g22_full : full_quadrature g22.
Proof.
  intros k Hk. unfold weight. rewrite g22_gwi by auto. pose proof (gw_pos g22 k g22_ok Hk). pose proof (iprefac_pos g22 g22_ok) as P.
  unfold iprefac in P. apply Rmult_lt_0_compat; auto. apply Rmult_lt_0_compat; auto. lra.
Qed.
Lemma const_norm : forall c, 0 < c -> 0 < integrate1 g22 (fun _ => c ^ 2).
Proof. intros. apply g22_int_pos. intros. apply pow_lt; auto. Qed.
Lemma mirror1_const : forall (A : Type) g (c : A) k, (k < Nelem g)%nat -> mirror1 g (fun _ => c) k = c.
Proof. intros. rewrite (mirror1_map nat A g (fun _ => c) (fun k => k)) by auto. reflexivity. Qed.
Lemma nrm_const : forall c, 0 < c -> nrm g22 (fun _ => c) <> 0.
Proof.
  intros c Hc. unfold nrm. apply Rgt_not_eq, sqrt_lt_R0. rewrite g22_n. cbn [sumR]. assert (0 < c ^ 2) by (apply pow_lt; auto). lra.
Qed.

(** One doubly occupied m = 0 orbital. *)
Definition one_solver (v : vec) (ph : option (nat * (nat -> vec))) (eg : option (nat * vec)) : solver :=
  mkSolver 0 1 2 1 false false v ph eg.
Lemma one_filling : forall v ph eg i, filling (one_solver v ph eg) i = if (i =? 0)%nat then 1 else 0.
Proof.
  intros. unfold filling, aufbau, one_solver, shell_size. cbn [s_frac s_N s_m s_pol]. simpl (_ =? _)%Z. simpl (1 =? 1)%nat. cbv iota.
  replace (2 / (1 * 2)) with 1 by lra. destruct i; simpl (_ =? _)%nat; cbv iota.
  - simpl INR. destruct Rle_dec; lra.
  - assert (1 <= INR (S i)) by (change 1 with (INR 1); apply le_INR; lia). destruct Rle_dec; lra.
Qed.
Lemma one_enough : forall v ph eg, enough (one_solver v ph eg) 1.
Proof. intros v ph eg i Hi. rewrite one_filling in Hi. destruct i; [lia|]. simpl in Hi. lra. Qed.
Definition one_eig (e : R) : nat * vec := (1%nat, fun _ => e).
Definition one_phi : nat * (nat -> vec) := (1%nat, fun _ _ => 1).
(** The library answers: every eigenvalue problem gives the constant orbital with eigenvalue e; least_squares tries the
    potential 1 and answers 1/2. *)
Definition one_env (e : R) : invenv :=
  mkIE (fun _ => Ok (one_eig e, Some one_phi)) (fun _ _ _ => 0)
    (fun _ _ _ => ([fun _ => 1], fun _ => / 2, mkInfo 3 (Fin 0))) (fun _ _ b => Ok b).
Definition one_inv (o : invopt) (lv cols : nat) (v : vec) (ph : option (nat * (nat -> vec))) (eg : option (nat * vec)) (set : bool) : inverter :=
  mkInv o lv cols (fun _ _ => one_solver v ph eg) (fun _ _ => set) (fun _ _ => None) (fun _ _ => None) false None None None.
Definition one_opt (ty : string) (ab ess : bool) (maxit : Z) : invopt := mkIO ab ess false false ty (/ 10) maxit 0.

Lemma one_response : forall E v e, is_ok (calc_response g22 (v_sps E) (one_solver v (Some one_phi) (Some (one_eig e)))).
Proof.
  intros. destruct (response_ok g22 (v_sps E) (one_solver v (Some one_phi) (Some (one_eig e))) 1 (snd one_phi) (snd (one_eig e))) as (chi & H & _);
    auto using one_enough.
  - simpl; lra.
  - exists chi; auto.
Qed.
Lemma one_energy : forall v e, exists a b t n, calc_energy g22 (one_solver v (Some one_phi) (Some (one_eig e))) = Ok (a, b, t, n) /\
  calc_density g22 (one_solver v (Some one_phi) (Some (one_eig e))) = Ok n.
Proof.
  intros. destruct (calc_energy_ok g22 (one_solver v (Some one_phi) (Some (one_eig e))) 1 (snd one_phi) (snd (one_eig e))) as (n & H & H1);
    auto using one_enough.
  - simpl; lra.
  - do 4 eexists. split; [exact H1|exact H].
Qed.
Lemma one_homo : forall v e, exists h, get_homo (one_solver v (Some one_phi) (Some (one_eig e))) = Ok h.
Proof.
  intros. eapply homo_total; [simpl; lra|reflexivity|]. unfold shell_size. simpl. lra.
Qed.

(** A potential in which the constant orbital is an exact eigenvector with eigenvalue e. *)
Definition one_pot (e : R) : vec := pot_for g22 (hamiltonian g22 0) e (fun _ => 1).
Lemma one_eigen : forall e, eigenpair g22 (hamiltonian g22 0) (one_pot e) e (fun _ => 1).
Proof. intros. apply pot_for_eigen; [apply g22_ok|]. intros; lra. Qed.
Lemma one_schroed : forall e k, (k < Nelem g22)%nat -> schroed g22 (hamiltonian g22 0) (one_pot e) e (fun _ => 1) k = 0.
Proof. intros. unfold schroed. rewrite (one_eigen e k) by auto. ring. Qed.

(** orbitalinvert: a run that ends with True. *)
Definition one_n0 : vec := fun _ => 2 * (1 ^ 2 / integrate1 g22 (fun _ => 1 ^ 2)).
Lemma wit_orbital : forall e, exists iv',
  orbitalinvert g22 (one_env 0) one_n0 (fun _ => 1) (1%nat, fun _ => e) (Some (A1 (one_pot e))) 0
     (one_inv (one_opt "orbitalinvert" false false 50) 1 1 (fun _ => 0) None None false) =
   Ok (iv', true, OArr 1 1 (fun _ _ => Some (mkInfo 1 (Fin 0)))) /\
  (forall k, s_veff (i_sol iv' 0 0) k = one_pot e k - e).
Proof.
  intros e. apply (orbital_exact g22 (one_env 0) (one_inv (one_opt "orbitalinvert" false false 50) 1 1 (fun _ => 0) None None false) 0
    (fun _ _ => 1) (fun _ => e) (one_pot e) one_n0); simpl; auto; try lra; try lia; try reflexivity.
  - rewrite g22_n; lia.
  - intros. apply one_schroed; auto.
  - intros. apply (const_norm 1). lra.
  - intros. unfold one_n0. cbn [sumR]. simpl. ring.
Qed.

(** Wu-Yang: one evaluation of the residual and a complete inversion. *)
Lemma wit_Ws : forall e v, exists iv' w, Ws g22 (one_env e) (fun _ => 1) 0 v
    (inv_vs (one_inv (one_opt "wuyang" false false 50) 1 1 (fun _ => 0) None None false) (Some (A2 1 (fun _ _ => 0)))) = Ok (iv', w).
Proof.
  intros e v. destruct (one_energy v e) as (a & b & t & n & Y1 & Y2).
  destruct (one_response (one_env e) v e) as (chi & Y3).
  set (iv0 := inv_vs (one_inv (one_opt "wuyang" false false 50) 1 1 (fun _ => 0) None None false) (Some (A2 1 (fun _ _ => 0)))).
  set (s2 := one_solver v (Some one_phi) (Some (one_eig e))) in *.
  assert (X : Ws_solver g22 (one_env e) 0 v 0 iv0 = Ok (inv_chi (inv_solver (inv_setveff iv0 0 0 v) 0 0 s2) 0 0 chi)).
  { unfold Ws_solver. change (v_orb (one_env e) (i_sol (inv_setveff iv0 0 0 v) 0%nat 0%nat)) with (Ok (one_eig e, Some one_phi) : res wres).
    cbn [bind]. change (set_result (i_sol (inv_setveff iv0 0 0 v) 0%nat 0%nat) (one_eig e, Some one_phi)) with s2.
    rewrite Y2. cbn [bind]. rewrite Y1. cbn [bind]. rewrite Y3. reflexivity. }
  unfold Ws. change (i_lv iv0) with 1%nat. change (i_cols iv0) with 1%nat. change (io_ab (i_opt iv0)) with false.
  change (0 <? 1)%nat with true. cbn [negb forN bind]. cbv zeta iota. rewrite X. cbn [bind].
  set (iv1 := inv_chi (inv_solver (inv_setveff iv0 0 0 v) 0 0 s2) 0 0 chi).
  assert (W : exists d, Ws_density g22 0 iv1 = Ok d).
  { unfold Ws_density. change (i_lv iv1) with 1%nat. cbn [forN bind]. change (i_sol iv1 0%nat 0%nat) with s2. rewrite Y2. cbn [bind].
    eexists; reflexivity. }
  destruct W as (d & ->). cbn [bind]. change (i_vs iv1) with (Some (A2 1 (fun _ _ : nat => 0))). change (0 <? 1)%nat with true. cbv iota. cbn [bind].
  do 2 eexists. reflexivity.
Qed.

(** A complete Wu-Yang inversion. *)
Lemma wit_wuyang : forall e, exists iv' out, linresponse g22 (one_env e) (A1 (fun _ => 1)) (Some (A2 1 (fun _ _ => 0)))
    (one_inv (one_opt "wuyang" false false 50) 1 1 (fun _ => 0) None None false) = Ok (iv', out).
Proof.
  intros e. unfold linresponse. cbn [as_cols]. unfold lin_guess. cbn [one_inv i_vset bind].
  set (iv0 := inv_us _ _). change (io_ess _) with false. cbv iota. cbn [forN bind].
  unfold lin_spin. cbn [one_inv i_cols]. change (i_cols iv0) with 1%nat. change (0 <? 1)%nat with true. cbn [negb]. cbv iota.
  unfold column. change (0 <? 1)%nat with true. cbv iota. cbn [bind].
  destruct (one_energy (fun _ => 1) e) as (a & b & t & n & Y1 & Y2). destruct (one_response (one_env e) (fun _ => 1) e) as (chi & Y3).
  destruct (one_homo (fun _ => 1) e) as (h & Y4).
  set (s2 := one_solver (fun _ => 1) (Some one_phi) (Some (one_eig e))) in *.
  assert (X : Ws_solver g22 (one_env e) 0 (fun _ => 1) 0 iv0 = Ok (inv_chi (inv_solver (inv_setveff iv0 0 0 (fun _ => 1)) 0 0 s2) 0 0 chi)).
  { unfold Ws_solver. change (v_orb (one_env e) (i_sol (inv_setveff iv0 0 0 (fun _ => 1)) 0%nat 0%nat)) with (Ok (one_eig e, Some one_phi) : res wres).
    cbn [bind]. change (set_result (i_sol (inv_setveff iv0 0 0 (fun _ => 1)) 0%nat 0%nat) (one_eig e, Some one_phi)) with s2.
    rewrite Y2. cbn [bind]. rewrite Y1. cbn [bind]. rewrite Y3. reflexivity. }
  set (iv1 := inv_chi (inv_solver (inv_setveff iv0 0 0 (fun _ => 1)) 0 0 s2) 0 0 chi) in *.
  assert (W : exists w, Ws g22 (one_env e) (fun _ => 1) 0 (fun _ => 1) iv0 = Ok (iv1, w)).
  { unfold Ws. change (i_lv iv0) with 1%nat. change (i_cols iv0) with 1%nat. change (io_ab (i_opt iv0)) with false.
    change (0 <? 1)%nat with true. cbn [negb forN bind]. cbv zeta iota. rewrite X. cbn [bind].
    assert (W : exists d, Ws_density g22 0 iv1 = Ok d).
    { unfold Ws_density. change (i_lv iv1) with 1%nat. cbn [forN bind]. change (i_sol iv1 0%nat 0%nat) with s2. rewrite Y2. cbn [bind].
      eexists; reflexivity. }
    destruct W as (d & ->). cbn [bind]. change (i_vs iv1) with (Some (A2 1 (fun _ _ : nat => 0))). change (0 <? 1)%nat with true. cbv iota. cbn [bind].
    eexists. reflexivity. }
  destruct W as (w & W).
  assert (L : forall x0, lsq_run g22 (one_env e) (fun _ => 1) 0 x0 iv0 = Ok (iv1, fun _ => / 2, mkInfo 3 (Fin 0))).
  { intros x0. transitivity (do iv' <- (do iv <- Ok iv0; do p <- Ws g22 (one_env e) (fun _ => 1) 0 (fun _ => 1) iv; Ok (fst p)); Ok (iv', fun _ : nat => / 2, mkInfo 3 (Fin 0)));
      [reflexivity|]. cbn [bind]. rewrite W. reflexivity. }
  rewrite L. cbn [bind].
  change (i_vs iv1) with (Some (A2 1 (fun _ _ : nat => 0))). cbn [set_vcol]. change (0 <? 1)%nat with true. cbv iota. cbn [bind].
  change (i_sol iv1 0%nat 0%nat) with s2. rewrite Y4. cbn [bind].
  change (i_us iv1) with (Some (U2 1 1 (fun _ _ : nat => 0))). cbn [set_urow]. change (0 <? 1)%nat with true. cbv iota. cbn [bind].
  do 2 eexists. reflexivity.
Qed.

(** simple with a limit of one pass. *)
Lemma wit_simple : forall e, exists iv' out, simple g22 (one_env e) (A1 (fun _ => 1))
    (one_inv (one_opt "simple" false false 2) 1 1 (fun _ => 0) None None false) = Ok (iv', out).
Proof.
  intros e. unfold simple. cbn [one_inv i_vset].
  set (iv0 := one_inv _ _ _ _ _ _ _). change (io_tol (i_opt iv0)) with (/ 10). change (Z.to_nat (io_maxit (i_opt iv0) - 1)) with 1%nat.
  set (v := simple_guess g22 (fun _ => 1)).
  unfold simple_loop. destruct (Rlt_dec (/ 10) 1); [|lra].
  set (iv1 := inv_setveff iv0 0 0 v). set (s1 := one_solver v (Some one_phi) (Some (one_eig e))).
  set (iv2 := inv_solver iv1 0 0 s1).
  destruct (one_energy v e) as (a & b & t & n & Y1 & Y2). fold s1 in Y1, Y2.
  assert (D : exists d, simple_density g22 iv2 = Ok d).
  { unfold simple_density. change (i_cols iv2) with 1%nat. change (i_lv iv2) with 1%nat. cbn [forN bind].
    change (i_sol iv2 0%nat 0%nat) with s1. rewrite Y2. cbn [bind]. eexists; reflexivity. }
  destruct D as (d & D).
  set (grad := fun k => 1 / 1 * (d k - 1)). set (vs' := fun k => v k + 1 / 10 * grad k).
  set (iv3 := inv_setveff iv2 0 0 vs').
  assert (X : simple_step g22 (one_env e) (fun _ => 1) v iv0 = Ok (iv3, vs', maxabs (Nelem g22) grad)).
  { unfold simple_step. change (i_lv iv0 - 1)%nat with 0%nat. change (i_cols iv0 - 1)%nat with 0%nat.
    change (v_orb (one_env e) (i_sol (inv_setveff iv0 0 0 v) 0%nat 0%nat)) with (Ok (one_eig e, Some one_phi) : res wres). cbn [bind].
    change (inv_solver (inv_setveff iv0 0 0 v) 0 0 (set_result (i_sol (inv_setveff iv0 0 0 v) 0%nat 0%nat) (one_eig e, Some one_phi))) with iv2.
    rewrite D. reflexivity. }
  rewrite X. cbn [bind].
  set (s3 := one_solver vs' (Some one_phi) (Some (one_eig e))).
  destruct (one_energy vs' e) as (a3 & b3 & t3 & n3 & Y3 & Y4). fold s3 in Y3, Y4.
  assert (U : exists u, simple_us iv3 = Ok u).
  { unfold simple_us. change (i_lv iv3) with 1%nat. change (i_cols iv3) with 1%nat. cbn [forN bind].
    change (i_sol iv3 0%nat 0%nat) with s3. unfold eig_max. cbn [s3 one_solver s_eig one_eig seq map np_max_list bind]. eexists; reflexivity. }
  destruct U as (u & ->). cbn [bind]. change (i_sol iv3 (i_lv iv0 - 1)%nat (i_cols iv0 - 1)%nat) with s3. rewrite Y3. cbn [bind].
  assert (D3 : exists d, simple_density g22 iv3 = Ok d).
  { unfold simple_density. change (i_cols iv3) with 1%nat. change (i_lv iv3) with 1%nat. cbn [forN bind].
    change (i_sol iv3 0%nat 0%nat) with s3. rewrite Y4. cbn [bind]. eexists; reflexivity. }
  destruct D3 as (d3 & ->). cbn [bind]. do 2 eexists. reflexivity.
Qed.

(** Zero of the Newton system. *)
Lemma wit_zero : exists x, forall r, (r < x_len (Nelem g22) 1)%nat -> o_eqn g22 1 (hamiltonian g22 0) (fun _ => 1) (fun _ => 2) x r = 0.
Proof.
  exists (x_pack (Nelem g22) 1 (fun _ _ => 1) (fun _ => 0) (one_pot 0)). intros r Hr. unfold x_len in Hr.
  destruct (lt_dec r (1 * Nelem g22)) as [L|L].
  - destruct (row_surj _ _ _ L) as (i & k & Hi & Hk & ->). rewrite eqn_ks_schroed by auto.
    replace (schroed _ _ _ _ _ _) with 0; [ring|]. symmetry. replace i with 0%nat by lia.
    unfold schroed. rewrite (sumR_ext _ _ (fun l => hamiltonian g22 0 k l * 1)).
    + rewrite pack_phi by (auto; lia). rewrite pack_v by auto. pose proof (one_eigen 0 k Hk) as Q. unfold eigv. simpl (1 <? 1)%nat. cbv iota.
      change (1 <? 1)%nat with false. cbv iota beta in Q |- *. lra.
    + intros l Hl. rewrite pack_phi by (auto; lia). reflexivity.
  - replace r with (dens_row (Nelem g22) 1 (r - Nelem g22)) by (unfold dens_row; lia). rewrite eqn_dens.
    cbn [sumR]. rewrite pack_phi by lia. lra.
Qed.
Lemma wit_sym : exists y, ab_symmetrize g22 1 (x_pack (Nelem g22) 1 (fun _ _ => 1) (fun _ => 0) (fun k => INR k)) = Ok y.
Proof.
  unfold ab_symmetrize. cbn [all_cols seq Nat.sub fold_left bind].
  set (x := x_pack _ _ _ _ _).
  assert (P : forall k, (k < Nelem g22)%nat -> x_phi (Nelem g22) x 0 k = 1).
  { intros. rewrite orb_x. apply pack_phi; auto. }
  assert (Q : forall k, (k < Nelem g22)%nat -> mirror1 g22 (x_phi (Nelem g22) x 0) k = 1).
  { intros k Hk. rewrite (mirror1_ext R g22 _ (fun _ => 1)) by auto. apply mirror1_const; auto. }
  unfold ab_col. destruct Rlt_dec as [L|L].
  - unfold unit_col. destruct Req_EM_T as [Z|Z]; [exfalso|eexists; reflexivity].
    apply (nrm_const 2); [lra|]. etransitivity; [|exact Z]. unfold nrm. apply (f_equal sqrt). apply sumR_ext. intros k Hk. rewrite P, Q by auto. ring.
  - exfalso. apply L. rewrite (sumR_ext _ _ (fun _ => 1)) by (intros; rewrite P, Q by auto; ring). rewrite g22_n. cbn [sumR]. lra.
Qed.
Lemma wit_nan : let x := x_pack (Nelem g22) 2 (fun i _ => INR (S i)) (fun _ => 0) (fun _ => 0) in
  Rabs (eigv (Nelem g22) 2 x 0) < / 10 ^ 6 /\ even_col g22 (orb (Nelem g22) x 0) /\ even_col g22 (orb (Nelem g22) x 1) /\ 0 < integrate1 g22 (fun k => orb (Nelem g22) x 0 k ^ 2).
Proof.
  cbv zeta. set (x := x_pack _ _ _ _ _).
  assert (P : forall i k, (i < 2)%nat -> (k < Nelem g22)%nat -> orb (Nelem g22) x i k = INR (S i)) by (intros; apply pack_phi; auto).
  split; [|split; [|split]].
  - unfold x. rewrite pack_ev by lia. rewrite Rabs_R0. apply Rinv_0_lt_compat. apply pow_lt. lra.
  - intros k Hk. rewrite P by (auto; lia). rewrite (mirror1_ext R g22 _ (fun _ => INR 1)) by (intros; auto; apply P; auto; lia).
    symmetry. apply mirror1_const; auto.
  - intros k Hk. rewrite P by (auto; lia). rewrite (mirror1_ext R g22 _ (fun _ => INR 2)) by (intros; auto; apply P; auto; lia).
    symmetry. apply mirror1_const; auto.
  - rewrite (integrate1_ext g22 (fun k => orb (Nelem g22) x 0 k ^ 2) (fun _ => 1 ^ 2)) by (intros; rewrite P by (auto; lia); simpl; ring).
    apply const_norm. lra.
Qed.
(** A loop with a NaN residual that is reported as converged. *)
Lemma wit_loop_nan : let o := one_opt "orbitalinvert" false false 2 in exists st,
  o_loop o (fun _ : unit => (NaN, Fin 1)) (fun _ _ => Ok tt) (o_fuel o) (o_start tt) = Ok (Some st).
Proof. cbv zeta. eexists. unfold o_fuel. change (Z.to_nat (io_maxit (one_opt "orbitalinvert" false false 2))) with 2%nat. reflexivity. Qed.
(** Kinetic energies and kinetic energy densities of two levels. *)
Lemma wit_ked : forall e, exists t, ked_at g22 (one_inv (one_opt "wuyang" false false 2) 2 1 (one_pot e) (Some one_phi) (Some (one_eig e)) true) 0 0 = Ok t.
Proof.
  intros e. destruct (ked_full g22 (hamiltonian g22 0) (one_solver (one_pot e) (Some one_phi) (Some (one_eig e))) 1 (snd one_phi) (snd (one_eig e)))
    as (t & a & b & c & n & H & _); auto using g22_ok, one_enough.
  - simpl; lra.
  - intros i _. split; [apply (const_norm 1); lra|apply one_eigen].
  - exists t. exact H.
Qed.
