(** The two treatments of a closed shell: from the constructor, with local functionals, and where they part. *)
From Coq Require Import Reals List Arith Lia Lra ZArith Bool String.
From Verif Require Import Base BaseLemmas GridModel GridSpec GridProofs GridWitness GridMore OpProofs FDProofs HartreeModel HartreeSpec HartreeProofs LinAlg HartreeThms SolverModel SolverSpec SolverProofs LibxcModel LibxcSpec LibxcProofs LibxcThms OptionsModel KSModel KSSpec KSProofs KSThms KSLoop KSEnergy KSTotal KSWit
  SelfConsistent NonInteracting Isolated Transport MirrorRun MirrorWit ClosedShell.
Import ListNotations.
Local Open Scope R_scope.
Lemma sinh_lt : forall x y, x < y -> sinh x < sinh y.
Proof. intros x y H. unfold sinh. assert (exp x < exp y) by (apply exp_increasing; lra). assert (exp (- y) < exp (- x)) by (apply exp_increasing; lra). lra. Qed.
Local Opaque sinh cosh.

(** * Specification *)
(** A local functional in its one-column and two-column forms: a closed shell gets the same values. *)
Definition closed_functionals (w : env) (k : ks) : Prop := o_fam (k_opt k) = "lda"%string /\ forall id, id = o_xid (k_opt k) \/ id = o_cid (k_opt k) -> exists F1 F2, e_lib w id 1%nat = Ok F1 /\ e_lib w id 2%nat = Ok F2 /\
  forall (n n' : mat) x, (forall j, (j < 2)%nat -> n' x j = n x 0%nat / 2) -> xc_zk (F2 n' None) x = xc_zk (F1 n None) x /\ forall j, (j < 2)%nat -> xc_vrho (F2 n' None) x j = xc_vrho (F1 n None) x 0%nat.
(** The same with gradients: each spin has half the gradient, so every entry of sigma is a quarter. *)
Definition closed_gradient (F1 F2 : mat -> option mat -> xcout) : Prop := forall (n n' s s' : mat) x, (forall j, (j < 2)%nat -> n' x j = n x 0%nat / 2) -> (forall j, (j < 3)%nat -> s' x j = s x 0%nat / 4) ->
  xc_zk (F2 n' (Some s')) x = xc_zk (F1 n (Some s)) x /\ forall j, (j < 2)%nat -> xc_vrho (F2 n' (Some s')) x j = xc_vrho (F1 n (Some s)) x 0%nat.

Lemma closed_lda : forall g w k, closed_functionals w k -> closed_xc g w (k_opt k).
Proof.
  intros g w k (FM & L) id n n' e eps v e' eps' v' Hid Hn E E'. destruct (L id Hid) as (F1 & F2 & L1 & L2 & C). unfold get_xc, get_xc_dictionary in E, E'. rewrite L1 in E. rewrite L2 in E'. rewrite FM in *. cbn [bind] in *.
  change (String.eqb "lda" "lda") with true in *. change (String.eqb "lda" "gga") with false in *. cbn [bind] in *. cbv zeta in *. injection E as <- <- <-. injection E' as <- <- <-. split.
  - unfold integrate1. f_equal. apply sumR_ext. intros x Hx. unfold sum_cols. cbn [sumR]. destruct (C n n' x) as (Z & _); [intros j Hj; apply Hn; assumption|]. rewrite Z, !Hn by (assumption || lia). field.
  - intros x j Hx Hj. apply C; [intros i Hi; apply Hn; assumption|assumption].
Qed.
Lemma vnuc_copies : forall g Za Zb sym, copies g (ks_vnuc g Za Zb 1 sym) (ks_vnuc g Za Zb 2 sym).
Proof.
  intros g Za Zb sym. unfold ks_vnuc. cbv zeta. assert (I : copies g (fun k s => if ((1 =? 1) && (s =? 0))%nat%bool then coulomb g Za Zb k else if ((1 =? 2) && (s <? 2))%nat%bool then coulomb g Za Zb k else 0)
    (fun k s => if ((2 =? 1) && (s =? 0))%nat%bool then coulomb g Za Zb k else if ((2 =? 2) && (s <? 2))%nat%bool then coulomb g Za Zb k else 0)).
  { intros x j Hx Hj. cbv beta. cbn [Nat.eqb andb]. destruct (Nat.ltb_spec j 2); [reflexivity|lia]. }
  destruct sym; [apply copies_mirror|]; exact I.
Qed.
Lemma init_pair : forall g Za Zb lv Nmo Nmo' N N' opt k k', ks_init g Za Zb 1 lv 1 Nmo lv 1 N opt = Ok k -> ks_init g Za Zb 2 lv 2 Nmo' lv 2 N' opt = Ok k' ->
  (forall i j, (i < lv)%nat -> (j < 2)%nat -> Nmo' i j = Nmo i 0%nat /\ N' i j = N i 0%nat / 2) -> closed_pair g k k' /\ copies g (outer k) (outer k').
Proof.
  intros g Za Zb lv Nmo Nmo' N N' opt k k' H H' X. pose proof (init_opt _ _ _ _ _ _ _ _ _ _ _ _ _ _ _ _ _ _ _ _ _ _ H H') as OO. pose proof (init_vnuc _ _ _ _ _ _ _ _ _ _ _ _ H) as V. pose proof (init_vnuc _ _ _ _ _ _ _ _ _ _ _ _ H') as V'.
  apply init_spec in H. destruct H as (o & C & _ & _ & A1 & A2 & A3 & A4 & A5 & _ & _ & _ & _ & _ & _ & A6 & _ & _ & _ & _ & _ & P). apply init_spec in H'. destruct H' as (o' & C' & _ & _ & B1 & B2 & B3 & B4 & B5 & _ & _ & _ & _ & _ & _ & B6 & _ & _ & _ & _ & _ & P').
  rewrite C in C'. injection C' as <-. split; [|intros x j _ _; unfold outer; rewrite A6, B6; reflexivity].
  split; [exact OO|]. split; [rewrite A1, A2, B1, B2; ring|]. repeat (split; [congruence|]). split; [rewrite V, V', OO; apply vnuc_copies|].
  intros i j Hi Hj. rewrite A4 in Hi. destruct (X i j Hi Hj) as (X1 & X2).
  assert (Hp : place k i 0) by (unfold place; rewrite A4, A5; lia). assert (Hp' : place k' i j) by (unfold place; rewrite B4, B5; lia).
  destruct (P i _ Hp) as (_ & Q1 & Q2 & Q3 & Q4 & Q5 & Q6 & _). destruct (P' i j Hp') as (_ & R1 & R2 & R3 & R4 & R5 & R6 & _). unfold half_solver. intuition congruence.
Qed.
Theorem closed_from_init : forall g w Za Zb lv Nmo Nmo' N N' opt k k' o sched sched' st st', hartree_setting g w -> spin_blind g w ->
  ks_init g Za Zb 1 lv 1 Nmo lv 1 N opt = Ok k -> ks_init g Za Zb 2 lv 2 Nmo' lv 2 N' opt = Ok k' -> (forall i j, (i < lv)%nat -> (j < 2)%nat -> Nmo' i j = Nmo i 0%nat /\ N' i j = N i 0%nat / 2) ->
  closed_functionals w k -> so_cont o = false -> so_flip o = false -> scf_trace g w o sched k st -> scf_trace g w o sched' k' st' -> c_iter st' = c_iter st ->
  c_oldE st' = c_oldE st /\ (exists n n', k_n (c_ks st) = Some n /\ k_n (c_ks st') = Some n' /\ halves g n n') /\
  ((1 < c_iter st)%Z -> k_u (c_ks st') = k_u (c_ks st) /\ forall i j m, (i < lv)%nat -> (j < 2)%nat -> eig_at (k_sol (c_ks st') i j) m = eig_at (k_sol (c_ks st) i 0) m).
Proof.
  intros g w Za Zb lv Nmo Nmo' N N' opt k k' o sched sched' st st' HS SB H H' X CF O1 O2 T T' I. destruct (init_pair _ _ _ _ _ _ _ _ _ _ _ H H' X) as (CP & OU).
  apply init_spec in H. destruct H as (o1 & _ & _ & _ & _ & _ & _ & A4 & _). rewrite <- A4. eapply closed_runs; eauto. apply closed_lda, CF.
Qed.

(** * Where they part *)
Definition grad1 : mat -> option mat -> xcout := fun n s => match s with Some s => mkXc (fun x => s x 0%nat) (fun _ _ => 0) (fun _ _ => 0) | None => mkXc (fun _ => 0) (fun _ _ => 0) (fun _ _ => 0) end.
Definition grad2 : mat -> option mat -> xcout := fun n s => match s with Some s => mkXc (fun x => s x 0%nat + 2 * s x 1%nat + s x 2%nat) (fun _ _ => 0) (fun _ _ => 0) | None => mkXc (fun _ => 0) (fun _ _ => 0) (fun _ _ => 0) end.
Lemma grad_closed : closed_gradient grad1 grad2.
Proof. intros n n' s s' x _ S. split; [|reflexivity]. cbn [grad1 grad2 xc_zk]. rewrite !S by lia. field. Qed.
Theorem gga_parts : exists g lib n n' e eps v e' eps' v', grid_ok g /\ lstsq_ok g /\ fd_ok g 1 /\ lib 0%nat 1%nat = Ok grad1 /\ lib 0%nat 2%nat = Ok grad2 /\ closed_gradient grad1 grad2 /\ halves g n n' /\
  get_xc g lib "gga" 0 1 n = Ok (e, eps, v) /\ get_xc g lib "gga" 0 2 n' = Ok (e', eps', v') /\ exists x, (x < Nelem g)%nat /\ eps' x <> eps x.
Proof.
  destruct sigma_cross_wrong as (s & E & H). destruct (sigma_pol1 g22 (fun k _ => 2 * f22 k)) as (s1 & E1 & H1). destruct (sigma_pol2 g22 (fun k _ => f22 k)) as (s2 & E2 & H2). rewrite E in E2. injection E2 as <-.
  exists g22, (fun _ pol => if (pol =? 1)%nat then Ok grad1 else Ok grad2), (fun k _ => 2 * f22 k), (fun k _ => f22 k).
  assert (G1 : exists e v, get_xc g22 (fun _ pol => if (pol =? 1)%nat then Ok grad1 else Ok grad2) "gga" 0 1 (fun k _ => 2 * f22 k) = Ok (e, fun x => s1 x 0%nat, v)).
  { unfold get_xc, get_xc_dictionary. cbn [Nat.eqb bind]. change (String.eqb "gga" "lda") with false. change (String.eqb "gga" "gga") with true. cbv iota. rewrite E1. cbn [bind snd]. eexists _, _. reflexivity. }
  assert (G2 : exists e v, get_xc g22 (fun _ pol => if (pol =? 1)%nat then Ok grad1 else Ok grad2) "gga" 0 2 (fun k _ => f22 k) = Ok (e, fun x => s x 0%nat + 2 * s x 1%nat + s x 2%nat, v)).
  { unfold get_xc, get_xc_dictionary. cbn [Nat.eqb bind]. change (String.eqb "gga" "lda") with false. change (String.eqb "gga" "gga") with true. cbv iota. rewrite E. cbn [bind snd]. eexists _, _. reflexivity. }
  destruct G1 as (e & v & G1). destruct G2 as (e' & v' & G2). exists e, (fun x => s1 x 0%nat), v, e', (fun x => s x 0%nat + 2 * s x 1%nat + s x 2%nat), v'.
  split; [apply g22_ok|]. split; [apply grid_of_lstsq|]. split; [exact g22_fd|]. split; [reflexivity|]. split; [reflexivity|]. split; [exact grad_closed|]. split; [intros x j _ _; field|]. split; [exact G1|]. split; [exact G2|].
  exists 0%nat. split; [compute; lia|]. destruct (H1 0%nat) as (-> & _). destruct (H2 0%nat) as (-> & -> & _).
  assert (LA : forall M, gapply g22 M (fun i => 2 * f22 i) 0%nat = 2 * gapply g22 M f22 0%nat).
  { intros M. unfold gapply, matvec. rewrite <- sumR_scal. apply sumR_ext. intros; ring. }
  rewrite !LA. intros Q. apply H. change (fun i : nat => f22 i) with f22 in Q. lra.
Qed.
(** One point changes: with one column the change counts one part in four, with two columns by the weight of the point. *)
Lemma g22_inner : gw g22 1%nat = gw g22 0%nat /\ gw g22 3%nat = gw g22 2%nat /\ gw g22 0%nat < gw g22 2%nat.
Proof.
  assert (P : forall a r, (a < 2)%nat -> (r < 2)%nat -> is_point g22 a r) by (intros; split; assumption).
  assert (V : forall a r, (a < 2)%nat -> (r < 2)%nat -> gw g22 (pos g22 a r) = ga g22 ^ 3 * sin (xa g22 a) * sinh (xr g22 r) * (sin (xa g22 a) ^ 2 + sinh (xr g22 r) ^ 2)).
  { intros a r Ha Hr. rewrite gw_val by (apply pos_lt; auto). rewrite Xa_pos, Xr_pos by auto. reflexivity. }
  pose proof (V 0%nat 0%nat ltac:(lia) ltac:(lia)) as V00. pose proof (V 1%nat 0%nat ltac:(lia) ltac:(lia)) as V10. pose proof (V 0%nat 1%nat ltac:(lia) ltac:(lia)) as V01. pose proof (V 1%nat 1%nat ltac:(lia) ltac:(lia)) as V11.
  change (pos g22 0 0) with 0%nat in V00. change (pos g22 1 0) with 1%nat in V10. change (pos g22 0 1) with 2%nat in V01. change (pos g22 1 1) with 3%nat in V11. rewrite V00, V10, V01, V11.
  assert (S : sin (xa g22 1%nat) = sin (xa g22 0%nat)).
  { rewrite <- (sin_PI_x (xa g22 0%nat)). f_equal. unfold xa, ha, xa0, linspace. change (Na g22) with 2%nat. simpl. field. }
  rewrite S. split; [reflexivity|]. split; [reflexivity|].
  pose proof (sin_Xa_pos g22 0%nat ltac:(compute; lia)) as S0. change 0%nat with (pos g22 0 0) in S0. rewrite Xa_pos in S0 by (apply P; lia).
  pose proof (sinh_Xr_pos g22 0%nat g22_ok ltac:(compute; lia)) as R0. change 0%nat with (pos g22 0 0) in R0. rewrite Xr_pos in R0 by (apply P; lia).
  assert (R1 : sinh (xr g22 0%nat) < sinh (xr g22 1%nat)).
  { apply sinh_lt. unfold xr, hr, xr0, linspace. change (Nr g22) with 2%nat. change (gL g22) with 1. simpl. lra. }
  change (ga g22) with 1. rewrite pow1, !Rmult_1_l. apply Rmult_gt_0_lt_compat; try nra.
Qed.
Theorem residual_parts : exists g n n' old old' r r', grid_ok g /\ lstsq_ok g /\ halves g n n' /\ halves g old old' /\ dens_residual g 1 n old = Ok (Fin r) /\ dens_residual g 2 n' old' = Ok (Fin r') /\ r' < r.
Proof.
  destruct g22_inner as (I1 & I2 & I3). pose proof (gw_pos g22 0%nat g22_ok ltac:(compute; lia)) as I0. pose proof (iprefac_pos g22 g22_ok) as IP.
  assert (WI : forall k, (k < 4)%nat -> gwi g22 k = 9 / 16).
  { intros k Hk. destruct (pos_surj g22 k Hk) as (ia & ir & Hp & ->). rewrite gwi_pos by (auto; reflexivity). destruct (g22_w ia) as [A _]; [apply Hp|]. destruct (g22_w ir) as [_ B]; [apply Hp|]. rewrite A, B. field. }
  pose (n := fun (_ _ : nat) => 1). pose (n' := fun (_ _ : nat) => 1 / 2). pose (old := fun k (_ : nat) => if (k =? 0)%nat then 0 else 1). pose (old' := fun k (_ : nat) => if (k =? 0)%nat then 0 else 1 / 2).
  pose proof (residual_one g22 n old) as R1. assert (H1 : halves g22 n n') by (intros x j _ _; reflexivity). assert (H2 : halves g22 old old') by (intros x j _ _; unfold old, old'; destruct (x =? 0)%nat; field).
  assert (A1 : forall s, integrate1 g22 (fun k => Rabs (n' k s - old' k s)) = iprefac g22 * (9 / 32 * gw g22 0%nat)).
  { intros s. unfold integrate1, n', old'. change (Nelem g22) with 4%nat. cbn [sumR Nat.eqb]. rewrite !WI by lia. rewrite Rminus_0_r, Rminus_diag_eq, Rabs_R0 by reflexivity. rewrite Rabs_right by lra. field. }
  assert (A2 : forall s, integrate1 g22 (fun k => Rabs (n' k s)) = iprefac g22 * (9 / 16 * (gw g22 0%nat + gw g22 2%nat))).
  { intros s. unfold integrate1, n'. change (Nelem g22) with 4%nat. cbn [sumR]. rewrite !WI by lia. rewrite Rabs_right by lra. rewrite I1, I2. field. }
  exists g22, n, n', old, old'. eexists _, (iprefac g22 * (9 / 32 * gw g22 0%nat) / (iprefac g22 * (9 / 16 * (gw g22 0%nat + gw g22 2%nat)))).
  split; [apply g22_ok|]. split; [apply grid_of_lstsq|]. split; [exact H1|]. split; [exact H2|]. split; [|split].
  - apply R1; [pose proof wtot_g22 as W; unfold wtot in W; lra|lra|]. unfold n. change (Nelem g22) with 4%nat. cbn [sumR]. rewrite Rabs_R1. lra.
  - unfold dens_residual, integrate. cbn [Nat.eqb]. assert (ND : iprefac g22 * (9 / 16 * (gw g22 0%nat + gw g22 2%nat)) <> 0) by (apply Rgt_not_eq; apply Rmult_lt_0_compat; lra).
    change (Nelem g22) with 4%nat. cbn [seq flat_map map app]. rewrite !A1, !A2. unfold ndiv. destruct Req_EM_T as [Z|_]; [contradiction|]. unfold npmax. f_equal. cbn [fold_left]. set (q := _ / _). assert (M : npmax2 (Fin q) (Fin q) = Fin q) by (unfold npmax2, pymax; destruct (gtb (Fin q) (Fin q)); reflexivity). rewrite !M. reflexivity.
  - unfold n, old. change (Nelem g22) with 4%nat. cbn [sumR Nat.eqb]. rewrite Rminus_0_r, Rminus_diag_eq, Rabs_R0, Rabs_R1 by reflexivity.
    replace (iprefac g22 * (9 / 32 * gw g22 0%nat) / (iprefac g22 * (9 / 16 * (gw g22 0%nat + gw g22 2%nat)))) with (gw g22 0%nat / (2 * (gw g22 0%nat + gw g22 2%nat))) by (field; split; lra).
    apply Rmult_lt_reg_r with (2 * (gw g22 0%nat + gw g22 2%nat)); [lra|]. unfold Rdiv at 1. rewrite Rmult_assoc, Rinv_l by lra. lra.
Qed.

(** * A molecule with two electrons, both ways *)
Lemma first_pass : forall g w o sched k st, scf_trace g w o sched k st -> (1 < c_iter st)%Z -> exists st1, scf_trace g w o sched k st1 /\ c_iter st1 = 2%Z.
Proof.
  intros g w o sched k st T. induction T as [k0 S0|st st' T IH TE B]; intros H; [cbn [c_iter] in H; lia|]. destruct (Z.eq_dec (c_iter st) 1) as [E|E].
  - exists st'. split; [eapply trace_step; eauto|]. apply body_frame in B. lia.
  - apply IH. pose proof (trace_bound _ _ _ _ _ _ T). lia.
Qed.
Lemma m_blind : forall spL spU, spin_blind g3p (m_env spL spU).
Proof. intros spL spU it it' s s' r r' _ V E E'. injection E as <-. injection E' as <-. split; [reflexivity|]. split; [reflexivity|]. cbn [snd fst]. split; [reflexivity|]. intros i _. left. intros x Hx. rewrite V by exact Hx. reflexivity. Qed.
Lemma m_closed : forall spL spU k, o_fam (k_opt k) = "lda"%string -> closed_functionals (m_env spL spU) k.
Proof.
  intros spL spU k FM. split; [exact FM|]. intros id _. exists (ex_F 1), (ex_F 2). split; [reflexivity|]. split; [reflexivity|]. intros n n' x H. cbn [ex_F lib_ex Nat.eqb orb xc_zk xc_vrho]. unfold sum_cols. cbn [sumR]. rewrite !H by lia. split; [field|]. intros j Hj. field.
Qed.
Section OneColumn.
  Variables spL spU : vec -> vec.
  Let w := m_env spL spU.
  Lemma one_run : forall Za Zb, exists k, ks_init g3p Za Zb 1 1 1 (fun _ _ => 1%nat) 1 1 (fun _ _ => 2) [] = Ok k /\ o_fam (k_opt k) = "lda"%string /\
    exists o st, ks_scf g3p w (fun _ => keys k) [] k = Ok st /\ scf_options [] = Ok o /\ so_cont o = false /\ so_flip o = false /\ scf_trace g3p w o (fun _ => keys k) k st /\ (1 < c_iter st)%Z.
  Proof.
    intros Za Zb. assert (C : exists d, configure KohnShamOptions [] = Ok d) by (eexists; reflexivity). destruct C as (d & C).
    destruct (init_total g3p Za Zb 1 1 1 (fun _ _ => 1%nat) (fun _ _ => 2) [] d C) as (k & H). { intros i j Hi _. lra. }
    exists k. split; [exact H|]. pose proof H as H0. apply init_spec in H0. destruct H0 as (o1 & C1 & _ & _ & _ & _ & A3 & A4 & A5 & O1 & O2 & O3 & O4 & O5 & O6 & _ & _ & _ & _ & _ & _ & P). rewrite C in C1. injection C1 as <-.
    assert (FM : o_fam (k_opt k) = "lda"%string) by (rewrite O6; injection C as <-; reflexivity). split; [exact FM|].
    assert (OO : exists o, scf_options [] = Ok o /\ so_auto o = false /\ so_cont o = false /\ so_flip o = false /\ so_tol o = 10 * / 10 ^ 6 /\ so_maxiter o = 100%Z) by (eexists; split; [reflexivity|repeat split]). destruct OO as (o & Q1 & Q2 & Q3 & Q4 & Q5 & Q6).
    destruct (scf_total g3p w k) with (sched := fun _ : Z => keys k) (d := [] : dict) (o := o) as (st & E); try assumption; try congruence.
    - exact g3p_pos.
    - intros it i j s Hp (S1 & S2 & S3 & S4). destruct (P i j Hp) as (_ & P1 & P5 & P2 & _). assert (I0 : i = 0%nat) by (destruct Hp as (Hp & _); rewrite A4 in Hp; lia). subst i. rewrite S3, P2. split; [lra|].
      eexists 1%nat, _, _. split; [reflexivity|]. rewrite S1, S2, P1, P5. unfold shell_size. simpl. lra.
    - right. intros n. rewrite FM, A3. eexists _, _, _. repeat split; reflexivity.
    - rewrite A3, A5. lia.
    - rewrite A4. lia.
    - intros _. apply keys_schedule.
    - exists o, st. split; [exact E|]. split; [exact Q1|]. split; auto. split; auto. destruct (scf_inv _ _ _ _ _ _ E) as (o' & O' & T & X). rewrite Q1 in O'. injection O' as <-. split; auto.
      destruct T as [k0 S0|st0 st T TE B]; [|pose proof (trace_bound _ _ _ _ _ _ T); apply body_frame in B; lia]. exfalso. unfold scf_test in X. cbn [c_diff c_iter gtb] in X. rewrite Q5, Q6 in X. destruct (Rlt_dec (10 * / 10 ^ 6) 10) as [_|NL]; [discriminate|].
      apply NL. replace (10 * / 10 ^ 6) with (1 / 100000) by field. lra.
  Qed.
End OneColumn.
Theorem closed_both : forall Za Zb, exists w k k' o st st', hartree_setting g3p w /\ spin_blind g3p w /\ ks_init g3p Za Zb 1 1 1 (fun _ _ => 1%nat) 1 1 (fun _ _ => 2) [] = Ok k /\ ks_init g3p Za Zb 2 1 2 (fun _ _ => 1%nat) 1 2 (fun _ _ => 1) [] = Ok k' /\
  closed_functionals w k /\ so_cont o = false /\ so_flip o = false /\ scf_trace g3p w o (fun _ => keys k) k st /\ scf_trace g3p w o (fun _ => keys k') k' st' /\ c_iter st' = c_iter st /\ (1 < c_iter st)%Z.
Proof.
  intros Za Zb. destruct m_setting as (spL & spU & _ & HS). destruct (one_run spL spU Za Zb) as (k & A1 & A2 & o & st & A3 & A4 & A5 & A6 & A7 & A8). destruct (m_run spL spU Za Zb (fun _ _ => 1) ltac:(intros; lra)) as (k' & B1 & B2 & o' & st' & B3 & B4 & B5 & B6 & B7 & B8).
  rewrite A4 in B4. injection B4 as <-. destruct (first_pass _ _ _ _ _ _ A7 A8) as (s & T & I). destruct (first_pass _ _ _ _ _ _ B7 B8) as (s' & T' & I'). exists (m_env spL spU), k, k', o, s, s'.
  split; [exact HS|]. split; [apply m_blind|]. split; [exact A1|]. split; [exact B1|]. split; [apply m_closed, A2|]. repeat (split; auto). congruence. lia.
Qed.
