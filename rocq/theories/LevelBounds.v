(** Lower bounds of levels, of their sum and of the kinetic energy in Kohnsham.scf on grids with three-point differences. *)
From Coq Require Import Reals List Arith Lia Lra ZArith Bool String FunctionalExtensionality.
From Verif Require Import Base BaseLemmas GridModel GridSpec GridProofs HartreeModel SolverModel SolverSpec SolverProofs LibxcModel OptionsModel KSModel KSSpec KSProofs KSThms KSLoop KSEnergy KSTotal SelfConsistent NonInteracting Transport KSMemory NCSignsThms GroundThms Gauge.
Import ListNotations.
Local Open Scope R_scope.

(** * Specification *)
(** Every stored eigenvalue solves the discrete Schroedinger equation in the solver's own potential: the eigensolver has converged. *)
Definition levels_exact (g : grid) (k : ks) : Prop := forall i j m e, place k i j -> eig_at (k_sol k i j) m = Ok e ->
  exists p, (exists x, (x < Nelem g)%nat /\ p x <> 0) /\ eigenpair g (hamiltonian g (s_m (k_sol k i j))) (s_veff (k_sol k i j)) e p.
(** b is a lower bound of the effective potentials of spin j, B an upper one. *)
Definition pot_above (g : grid) (k : ks) (j : nat) (b : R) : Prop := forall i x, (i < k_lv k)%nat -> (x < Nelem g)%nat -> b <= s_veff (k_sol k i j) x.
Definition pot_below (g : grid) (k : ks) (j : nat) (B : R) : Prop := forall i x, (i < k_lv k)%nat -> (x < Nelem g)%nat -> s_veff (k_sol k i j) x <= B.
(** Electrons in the orbitals of spin j. *)
Definition held (g : grid) (k : ks) (j : nat) : R := sumR (k_lv k) (fun i => integrate1 g (dens g (k_sol k i j))).

(** * One solver *)
Section Solver.
  Variables (g : grid) (s : solver) (b : R).
  Hypothesis EB : forall m e, eig_at s m = Ok e -> b <= e.
  Lemma nu_nonneg : 0 <= snd (nocc s).
  Proof.
    assert (G : forall x, 0 <= x - IZR (floorZ x)) by (intros x; unfold floorZ; pose proof (base_Int_part x); lra).
    unfold nocc. destruct (s_m s =? 0)%Z, (s_pol s =? 1)%nat; apply G.
  Qed.
  Lemma scale_mono : forall a c, a <= c -> shell_scale s a <= shell_scale s c.
  Proof. intros. unfold shell_scale. destruct (s_m s =? 0)%Z, (s_pol s =? 1)%nat; lra. Qed.
  Lemma scale_lin : forall a c, shell_scale s (c * a) = c * shell_scale s a.
  Proof. intros. unfold shell_scale. destruct (s_m s =? 0)%Z, (s_pol s =? 1)%nat; ring. Qed.
  Lemma eks_above : forall e, calc_eks s = Ok e -> b * carried s <= e.
  Proof.
    assert (L : forall m a, eks_loop s m = Ok a -> b * INR m <= a).
    { induction m as [|m IH]; intros a H; cbn [eks_loop] in H; [injection H as <-; simpl; lra|]. destruct (eks_loop s m) as [c|]; [|discriminate]. cbn [bind] in H.
      destruct (eig_at s (Z.of_nat m)) as [x|] eqn:E; [|discriminate]. cbn [bind] in H. injection H as <-. apply EB in E. pose proof (IH c eq_refl). rewrite S_INR. lra. }
    intros e H. pose proof nu_nonneg as NU. unfold calc_eks in H. unfold carried. destruct (nocc s) as [No nu]. cbn [snd] in NU. destruct (eks_loop s (Z.to_nat No)) as [a|] eqn:E; [|discriminate]. cbn [bind] in H. apply L in E.
    destruct (s_frac s && nonzero nu).
    - destruct (eig_at s No) as [x|] eqn:X; [|discriminate]. cbn [bind] in H. injection H as <-. apply EB in X. rewrite <- scale_lin. apply scale_mono. nra.
    - cbn [bind] in H. injection H as <-. rewrite <- scale_lin. apply scale_mono. lra.
  Qed.
  Lemma homo_above : forall h, get_homo s = Ok h -> b <= h \/ h = - 1 / feps.
  Proof. intros h H. unfold get_homo in H. destruct (nocc s) as [No nu]. cbv zeta in H. destruct (_ =? 0)%Z; [injection H as <-; auto|]. left. exact (EB _ _ H). Qed.
  Hypothesis PN : forall i p, phi_col s i = Ok p -> 0 < norm2 g p.
  Lemma dens_above : forall d, calc_density g s = Ok d -> forall x, 0 <= d x.
  Proof.
    assert (SN : forall y, 0 <= y -> 0 <= shell_scale s y) by (intros; unfold shell_scale; destruct (s_m s =? 0)%Z, (s_pol s =? 1)%nat; lra).
    assert (TN : forall p nu x, 0 <= nu -> 0 < norm2 g p -> 0 <= nu * p x ^ 2 / norm2 g p).
    { intros p nu x H1 H2. apply Rmult_le_pos; [apply Rmult_le_pos; [exact H1|apply pow2_ge_0]|apply Rlt_le, Rinv_0_lt_compat, H2]. }
    assert (L : forall m d, dens_loop g s m = Ok d -> forall x, 0 <= d x).
    { induction m as [|m IH]; intros d H x; cbn [dens_loop] in H; [injection H as <-; lra|]. destruct (dens_loop g s m) as [a|]; [|discriminate]. cbn [bind] in H.
      destruct (phi_col s (Z.of_nat m)) as [p|] eqn:E; [|discriminate]. cbn [bind] in H. injection H as <-. pose proof (IH a eq_refl x). pose proof (TN p 1 x ltac:(lra) (PN _ _ E)) as T. rewrite Rmult_1_l in T. lra. }
    intros d H x. pose proof nu_nonneg as NU. unfold calc_density in H. destruct (nocc s) as [No nu]. cbn [snd] in NU. destruct (dens_loop g s (Z.to_nat No)) as [a|] eqn:E; [|discriminate]. cbn [bind] in H. pose proof (L _ _ E x) as A.
    destruct (s_frac s && nonzero nu).
    - destruct (phi_col s No) as [p|] eqn:P; [|discriminate]. cbn [bind] in H. injection H as <-. apply SN. pose proof (TN p nu x NU (PN _ _ P)). cbv beta. lra.
    - cbn [bind] in H. injection H as <-. apply SN, A.
  Qed.
  Variable B : R.
  Hypotheses (Hg : grid_ok g) (W : forall k, (k < Nelem g)%nat -> 0 < gwi g k) (VB : forall x, (x < Nelem g)%nat -> s_veff s x <= B).
  Lemma pot_upper : forall d, calc_density g s = Ok d -> pot_of g s <= B * integrate1 g d.
  Proof.
    intros d D. unfold pot_of, dens. rewrite D, <- integrate1_scal. apply int_mono; [exact Hg|exact W|]. intros x Hx. pose proof (VB x Hx). pose proof (dens_above d D x). nra.
  Qed.
End Solver.

Lemma answer_refl : forall r, raised_answer 0 r r.
Proof. intros [[n e] [[m p]|]]; (split; [reflexivity|]; split; [intros; cbn [snd fst]; ring|]); cbn [snd]; auto. split; [reflexivity|]. intros i _. exists 1. split; [lra|]. intros; ring. Qed.
Lemma density_electrons : forall g s r, (forall m p, snd r = Some (m, p) -> forall i, (i < m)%nat -> norm2 g (p i) <> 0) -> forall d, calc_density g (set_result s r) = Ok d -> integrate1 g d = carried (set_result s r).
Proof. intros g s r. exact (carried_integral g 0 s r r (answer_refl r)). Qed.

(** * After a pass *)
Section Pass.
  Variables (g : grid) (w : env) (o : scfopt) (l : list (nat * nat)) (a st : scst).
  Hypotheses (T3 : three_point g) (NW : normed_workers g w) (BD : scf_body g w o l a = Ok st) (LX : levels_exact g (c_ks st)).
  Lemma level_above : forall i j m e b, place (c_ks st) i j -> pot_above g (c_ks st) j b -> eig_at (k_sol (c_ks st) i j) m = Ok e -> b <= e.
  Proof.
    intros i j m e b Hp HB E. destruct (LX i j m e Hp E) as (p & P & EP). apply (levels_above_potential g T3 _ _ _ p b P EP). intros x Hx. apply HB; [apply Hp|exact Hx].
  Qed.
  (** Stored results. *)
  Lemma pass_results : exists E u, k_E (c_ks st) = Some E /\ k_u (c_ks st) = Some u /\ E_Ts E = Fin (kinetic g (c_ks st)) /\
    (forall j, (j < k_cols (c_ks st))%nat -> E_Eks E j = sumR (k_lv (c_ks st)) (fun i => eks_of (k_sol (c_ks st) i j))) /\
    (exists i j, place (c_ks st) i j /\ get_homo (k_sol (c_ks st) i j) = Ok u) /\
    forall i j, place (c_ks st) i j -> exists s r e d, k_sol (c_ks st) i j = set_result s r /\ (forall m p, snd r = Some (m, p) -> forall i, (i < m)%nat -> norm2 g (p i) <> 0) /\ calc_eks (k_sol (c_ks st) i j) = Ok e /\ calc_density g (k_sol (c_ks st) i j) = Ok d.
  Proof.
    clear LX. pose proof BD as B. apply KSLoop.body_inv in B. destruct B as (_ & k1 & ve & vh & sol & k3 & nout & n1 & k4 & k5 & E & r & A1 & A2 & A3 & A4 & A5 & A6 & A7 & A8 & A9 & A10 & ->). cbn [c_ks].
    apply density_inv in A5. destruct A5 as (s3 & m3 & -> & W & _). pose proof (energy_solved _ _ _ _ A7) as OK. pose proof (energy_inv _ _ _ _ A7) as (E' & nn & ve' & X1 & _ & _ & _ & X2 & X3 & _).
    apply energy_keep in A7. destruct A7 as (Ea & Va & ->). cbn [set_EV k_E] in X1. injection X1 as <-. apply chempot_spec in A8. destruct A8 as (u & -> & U & _).
    exists Ea, u. split; [reflexivity|]. split; [reflexivity|]. split; [exact X2|]. split; [exact X3|]. split; [exact U|].
    intros i j Hp. destruct (OK i j Hp) as (e & d & O1 & O2). destruct (W i j Hp) as (rr & R1 & R2). exists (sol i j), rr, e, d. split; [exact R2|]. split; [exact (fun m p => NW _ _ rr m p R1)|]. auto.
  Qed.
  Theorem sum_above : forall E j b, k_E (c_ks st) = Some E -> (j < k_cols (c_ks st))%nat -> pot_above g (c_ks st) j b -> b * held g (c_ks st) j <= E_Eks E j.
  Proof.
    intros E j b HE Hj HB. destruct pass_results as (E' & u & X1 & _ & _ & X2 & _ & X3). assert (E' = E) by congruence. subst E'. rewrite (X2 j Hj). unfold held. rewrite <- sumR_scal. apply sumR_le. intros i Hi.
    destruct (X3 i j (conj Hi Hj)) as (s & r & e & d & Q1 & Q2 & Q3 & Q4). unfold eks_of, dens. rewrite Q3, Q4. pose proof Q4 as D. rewrite Q1 in D. rewrite (density_electrons g s r Q2 d D), <- Q1.
    apply eks_above; [|exact Q3]. intros m x. apply (level_above i j m x b (conj Hi Hj) HB).
  Qed.
  Theorem chempot_above : forall u b, k_u (c_ks st) = Some u -> (forall j, (j < k_cols (c_ks st))%nat -> pot_above g (c_ks st) j b) -> b <= u \/ u = - 1 / feps.
  Proof.
    intros u b HU HB. destruct pass_results as (E & u' & _ & X1 & _ & _ & (i & j & Hp & X2) & _). assert (u' = u) by congruence. subst u'. apply (homo_above (k_sol (c_ks st) i j) b); [|exact X2].
    intros m x. apply (level_above i j m x b Hp (HB j (proj2 Hp))).
  Qed.
  Hypothesis W : forall k, (k < Nelem g)%nat -> 0 < gwi g k.
  Theorem kinetic_above : forall E b B, k_E (c_ks st) = Some E -> (forall j, (j < k_cols (c_ks st))%nat -> pot_above g (c_ks st) j (b j) /\ pot_below g (c_ks st) j (B j)) ->
    exists T, E_Ts E = Fin T /\ - sumR (k_cols (c_ks st)) (fun j => (B j - b j) * held g (c_ks st) j) <= T.
  Proof.
    intros E b B HE HB. destruct pass_results as (E' & u & X1 & _ & X2 & _ & _ & X3). assert (E' = E) by congruence. subst E'. exists (kinetic g (c_ks st)). split; [exact X2|].
    assert (Q : forall i j, place (c_ks st) i j -> (b j - B j) * integrate1 g (dens g (k_sol (c_ks st) i j)) <= eks_of (k_sol (c_ks st) i j) - pot_of g (k_sol (c_ks st) i j)).
    { intros i j Hp. destruct (X3 i j Hp) as (s & r & e & d & Q1 & Q2 & Q3 & Q4). destruct (HB j (proj2 Hp)) as (HL & HU).
      assert (PN : forall z p, phi_col (k_sol (c_ks st) i j) z = Ok p -> 0 < norm2 g p).
      { intros z p H. rewrite Q1 in H. destruct r as [[ce ee] ph]. unfold phi_col in H. cbn [set_result s_phi snd] in *. destruct ph as [[m q]|]; [|discriminate]. destruct (pyidx m z) as [y|] eqn:Y; [|discriminate]. apply pyidx_lt in Y. injection H as <-.
        pose proof (Q2 m q eq_refl y Y). assert (0 <= norm2 g (q y)) by (unfold norm2; apply int_nonneg; [apply T3|exact W|intros; apply pow2_ge_0]). lra. }
      pose proof (pot_upper g (k_sol (c_ks st) i j) PN (B j) (proj1 T3) W (fun x Hx => HU i x (proj1 Hp) Hx) d Q4) as P1.
      pose proof (eks_above (k_sol (c_ks st) i j) (b j) (fun m x => level_above i j m x (b j) Hp HL) e Q3) as P2.
      pose proof Q4 as D. rewrite Q1 in D. apply (density_electrons g s r Q2) in D. rewrite <- Q1 in D. unfold eks_of, dens. rewrite Q3, Q4. rewrite D in *. lra. }
    unfold kinetic. rewrite sumR_swap. unfold held. replace (- sumR (k_cols (c_ks st)) (fun j => (B j - b j) * sumR (k_lv (c_ks st)) (fun i => integrate1 g (dens g (k_sol (c_ks st) i j)))))
      with (sumR (k_cols (c_ks st)) (fun j => (b j - B j) * sumR (k_lv (c_ks st)) (fun i => integrate1 g (dens g (k_sol (c_ks st) i j))))).
    - apply sumR_le. intros j Hj. rewrite <- sumR_scal. apply sumR_le. intros i Hi. apply Q. split; auto.
    - transitivity (-1 * sumR (k_cols (c_ks st)) (fun j => (B j - b j) * sumR (k_lv (c_ks st)) (fun i => integrate1 g (dens g (k_sol (c_ks st) i j))))); [|ring]. rewrite <- sumR_scal. apply sumR_ext. intros. ring.
  Qed.
End Pass.
