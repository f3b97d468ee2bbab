(** Uniform scaling of orbitals, densities, energies, the Hartree potential and exchange functionals. *)
From Coq Require Import Reals List Arith Lia Lra ZArith Bool String.
From Verif Require Import Base BaseLemmas GridModel GridSpec HartreeModel HartreeSpec HartreeProofs HartreeThms SolverModel
  LibxcModel Scaling.
Import ListNotations.
Local Open Scope R_scope.

(** Two results correspond: both succeed with related values, or both fail with the same error. *)
Definition carried {A B : Type} (r : A -> B -> Prop) (x : res A) (y : res B) : Prop :=
  match x, y with
  | Ok a, Ok b => r a b
  | Err e, Err e' => e = e'
  | _, _ => False
  end.

(** The same orbitals, with potential and eigenvalues divided by lam^2. *)
Definition lowered (lam : R) (s : solver) : solver :=
  mkSolver (s_m s) (s_pol s) (s_N s) (s_Nmo s) (s_frac s) (s_sym s) (fun k => s_veff s k / lam ^ 2) (s_phi s)
    (match s_eig s with None => None | Some (c, e) => Some (c, fun i => e i / lam ^ 2) end).

Lemma carried_bind {A B C D : Type} (r : A -> C -> Prop) (q : B -> D -> Prop) x y f h :
  carried r x y -> (forall a c, r a c -> carried q (f a) (h c)) -> carried q (bind x f) (bind y h).
Proof. unfold carried. destruct x, y; cbn; intros H K; try contradiction; auto. apply K; auto. Qed.

Section Thms.
Variables (lam : R) (g : grid).
Hypothesis Hl : 0 < lam.
Let g' := stretch lam g.

Lemma l3 : lam ^ 3 <> 0.
Proof. apply pow_nonzero. lra. Qed.

Lemma sc_norm2 (p : vec) : norm2 g' p = lam ^ 3 * norm2 g p.
Proof. apply sc_integrate. Qed.

(** the Schroedinger equation H p = e w p *)
Lemma sc_gapply_ham (m : Z) (v p : vec) (k : nat) :
  sumR (Nelem g') (fun j => (hamiltonian g' m k j + diagflat (fun x => gw g' x * (v x / lam ^ 2)) k j) * p j) =
  lam * sumR (Nelem g) (fun j => (hamiltonian g m k j + diagflat (fun x => gw g x * v x) k j) * p j).
Proof.
  rewrite <- sumR_scal. change (Nelem g') with (Nelem g). apply sumR_ext. intros j _.
  unfold g'. rewrite sc_ham by auto. unfold diagflat. destruct (k =? j)%nat; [|ring]. rewrite sc_w by auto. field. lra.
Qed.

Lemma sc_eigen (m : Z) (v p : vec) (e : R) (k : nat) :
  sumR (Nelem g') (fun j => (hamiltonian g' m k j + diagflat (fun x => gw g' x * (v x / lam ^ 2)) k j) * p j)
    = e / lam ^ 2 * gw g' k * p k <->
  sumR (Nelem g) (fun j => (hamiltonian g m k j + diagflat (fun x => gw g x * v x) k j) * p j) = e * gw g k * p k.
Proof.
  rewrite sc_gapply_ham. unfold g'. rewrite sc_w.
  replace (e / lam ^ 2 * (lam ^ 3 * gw g k) * p k) with (lam * (e * gw g k * p k)) by (field; lra).
  split; intro H; [|congruence]. apply Rmult_eq_reg_l with lam; [exact H|lra].
Qed.

Definition thinned (a b : vec) : Prop := forall k, b k = a k / lam ^ 3.

Lemma sc_dens_loop (s : solver) (k : nat) : carried thinned (dens_loop g s k) (dens_loop g' (lowered lam s) k).
Proof.
  induction k; cbn [dens_loop].
  - intro x. unfold Rdiv. ring.
  - apply (carried_bind thinned); [exact IHk|]. intros a c H.
    change (phi_col (lowered lam s)) with (phi_col s). destruct (phi_col s (Z.of_nat k)); cbn; [|reflexivity].
    intro x. rewrite (H x), sc_norm2. unfold Rdiv. rewrite Rinv_mult. ring.
Qed.

Lemma sc_density (s : solver) : carried thinned (calc_density g s) (calc_density g' (lowered lam s)).
Proof.
  unfold calc_density. change (nocc (lowered lam s)) with (nocc s). destruct (nocc s) as [No nu].
  apply (carried_bind thinned); [apply sc_dens_loop|]. intros a c H.
  apply (carried_bind thinned).
  - change (s_frac (lowered lam s)) with (s_frac s). destruct (s_frac s && nonzero nu)%bool; [|exact H].
    change (phi_col (lowered lam s)) with (phi_col s). destruct (phi_col s No); cbn; [|reflexivity].
    intro x. rewrite (H x), sc_norm2. unfold Rdiv. rewrite Rinv_mult. ring.
  - intros b d K x. rewrite (K x). change (shell_scale (lowered lam s)) with (shell_scale s). unfold shell_scale.
    destruct (s_m s =? 0)%Z, (s_pol s =? 1)%nat; unfold Rdiv; ring.
Qed.

Definition reduced (a b : R) : Prop := b = a / lam ^ 2.

Lemma sc_eig_at (s : solver) (i : Z) : carried reduced (eig_at s i) (eig_at (lowered lam s) i).
Proof.
  unfold eig_at, lowered; cbn [s_eig]. destruct (s_eig s) as [[c e]|]; [|reflexivity].
  destruct (pyidx c i); cbn; reflexivity.
Qed.

Lemma sc_eks (s : solver) : carried reduced (calc_eks s) (calc_eks (lowered lam s)).
Proof.
  unfold calc_eks. change (nocc (lowered lam s)) with (nocc s). destruct (nocc s) as [No nu].
  assert (L : forall k, carried reduced (eks_loop s k) (eks_loop (lowered lam s) k)).
  { induction k; cbn [eks_loop]. { unfold carried, reduced, Rdiv. ring. }
    apply (carried_bind reduced); [exact IHk|]. intros a c H.
    apply (carried_bind reduced); [apply sc_eig_at|]. intros b d K. unfold carried, reduced in *. rewrite H, K. unfold Rdiv. ring. }
  apply (carried_bind reduced); [apply L|]. intros a c H. apply (carried_bind reduced).
  - change (s_frac (lowered lam s)) with (s_frac s). destruct (s_frac s && nonzero nu)%bool; [|exact H].
    apply (carried_bind reduced); [apply sc_eig_at|]. intros b d K. unfold carried, reduced in *. rewrite H, K. unfold Rdiv. ring.
  - intros b d K. unfold carried, reduced in *. rewrite K. change (shell_scale (lowered lam s)) with (shell_scale s).
    unfold shell_scale. destruct (s_m s =? 0)%Z, (s_pol s =? 1)%nat; unfold Rdiv; ring.
Qed.

Lemma sc_homo (s : solver) : (0 < fst (nocc s))%Z -> carried reduced (get_homo s) (get_homo (lowered lam s)).
Proof.
  intro H. unfold get_homo. change (nocc (lowered lam s)) with (nocc s). destruct (nocc s) as [No nu]. cbn in H.
  set (N' := if nonzero nu then (No + 1)%Z else No).
  assert (E : (N' =? 0)%Z = false) by (apply Z.eqb_neq; unfold N'; destruct (nonzero nu); lia).
  rewrite E. apply sc_eig_at.
Qed.

(** sum of eigenvalues, potential energy before it is discarded, kinetic energy, density *)
Lemma sc_energy (s : solver) : carried
  (fun x y => let '(eks, Vs, Ts, n) := x in let '(eks', Vs', Ts', n') := y in
     eks' = eks / lam ^ 2 /\ thinned n n' /\
     exists t, Ts = Fin t /\ Ts' = Fin (t / lam ^ 2) /\
     exists v, v = integrate1 g (fun k => s_veff s k * n k) /\
       (Rabs v <= 10 ^ 5 -> Vs = Fin v) /\ (Rabs v / lam ^ 2 <= 10 ^ 5 -> Vs' = Fin (v / lam ^ 2)))
  (calc_energy g s) (calc_energy g' (lowered lam s)).
Proof.
  unfold calc_energy. eapply carried_bind; [apply sc_eks|]. intros e e' He.
  eapply carried_bind; [apply sc_density|]. intros n n' Hn.
  assert (V : integrate1 g' (fun k => s_veff (lowered lam s) k * n' k)
              = integrate1 g (fun k => s_veff s k * n k) / lam ^ 2).
  { unfold g'. rewrite sc_integrate. fold g'. unfold Rdiv. rewrite (Rmult_comm _ (/ lam ^ 2)).
    unfold integrate1.
    rewrite (sumR_ext _ _ (fun k => / lam ^ 5 * (gwi g k * gw g k * (s_veff s k * n k)))).
    - rewrite sumR_scal. field. lra.
    - intros k _. rewrite (Hn k). cbn [lowered s_veff]. field. lra. }
  rewrite V. set (v := integrate1 g (fun k => s_veff s k * n k)).
  assert (P : 0 < lam ^ 2) by (apply pow_lt; lra).
  assert (AV : Rabs (v / lam ^ 2) = Rabs v / lam ^ 2).
  { unfold Rdiv. rewrite Rabs_mult. f_equal. apply Rabs_right. left. apply Rinv_0_lt_compat. exact P. }
  unfold energy_tail, rsub. rewrite AV.
  unfold reduced in He.
  destruct (Rlt_dec (10 ^ 5) (Rabs v)), (Rlt_dec (10 ^ 5) (Rabs v / lam ^ 2)); unfold carried; cbv beta iota zeta;
    (split; [exact He|]; split; [exact Hn|]; exists (e - v); split; [reflexivity|]; split;
      [rewrite He; f_equal; field; lra|]; exists v; split; [reflexivity|]; split; intro; try lra; reflexivity).
Qed.

(** kinetic energy density *)
Lemma sc_ked_term (m : Z) (p : vec) (nr : R) (k : nat) :
  ked_term g' (hamiltonian g' m) p (lam ^ 3 * nr) k = ked_term g (hamiltonian g m) p nr k / lam ^ 5.
Proof.
  unfold ked_term, gapply, matvec. change (Nelem g') with (Nelem g).
  rewrite (sumR_ext _ _ (fun j => (lam / sqrt (lam ^ 3)) * (hamiltonian g m k j * (p j / sqrt nr)))).
  2:{ intros j _. unfold g'. rewrite sc_ham by auto. rewrite sqrt_mult_alt by (apply pow_le; lra).
      unfold Rdiv. rewrite Rinv_mult. ring. }
  rewrite sumR_scal. unfold g'. rewrite sc_w. rewrite sqrt_mult_alt by (apply pow_le; lra).
  assert (S3 : sqrt (lam ^ 3) * sqrt (lam ^ 3) = lam ^ 3) by (apply sqrt_sqrt; apply pow_le; lra).
  assert (P3 : sqrt (lam ^ 3) <> 0) by (apply Rgt_not_eq, sqrt_lt_R0, pow_lt; lra).
  set (q := sqrt (lam ^ 3)) in *.
  unfold Rdiv. rewrite !Rinv_mult.
  set (S := sumR _ _).
  replace (/ lam ^ 5) with (lam * / (q * q) * / lam ^ 3) by (rewrite S3; field; lra).
  rewrite Rinv_mult. ring.
Qed.

Definition thinned5 (a b : vec) : Prop := forall k, b k = a k / lam ^ 5.
Lemma sc_ked (s : solver) : carried thinned5 (calc_ked_WFI g (hamiltonian g (s_m s)) s)
  (calc_ked_WFI g' (hamiltonian g' (s_m (lowered lam s))) (lowered lam s)).
Proof.
  unfold calc_ked_WFI. change (nocc (lowered lam s)) with (nocc s). destruct (nocc s) as [No nu].
  change (s_m (lowered lam s)) with (s_m s).
  assert (L : forall k, carried thinned5 (ked_loop g (hamiltonian g (s_m s)) s k) (ked_loop g' (hamiltonian g' (s_m s)) (lowered lam s) k)).
  { induction k; cbn [ked_loop]. { intro x. unfold Rdiv. ring. }
    apply (carried_bind thinned5); [exact IHk|]. intros a c H.
    change (phi_col (lowered lam s)) with (phi_col s). destruct (phi_col s (Z.of_nat k)); cbn [bind carried]; [|reflexivity].
    intro x. rewrite (H x), sc_norm2, sc_ked_term. unfold Rdiv. ring. }
  apply (carried_bind thinned5); [apply L|]. intros a c H. apply (carried_bind thinned5).
  - change (s_frac (lowered lam s)) with (s_frac s). destruct (s_frac s && nonzero nu)%bool; [|exact H].
    destruct (No <=? 0)%Z; [reflexivity|]. change (phi_col (lowered lam s)) with (phi_col s).
    destruct (phi_col s (No - 1)); cbn [bind carried]; [|reflexivity]. destruct (phi_col s (No + 1)); cbn [bind carried]; [|reflexivity].
    intro x. rewrite (H x), sc_norm2, sc_ked_term. unfold Rdiv. ring.
  - intros b d K x. rewrite (K x). change (shell_scale (lowered lam s)) with (shell_scale s). unfold shell_scale.
    destruct (s_m s =? 0)%Z, (s_pol s =? 1)%nat; unfold Rdiv; ring.
Qed.

(** Hartree: the multipole boundary values and the right-hand side *)
Section Hartree.
Hypothesis Ha : 0 < ga g.

Lemma sc_ratio (k : nat) : ht_Z g' k / ht_rho g' k = ht_Z g k / ht_rho g k.
Proof.
  unfold ht_Z, ht_rho. change (ga g') with (lam * ga g). change (Xr g') with (Xr g). change (Xa g') with (Xa g).
  unfold Rdiv. rewrite !Rinv_mult. set (y := / sqrt _). field. lra.
Qed.
Lemma sc_bratio (k : nat) : ht_bZ g' k / ht_brho g' k = ht_bZ g k / ht_brho g k.
Proof.
  unfold ht_bZ, ht_brho. change (ga g') with (lam * ga g). change (bXr g') with (bXr g). change (bXa g') with (bXa g).
  unfold Rdiv. rewrite !Rinv_mult. set (y := / sqrt _). field. lra.
Qed.
Lemma sc_rho (k : nat) : ht_rho g' k = lam * ht_rho g k.
Proof. unfold ht_rho. change (ga g') with (lam * ga g). change (Xr g') with (Xr g). change (Xa g') with (Xa g). ring. Qed.
Lemma sc_brho (k : nat) : ht_brho g' k = lam * ht_brho g k.
Proof. unfold ht_brho. change (ga g') with (lam * ga g). change (bXr g') with (bXr g). change (bXa g') with (bXa g). ring. Qed.

Lemma sc_Q (n : vec) (l : nat) : ht_Q g' (fun k => n k / lam ^ 3) l = lam ^ l * ht_Q g n l.
Proof.
  unfold ht_Q. unfold g' at 1. rewrite sc_integrate. unfold integrate1.
  rewrite (sumR_ext _ _ (fun i => (lam ^ l / lam ^ 3) *
    (gwi g i * gw g i * (ht_rho g i ^ l * legendre l (ht_Z g i / ht_rho g i) * n i)))).
  - rewrite sumR_scal. field. lra.
  - intros i _. rewrite sc_ratio, sc_rho, Rpow_mult_distr. field. lra.
Qed.

Lemma sc_bVh (n : vec) (l j : nat) : ht_bVh g' (fun k => n k / lam ^ 3) l j = ht_bVh g n l j / lam.
Proof.
  induction l.
  - cbn [ht_bVh]. rewrite !ht_Q0_Q, sc_Q, sc_bratio, sc_brho. unfold Rdiv. rewrite !Rinv_mult. cbn [pow]. ring.
  - cbn [ht_bVh]. rewrite IHl, sc_Q, sc_bratio, sc_brho, Rpow_mult_distr.
    replace (S l + 1)%nat with (S (S l)) by lia. rewrite <- (tech_pow_Rmult lam (S l)).
    unfold Rdiv. rewrite !Rinv_mult.
    assert (lam ^ S l <> 0) by (apply pow_nonzero; lra).
    rewrite Rmult_plus_distr_r. f_equal.
    transitivity ((lam ^ S l * / lam ^ S l) * ht_Q g n (S l) * (1 * / ht_brho g j ^ S (S l)) *
       legendre (S l) (ht_bZ g j * / ht_brho g j) * / lam); [ring|]. rewrite Rinv_r by assumption. ring.
Qed.

Lemma sc_rhs (n : vec) (k : nat) : ht_rhs g' (fun k => n k / lam ^ 3) k = ht_rhs g n k.
Proof.
  unfold ht_rhs. change (Na g') with (Na g). change (Nr g') with (Nr g). change (bcN g') with (bcN g).
  assert (B : - 4 * PI * gw g' k * (n k / lam ^ 3) = - 4 * PI * gw g k * n k).
  { unfold g'. rewrite sc_w. field. lra. }
  rewrite B. destruct (_ <=? _)%nat; [|reflexivity]. f_equal. unfold matvec. apply sumR_ext. intros j _.
  rewrite sc_bVh. unfold g'. rewrite sc_blap. field. lra.
Qed.
End Hartree.
End Thms.

(** The Hartree potential. *)
Lemma sc_hartree (lam : R) (g : grid) spL spU L U spL' spU' L' U' cols (n : nat -> nat -> R) v :
  0 < lam -> 0 < ga g ->
  solver_for (Nelem g) L spL -> solver_for (Nelem g) U spU ->
  solver_for (Nelem g) L' spL' -> solver_for (Nelem g) U' spU' ->
  (forall i j, (i < Nelem g)%nat -> (j < Nelem g)%nat -> matmul (Nelem g) L U i j = elap g i j) ->
  (forall i j, (i < Nelem g)%nat -> (j < Nelem g)%nat -> matmul (Nelem g) L' U' i j = elap (stretch lam g) i j) ->
  nonsing (Nelem g) (elap g) ->
  v_hartree g spL spU (A2 cols n) = Ok v ->
  exists v', v_hartree (stretch lam g) spL' spU' (A2 cols (fun k s => n k s / lam ^ 3)) = Ok v' /\ shape v' = shape v /\
  forall k s, (k < Nelem g)%nat -> entry v' k s = entry v k s / lam.
Proof.
  intros Hl A HL HU HL' HU' E E' Hn Ev.
  unfold v_hartree in Ev |- *. change (bcN (stretch lam g)) with (bcN g). change (Nr (stretch lam g)) with (Nr g).
  destruct ((bcN g =? 0)%nat || (Nr g <? bcN g)%nat)%bool; [discriminate|]. destruct (cols =? 0)%nat; [discriminate|].
  injection Ev as <-. eexists. split; [reflexivity|]. split; [reflexivity|]. intros k s Hk. cbn [entry].
  set (x := spU (spL (ht_rhs g (sum_cols cols n)))).
  set (y := spU' (spL' (ht_rhs (stretch lam g) (sum_cols cols (fun k s => n k s / lam ^ 3))))).
  assert (X : solves (Nelem g) (elap g) (ht_rhs g (sum_cols cols n)) x).
  { intros i Hi. pose proof (solver_two (Nelem g) L U spL spU (ht_rhs g (sum_cols cols n)) HL HU) as T.
    rewrite <- (T i Hi). fold x. apply sumR_ext. intros j Hj. rewrite E by auto. reflexivity. }
  assert (Y : solves (Nelem g) (elap g) (ht_rhs g (sum_cols cols n)) (fun j => lam * y j)).
  { intros i Hi.
    pose proof (solver_two (Nelem g) L' U' spL' spU' (ht_rhs (stretch lam g) (sum_cols cols (fun k s => n k s / lam ^ 3))) HL' HU') as T.
    specialize (T i Hi). fold y in T.
    transitivity (ht_rhs (stretch lam g) (sum_cols cols (fun k s => n k s / lam ^ 3)) i).
    - rewrite <- T. apply sumR_ext. intros j Hj. rewrite E' by auto. rewrite sc_elap by auto. ring.
    - rewrite <- (sc_rhs lam g Hl A). change (Nelem g) with (Nelem (stretch lam g)) in Hi.
      apply ht_rhs_ext; [exact Hi|]. intros q Hq. unfold sum_cols, Rdiv. apply sumR_scal_r. }
  pose proof (solver_unique _ _ _ _ _ Hn X Y k Hk) as Q. cbv beta in Q.
  assert (Q' : y k = x k / lam) by (rewrite Q; field; lra).
  destruct (s =? 0)%nat; [exact Q'|]. destruct (_ && _)%bool; [exact Q'|unfold Rdiv; ring].
Qed.

(** * Exchange functionals *)
(** A functional whose energy density per particle is homogeneous of degree one in inverse length. *)
Definition exchange_like (lam : R) (F : mat -> option mat -> xcout) : Prop := forall n n' sg sg',
  (forall k s, n' k s = n k s / lam ^ 3) ->
  match sg, sg' with None, None => True | Some a, Some b => forall k j, b k j = a k j / lam ^ 8 | _, _ => False end ->
  (forall k, xc_zk (F n' sg') k = xc_zk (F n sg) k / lam) /\ (forall k s, xc_vrho (F n' sg') k s = xc_vrho (F n sg) k s / lam) /\
  (forall k s, xc_vsigma (F n' sg') k s = xc_vsigma (F n sg) k s * lam ^ 4).

Section Xc.
Variables (lam : R) (g : grid).
Hypothesis Hl : 0 < lam.
Let g' := stretch lam g.

Lemma sc_apply (M M' : mat) (c d : R) (f f' : vec) (k : nat) : (forall i j, M' i j = c * M i j) -> (forall j, f' j = d * f j) ->
  gapply g' M' f' k = c * d * gapply g M f k.
Proof.
  intros HM Hf. unfold gapply, matvec. change (Nelem g') with (Nelem g). rewrite <- sumR_scal. apply sumR_ext. intros j _.
  rewrite HM, Hf. ring.
Qed.

Lemma sc_grada_at (f f' : vec) d k : (forall j, f' j = d * f j) -> gapply g' (grada g') f' k = / lam * d * gapply g (grada g) f k.
Proof. intro H. apply sc_apply; [intros; apply sc_grada|exact H]. Qed.
Lemma sc_gradr_at (f f' : vec) d k : (forall j, f' j = d * f j) -> gapply g' (gradr g') f' k = / lam * d * gapply g (gradr g) f k.
Proof. intro H. apply sc_apply; [intros; apply sc_gradr|exact H]. Qed.

Lemma sc_cross (M M' : mat) (u u' v v' : vec) : (forall i j, M' i j = / lam * M i j) -> (forall j, u' j = / lam ^ 3 * u j) -> (forall j, v' j = / lam ^ 3 * v j) ->
  gdot g' (rowtimes g' (gapply g' M' u') M') v' = / lam ^ 8 * gdot g (rowtimes g (gapply g M u) M) v.
Proof.
  intros HM Hu Hv. unfold gdot, rowtimes. change (Nelem g') with (Nelem g). rewrite <- sumR_scal. apply sumR_ext. intros j _.
  rewrite (sumR_ext _ _ (fun i => / lam ^ 5 * (gapply g M u i * M i j))).
  - rewrite sumR_scal, Hv. field. lra.
  - intros i _. rewrite (sc_apply M M' (/ lam) (/ lam ^ 3) u u' i HM Hu), HM. field. lra.
Qed.

Lemma sc_sigma (pol : nat) (n n' : mat) : (forall k s, n' k s = n k s / lam ^ 3) ->
  carried (fun a b => fst b = fst a /\ forall k j, snd b k j = snd a k j / lam ^ 8) (sigma g pol n) (sigma g' pol n').
Proof.
  intro H. assert (C : forall s k, n' k s = / lam ^ 3 * n k s) by (intros; rewrite H; unfold Rdiv; ring).
  assert (Q : forall s k, gapply g' (grada g') (fun k => n' k s) k ^ 2 + gapply g' (gradr g') (fun k => n' k s) k ^ 2
     = (gapply g (grada g) (fun k => n k s) k ^ 2 + gapply g (gradr g) (fun k => n k s) k ^ 2) / lam ^ 8).
  { intros s k. rewrite (sc_grada_at (fun k => n k s) _ (/ lam ^ 3)), (sc_gradr_at (fun k => n k s) _ (/ lam ^ 3)) by (intros; apply C). field. lra. }
  unfold sigma. destruct (pol =? 1)%nat; [split; [reflexivity|]; intros k j; apply Q|].
  destruct (pol =? 2)%nat; [|reflexivity]. split; [reflexivity|]. intros k j. cbn [snd].
  destruct (j =? 2)%nat; [apply Q|]. destruct (j =? 0)%nat; [apply Q|].
  rewrite (sc_cross (grada g) (grada g') (fun k => n k 0%nat) _ (fun k => n k 1%nat)) by (intros; apply C || apply sc_grada).
  rewrite (sc_cross (gradr g) (gradr g') (fun k => n k 0%nat) _ (fun k => n k 1%nat)) by (intros; apply C || apply sc_gradr).
  unfold Rdiv. ring.
Qed.

Lemma sc_dsg (s s' f f' : vec) (k : nat) : (forall j, s' j = lam ^ 4 * s j) -> (forall j, f' j = / lam ^ 3 * f j) ->
  div_s_grad g' s' f' k = div_s_grad g s f k / lam.
Proof.
  intros Hs Hf. unfold div_s_grad.
  rewrite (sc_apply (diva g) (diva g') (/ lam) 1 (fun j => s j * gapply g (grada g) f j)).
  rewrite (sc_apply (divr g) (divr g') (/ lam) 1 (fun j => s j * gapply g (gradr g) f j)).
  - unfold Rdiv. ring.
  - intros. apply sc_divr. exact Hl.
  - intros j. rewrite Hs, (sc_gradr_at f f' (/ lam ^ 3)) by exact Hf. field. lra.
  - intros. apply sc_diva. exact Hl.
  - intros j. rewrite Hs, (sc_grada_at f f' (/ lam ^ 3)) by exact Hf. field. lra.
Qed.

Lemma sc_xc (lib : libfun) (fam : string) (id pol : nat) (n : mat) :
  (forall F, lib id pol = Ok F -> exchange_like lam F) ->
  carried (fun x y => fst (fst y) = fst (fst x) / lam /\ (forall k, snd (fst y) k = snd (fst x) k / lam) /\ forall k s, snd y k s = snd x k s / lam)
    (get_xc g lib fam id pol n) (get_xc g' lib fam id pol (fun k s => n k s / lam ^ 3)).
Proof.
  intro HF. unfold get_xc, get_xc_dictionary. set (n' := fun k s => n k s / lam ^ 3).
  destruct (lib id pol) as [F|] eqn:E; cbn [bind]; [|reflexivity]. specialize (HF F eq_refl).
  assert (C : forall s k, n' k s = / lam ^ 3 * n k s) by (intros; unfold n', Rdiv; ring).
  assert (EX : forall d d', (forall k, xc_zk d' k = xc_zk d k / lam) ->
     integrate1 g' (sum_cols pol (fun k s => xc_zk d' k * n' k s)) = integrate1 g (sum_cols pol (fun k s => xc_zk d k * n k s)) / lam).
  { intros d d' Z. unfold g'. rewrite sc_integrate. unfold integrate1.
    rewrite (sumR_ext _ _ (fun k => / lam ^ 4 * (gwi g k * gw g k * sum_cols pol (fun k s => xc_zk d k * n k s) k))).
    - rewrite sumR_scal. field. lra.
    - intros k _. unfold sum_cols. rewrite (sumR_ext pol _ (fun s => / lam ^ 4 * (xc_zk d k * n k s))); [rewrite sumR_scal; ring|].
      intros s _. rewrite Z, C. field. lra. }
  destruct (String.eqb fam "lda") eqn:L; cbn [bind].
  - assert (G : String.eqb fam "gga" = false) by (apply String.eqb_eq in L; subst fam; reflexivity). rewrite G.
    destruct (HF n n' None None (fun k s => eq_refl) Logic.I) as (A & B & _). cbn [carried fst snd]. auto.
  - destruct (String.eqb fam "gga") eqn:G; cbn [bind]; [|reflexivity].
    pose proof (sc_sigma pol n n' (fun k s => eq_refl)) as SG.
    destruct (sigma g pol n) as [[q sg]|], (sigma g' pol n') as [[q' sg']|]; cbn [bind]; try contradiction; [|exact SG].
    destruct SG as (_ & SG). cbn [snd] in *. destruct (HF n n' (Some sg) (Some sg') (fun k s => eq_refl) SG) as (A & B & V). cbn [carried fst snd].
    cbv beta zeta. split; [apply EX, A|]. split; [exact A|].
    assert (V' : forall k s, xc_vsigma (F n' (Some sg')) k s = lam ^ 4 * xc_vsigma (F n (Some sg)) k s) by (intros; rewrite V; ring).
    assert (D : forall a b k, div_s_grad g' (fun k => xc_vsigma (F n' (Some sg')) k a) (fun k => n k b / lam ^ 3) k = div_s_grad g (fun k => xc_vsigma (F n (Some sg)) k a) (fun k => n k b) k / lam).
    { intros a b k. apply sc_dsg; [intros; apply V'|intros; apply C]. }
    destruct (pol =? 1)%nat; intros k s; cbv beta iota; [rewrite B; rewrite (D 0%nat 0%nat k); unfold Rdiv; ring|].
    destruct (s =? 0)%nat; [rewrite B, !D; unfold Rdiv; ring|]. destruct (s =? 1)%nat; [rewrite B, !D; unfold Rdiv; ring|]. apply B.
Qed.
End Xc.
