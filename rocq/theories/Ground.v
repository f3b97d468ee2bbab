(** Lowest level of the discrete Schroedinger operator with three-point stencils. *)
From Coq Require Import Reals List Arith Lia Lra ZArith Bool Relations.
From Verif Require Import Base BaseLemmas GridModel Poly GridSpec GridProofs FDProofs OpProofs GridWitness GridMore SolverModel SolverSpec SolverResp
  MaxPrinciple NCSigns ZMatrix.
Import ListNotations.
Local Open Scope R_scope.
Local Opaque sinh cosh.

(** ** Neighbours with a sign picked up at the axis *)
Definition sgW (sg : R) (v : vec) (p : nat) : R := if (p =? 0)%nat then sg * v p else v (p - 1)%nat.
Definition sgE (n : nat) (sg : R) (v : vec) (p : nat) : R := if (p + 1 =? n)%nat then sg * v p else v (p + 1)%nat.
Lemma reflect_sgW : forall n sg v p, (p < n)%nat -> reflect n sg v (Z.of_nat p - 1) = sgW sg v p.
Proof.
  intros n sg v p H. unfold sgW. destruct (Nat.eqb_spec p 0) as [->|].
  - unfold reflect. destruct (Z.ltb_spec (Z.of_nat 0 - 1) 0); [|lia].
    replace (Z.to_nat (-1 - (Z.of_nat 0 - 1))) with 0%nat by lia. ring.
  - replace (Z.of_nat p - 1)%Z with (Z.of_nat (p - 1)) by lia. apply reflect_in. lia.
Qed.
Lemma reflect_sgE : forall n sg v p, (p < n)%nat -> reflect n sg v (Z.of_nat p + 1) = sgE n sg v p.
Proof.
  intros n sg v p H. unfold sgE. destruct (Nat.eqb_spec (p + 1) n) as [E|].
  - unfold reflect. destruct (Z.ltb_spec (Z.of_nat p + 1) 0); [lia|].
    destruct (Z.ltb_spec (Z.of_nat p + 1) (Z.of_nat n)); [lia|].
    replace (Z.to_nat (2 * Z.of_nat n - 1 - (Z.of_nat p + 1))) with p by lia. ring.
  - replace (Z.of_nat p + 1)%Z with (Z.of_nat (p + 1)) by lia. apply reflect_in. lia.
Qed.
Lemma inner_sgW : forall n sg v o p, (p < n)%nat -> reflect_inner n sg v o (Z.of_nat p - 1) = sgW sg v p.
Proof.
  intros n sg v o p H. unfold sgW. destruct (Nat.eqb_spec p 0) as [->|].
  - unfold reflect_inner. destruct (Z.ltb_spec (Z.of_nat 0 - 1) 0); [|lia].
    replace (Z.to_nat (-1 - (Z.of_nat 0 - 1))) with 0%nat by lia. ring.
  - replace (Z.of_nat p - 1)%Z with (Z.of_nat (p - 1)) by lia. apply reflect_inner_in. lia.
Qed.
Lemma inner_N : forall n sg v o p, (p < n)%nat -> reflect_inner n sg v o (Z.of_nat p + 1) = nbN n v (o 0%nat) p.
Proof.
  intros n sg v o p H. unfold nbN. destruct (Nat.eqb_spec (p + 1) n) as [E|].
  - unfold reflect_inner. destruct (Z.ltb_spec (Z.of_nat p + 1) 0); [lia|].
    destruct (Z.ltb_spec (Z.of_nat p + 1) (Z.of_nat n)); [lia|].
    replace (Z.to_nat (Z.of_nat p + 1 - Z.of_nat n)) with 0%nat by lia. reflexivity.
  - replace (Z.of_nat p + 1)%Z with (Z.of_nat (p + 1)) by lia. apply reflect_inner_in. lia.
Qed.
Lemma lap_form_sg : forall g sg x out ia ir, grid_ok g -> fd_ok g 1 -> is_point g ia ir ->
  let u := x (pos g ia ir) in
  lap_form g 1 sg x out ia ir
  = cE g ia ir * (sgE (Na g) sg (aline g x ir) ia - u) + cW g ia ir * (sgW sg (aline g x ir) ia - u)
  + cN g ia ir * (nbN (Nr g) (rline g x ia) (out ia 0%nat) ir - u) + cS g ia ir * (sgW sg (rline g x ia) ir - u).
Proof.
  intros g sg x out ia ir Hg H [Ha Hr] u. destruct (fd1_coef g H) as (E1 & E2 & E3 & E4 & E5 & E6).
  unfold lap_form. rewrite !stencil1, E1, E2, E3, E4, E5, E6.
  rewrite reflect_sgW, reflect_sgE, inner_sgW, inner_N, reflect_in, reflect_inner_in by auto.
  change (aline g x ir ia) with u. change (rline g x ia ir) with u.
  assert (INR (Na g) <> 0) by (apply not_0_INR; lia). assert (INR (Nr g) <> 0) by (apply not_0_INR; lia).
  pose proof PI_RGT_0. destruct Hg as (_ & _ & _ & _ & HL).
  unfold cE, cW, cN, cS. field. repeat split; auto; lra.
Qed.

(** ** Signs of the coefficients *)
Lemma angular_pos : forall th h, 0 < h -> 3 / 2 * h <= th -> th < PI -> 0 < sin th / h ^ 2 - cos th / (2 * h).
Proof.
  intros th h Hh H1 H2.
  assert (S : 0 < sin th) by (apply sin_gt_0; lra).
  assert (Q : h / 2 * cos th < sin th).
  { destruct (Rlt_dec th (PI / 2)) as [L|L].
    - pose proof (tan_ge th ltac:(lra)). assert (0 < cos th) by (apply cos_gt_0; lra). nra.
    - assert (cos th <= 0) by (apply cos_le_0; lra). nra. }
  replace (sin th / h ^ 2 - cos th / (2 * h)) with ((sin th - h / 2 * cos th) * / h ^ 2) by (field; lra).
  apply Rmult_lt_0_compat; [lra|]. apply Rinv_0_lt_compat. apply pow_lt. auto.
Qed.
Lemma angular_pos' : forall th h, 0 < h -> 0 < th -> th <= PI - 3 / 2 * h -> 0 < sin th / h ^ 2 + cos th / (2 * h).
Proof.
  intros th h Hh H1 H2. pose proof (angular_pos (PI - th) h Hh ltac:(lra) ltac:(lra)) as P.
  rewrite Rtrigo_facts.cos_pi_minus, Rtrigo_facts.sin_pi_minus in P.
  replace (sin th / h ^ 2 + cos th / (2 * h)) with (sin th / h ^ 2 - - cos th / (2 * h)); auto. field. lra.
Qed.
Lemma radial_pos : forall m h, 0 < h -> h <= 1 -> 3 / 2 * h <= m -> 0 < sinh m / h ^ 2 - cosh m / (2 * h).
Proof.
  intros m h Hh H1 Hm.
  assert (Q : h / 2 * cosh m < sinh m).
  { assert (E : 1 + 2 * m < exp (2 * m)) by (apply exp_ineq1; lra).
    assert (E' : exp (2 * m) = exp m * exp m) by (rewrite <- exp_plus; f_equal; ring).
    assert (P : 0 < exp (- m)) by apply exp_pos.
    assert (I : exp m * exp (- m) = 1) by (rewrite <- exp_plus, <- exp_0; f_equal; ring).
    Local Transparent sinh cosh. unfold sinh, cosh. Local Opaque sinh cosh.
    assert (K : 0 < (1 - h / 2) * exp (2 * m) - (1 + h / 2)).
    { assert ((1 - h / 2) * (1 + 2 * m) < (1 - h / 2) * exp (2 * m)) by (apply Rmult_lt_compat_l; lra). nra. }
    assert (0 < exp (- m) * ((1 - h / 2) * exp (2 * m) - (1 + h / 2))) by (apply Rmult_lt_0_compat; lra).
    rewrite E' in H.
    replace (exp (- m) * ((1 - h / 2) * (exp m * exp m) - (1 + h / 2)))
      with ((1 - h / 2) * (exp m * exp (- m)) * exp m - (1 + h / 2) * exp (- m)) in H by ring.
    rewrite I in H. lra. }
  replace (sinh m / h ^ 2 - cosh m / (2 * h)) with ((sinh m - h / 2 * cosh m) * / h ^ 2) by (field; lra).
  apply Rmult_lt_0_compat; [lra|]. apply Rinv_0_lt_compat. apply pow_lt. auto.
Qed.

Section Three.
Variable g : grid.
Hypothesis Hg : grid_ok g.
Hypothesis Hfd : fd_ok g 1.
Hypothesis Hh : gL g / INR (Nr g) <= 1.
Let NaP : 0 < INR (Na g).
Proof. apply lt_0_INR, Na_pos. Qed.
Let NrP : 0 < INR (Nr g).
Proof. apply lt_0_INR, Nr_pos. Qed.
Let haP : 0 < PI / INR (Na g).
Proof. apply Rdiv_lt_0_compat; auto. apply PI_RGT_0. Qed.
Let hrP : 0 < gL g / INR (Nr g).
Proof. apply Rdiv_lt_0_compat; auto. apply Hg. Qed.
Lemma cS_pos : forall ia ir, is_point g ia ir -> (1 <= ir)%nat -> 0 < cS g ia ir.
Proof.
  intros ia ir [H1 H2] H3. unfold cS. pose proof (snP g ia H1). pose proof Hg as (_ & _ & _ & A & L).
  apply Rmult_lt_0_compat; [apply Rmult_lt_0_compat; auto|]. apply radial_pos; auto.
  rewrite node_eq. apply Rmult_le_compat_r; [lra|]. apply le_INR in H3. simpl in H3. lra.
Qed.
Lemma cW_pos : forall ia ir, is_point g ia ir -> (1 <= ia)%nat -> 0 < cW g ia ir.
Proof.
  intros ia ir [H1 H2] H3. unfold cW. pose proof (shP g Hg ir H2). pose proof Hg as (_ & _ & _ & A & L).
  apply Rmult_lt_0_compat; [apply Rmult_lt_0_compat; auto|]. apply angular_pos; auto.
  - rewrite node_eq. apply Rmult_le_compat_r; [lra|]. apply le_INR in H3. simpl in H3. lra.
  - apply node_range; auto. apply PI_RGT_0.
Qed.
Lemma cE_pos : forall ia ir, is_point g ia ir -> (ia + 1 < Na g)%nat -> 0 < cE g ia ir.
Proof.
  intros ia ir [H1 H2] H3. unfold cE. pose proof (shP g Hg ir H2). pose proof Hg as (_ & _ & _ & A & L).
  apply Rmult_lt_0_compat; [apply Rmult_lt_0_compat; auto|]. apply angular_pos'; auto.
  - apply node_range; auto. apply PI_RGT_0.
  - rewrite node_eq. assert (E : PI = INR (Na g) * (PI / INR (Na g))) by (field; lra).
    rewrite E at 2. replace (INR (Na g) * (PI / INR (Na g)) - 3 / 2 * (PI / INR (Na g)))
      with ((INR (Na g) - 3 / 2) * (PI / INR (Na g))) by ring.
    apply Rmult_le_compat_r; [lra|]. assert (ia + 2 <= Na g)%nat as Q by lia. apply le_INR in Q.
    rewrite plus_INR in Q. simpl in Q. lra.
Qed.

(** The Laplacian of solver m, as a form. *)
Definition parity (m : Z) : R := if Z.even m then 1 else -1.
Lemma lap_parity : forall m x ia ir, is_point g ia ir ->
  gapply g (if Z.even m then elap g else olap g) x (pos g ia ir) = lap_form g 1 (parity m) x (fun _ _ => 0) ia ir.
Proof.
  intros m x ia ir H. assert (N1 : (1 <= Na g)%nat) by apply Na_pos. assert (N2 : (1 <= Nr g)%nat) by apply Nr_pos.
  unfold parity. destruct (Z.even m); [apply elap_form|apply olap_form]; auto.
Qed.
Definition delta (j : nat) : vec := fun k => if (k =? j)%nat then 1 else 0.
Lemma entry_delta : forall (M : mat) k j, (j < Nelem g)%nat -> gapply g M (delta j) k = M k j.
Proof.
  intros M k j J. unfold gapply, matvec, delta. rewrite (sumR_single _ j); auto.
  - rewrite Nat.eqb_refl. ring.
  - intros i _ N. apply Nat.eqb_neq in N. rewrite N. ring.
Qed.
Lemma pos_inj : forall ia ir ja jr, is_point g ia ir -> is_point g ja jr -> pos g ia ir = pos g ja jr -> ia = ja /\ ir = jr.
Proof.
  intros ia ir ja jr [A B] [C D] E. unfold pos in E.
  assert (ir = jr).
  { apply (f_equal (fun x => x / Na g)%nat) in E. rewrite !(Nat.mul_comm (Na g)), !Nat.div_add, !Nat.div_small in E by lia. lia. }
  subst. lia.
Qed.
(** Entries of the Hamiltonian of solver m off the diagonal. *)
Lemma ham_entry : forall m ia ir j, is_point g ia ir -> (j < Nelem g)%nat -> pos g ia ir <> j ->
  hamiltonian g m (pos g ia ir) j
  = - (1 / 2) * ((if (ia + 1 =? Na g)%nat then 0 else cE g ia ir * delta j (pos g (ia + 1) ir))
      + (if (ia =? 0)%nat then 0 else cW g ia ir * delta j (pos g (ia - 1) ir))
      + (if (ir + 1 =? Nr g)%nat then 0 else cN g ia ir * delta j (pos g ia (ir + 1)))
      + (if (ir =? 0)%nat then 0 else cS g ia ir * delta j (pos g ia (ir - 1)))).
Proof.
  intros m ia ir j H J N. rewrite <- (entry_delta (hamiltonian g m)) by auto. rewrite hamiltonian_apply by (auto using pos_lt).
  rewrite lap_parity, lap_form_sg by auto. cbv zeta.
  assert (Z : delta j (pos g ia ir) = 0) by (unfold delta; apply Nat.eqb_neq in N; rewrite N; reflexivity).
  unfold sgE, sgW, nbN, aline, rline. change (ia + Na g * ir)%nat with (pos g ia ir). rewrite Z.
  destruct (ia + 1 =? Na g)%nat, (ia =? 0)%nat, (ir + 1 =? Nr g)%nat, (ir =? 0)%nat; unfold pos; ring.
Qed.
Lemma delta_nonneg : forall j k, 0 <= delta j k.
Proof. intros. unfold delta. destruct (k =? j)%nat; lra. Qed.
Lemma ham_off : forall m i j, (i < Nelem g)%nat -> (j < Nelem g)%nat -> i <> j -> hamiltonian g m i j <= 0.
Proof.
  intros m i j I J N. destruct (pos_surj g i I) as (ia & ir & Hp & ->). rewrite ham_entry by auto. destruct Hp as [Ha Hr].
  assert (0 <= (if (ia + 1 =? Na g)%nat then 0 else cE g ia ir * delta j (pos g (ia + 1) ir))).
  { destruct (Nat.eqb_spec (ia + 1) (Na g)); [lra|]. apply Rmult_le_pos; [left; apply cE_pos; [split; auto|lia]|apply delta_nonneg]. }
  assert (0 <= (if (ia =? 0)%nat then 0 else cW g ia ir * delta j (pos g (ia - 1) ir))).
  { destruct (Nat.eqb_spec ia 0); [lra|]. apply Rmult_le_pos; [left; apply cW_pos; [split; auto|lia]|apply delta_nonneg]. }
  assert (0 <= (if (ir + 1 =? Nr g)%nat then 0 else cN g ia ir * delta j (pos g ia (ir + 1)))).
  { destruct (Nat.eqb_spec (ir + 1) (Nr g)); [lra|]. apply Rmult_le_pos; [left; apply cN_pos; auto; split; auto|apply delta_nonneg]. }
  assert (0 <= (if (ir =? 0)%nat then 0 else cS g ia ir * delta j (pos g ia (ir - 1)))).
  { destruct (Nat.eqb_spec ir 0); [lra|]. apply Rmult_le_pos; [left; apply cS_pos; [split; auto|lia]|apply delta_nonneg]. }
  lra.
Qed.
Lemma near_entry : forall m ia ir ja jr, is_point g ia ir -> is_point g ja jr ->
  (jr = ir /\ (ja = ia + 1 \/ ia = ja + 1) \/ ja = ia /\ (jr = ir + 1 \/ ir = jr + 1))%nat -> hamiltonian g m (pos g ia ir) (pos g ja jr) < 0.
Proof.
  intros m ia ir ja jr Hp Hq C. assert (J : (pos g ja jr < Nelem g)%nat) by (apply pos_lt; auto).
  assert (N : pos g ia ir <> pos g ja jr) by (intros E; destruct (pos_inj _ _ _ _ Hp Hq E); lia).
  assert (DD : delta (pos g ja jr) (pos g ja jr) = 1) by (unfold delta; rewrite Nat.eqb_refl; reflexivity).
  rewrite ham_entry by auto. pose proof Hp as [Ha Hr]. pose proof Hq as [Hc Hd]. set (D := delta (pos g ja jr)) in *.
  assert (P1 : 0 <= (if (ia + 1 =? Na g)%nat then 0 else cE g ia ir * D (pos g (ia + 1) ir))).
  { destruct (Nat.eqb_spec (ia + 1) (Na g)); [lra|]. apply Rmult_le_pos; [left; apply cE_pos; [split; auto|lia]|apply delta_nonneg]. }
  assert (P2 : 0 <= (if (ia =? 0)%nat then 0 else cW g ia ir * D (pos g (ia - 1) ir))).
  { destruct (Nat.eqb_spec ia 0); [lra|]. apply Rmult_le_pos; [left; apply cW_pos; [split; auto|lia]|apply delta_nonneg]. }
  assert (P3 : 0 <= (if (ir + 1 =? Nr g)%nat then 0 else cN g ia ir * D (pos g ia (ir + 1)))).
  { destruct (Nat.eqb_spec (ir + 1) (Nr g)); [lra|]. apply Rmult_le_pos; [left; apply cN_pos; auto; split; auto|apply delta_nonneg]. }
  assert (P4 : 0 <= (if (ir =? 0)%nat then 0 else cS g ia ir * D (pos g ia (ir - 1)))).
  { destruct (Nat.eqb_spec ir 0); [lra|]. apply Rmult_le_pos; [left; apply cS_pos; [split; auto|lia]|apply delta_nonneg]. }
  destruct C as [[E [F|F]]|[E [F|F]]].
  - destruct (Nat.eqb_spec (ia + 1) (Na g)); [lia|]. replace (pos g (ia + 1) ir) with (pos g ja jr) in * by (rewrite E, F; reflexivity).
    rewrite DD in *. pose proof (cE_pos ia ir Hp ltac:(lia)). lra.
  - destruct (Nat.eqb_spec ia 0); [lia|]. replace (pos g (ia - 1) ir) with (pos g ja jr) in * by (rewrite E; f_equal; lia).
    rewrite DD in *. pose proof (cW_pos ia ir Hp ltac:(lia)). lra.
  - destruct (Nat.eqb_spec (ir + 1) (Nr g)); [lia|]. replace (pos g ia (ir + 1)) with (pos g ja jr) in * by (rewrite E, F; reflexivity).
    rewrite DD in *. pose proof (cN_pos g Hg ia ir Hp). lra.
  - destruct (Nat.eqb_spec ir 0); [lia|]. replace (pos g ia (ir - 1)) with (pos g ja jr) in * by (rewrite E; f_equal; lia).
    rewrite DD in *. pose proof (cS_pos ia ir Hp ltac:(lia)). lra.
Qed.
(** The matrix of the eigenvalue problem. *)
Definition hmat (m : Z) (v : vec) : mat := fun i j => hamiltonian g m i j + (if (i =? j)%nat then gw g i * v i else 0).
Lemma hmat_off : forall m v i j, (i < Nelem g)%nat -> (j < Nelem g)%nat -> i <> j -> hmat m v i j <= 0.
Proof. intros m v i j I J N. unfold hmat. pose proof (ham_off m i j I J N). apply Nat.eqb_neq in N. rewrite N. lra. Qed.
Lemma hmat_near : forall m v ia ir ja jr, is_point g ia ir -> is_point g ja jr ->
  (jr = ir /\ (ja = ia + 1 \/ ia = ja + 1) \/ ja = ia /\ (jr = ir + 1 \/ ir = jr + 1))%nat -> linked (Nelem g) (hmat m v) (pos g ia ir) (pos g ja jr).
Proof.
  intros m v ia ir ja jr Hp Hq C. apply rt_step. split; [apply pos_lt; auto|]. split; [apply pos_lt; auto|].
  unfold hmat. destruct (Nat.eqb_spec (pos g ia ir) (pos g ja jr)) as [E|E].
  - exfalso. destruct (pos_inj _ _ _ _ Hp Hq E). lia.
  - pose proof (near_entry m ia ir ja jr Hp Hq C). lra.
Qed.
Lemma hmat_linked : forall m v i j, (i < Nelem g)%nat -> (j < Nelem g)%nat -> linked (Nelem g) (hmat m v) i j.
Proof.
  intros m v i j I J. destruct (pos_surj g i I) as (ia & ir & [Ha Hr] & ->). destruct (pos_surj g j J) as (ja & jr & [Hc Hd] & ->).
  assert (R1 : forall d ir, (ir + d < Nr g)%nat -> linked (Nelem g) (hmat m v) (pos g ia ir) (pos g ia (ir + d)) /\ linked (Nelem g) (hmat m v) (pos g ia (ir + d)) (pos g ia ir)).
  { induction d as [|d IH]; intros r Hd1; [rewrite Nat.add_0_r; split; apply rt_refl|]. destruct (IH r ltac:(lia)) as [A B].
    replace (r + S d)%nat with (r + d + 1)%nat by lia. split.
    - apply rt_trans with (pos g ia (r + d)); [exact A|]. apply hmat_near; [split; lia|split; lia|lia].
    - apply rt_trans with (pos g ia (r + d)); [|exact B]. apply hmat_near; [split; lia|split; lia|lia]. }
  assert (R2 : forall d a, (a + d < Na g)%nat -> linked (Nelem g) (hmat m v) (pos g a jr) (pos g (a + d) jr) /\ linked (Nelem g) (hmat m v) (pos g (a + d) jr) (pos g a jr)).
  { induction d as [|d IH]; intros a Hd1; [rewrite Nat.add_0_r; split; apply rt_refl|]. destruct (IH a ltac:(lia)) as [A B].
    replace (a + S d)%nat with (a + d + 1)%nat by lia. split.
    - apply rt_trans with (pos g (a + d) jr); [exact A|]. apply hmat_near; [split; lia|split; lia|lia].
    - apply rt_trans with (pos g (a + d) jr); [|exact B]. apply hmat_near; [split; lia|split; lia|lia]. }
  apply rt_trans with (pos g ia jr).
  - destruct (le_lt_dec ir jr) as [L|L].
    + destruct (R1 (jr - ir)%nat ir ltac:(lia)) as [A _]. replace (ir + (jr - ir))%nat with jr in A by lia. exact A.
    + destruct (R1 (ir - jr)%nat jr ltac:(lia)) as [_ A]. replace (jr + (ir - jr))%nat with ir in A by lia. exact A.
  - destruct (le_lt_dec ia ja) as [L|L].
    + destruct (R2 (ja - ia)%nat ia ltac:(lia)) as [A _]. replace (ia + (ja - ia))%nat with ja in A by lia. exact A.
    + destruct (R2 (ia - ja)%nat ja ltac:(lia)) as [_ A]. replace (ja + (ia - ja))%nat with ia in A by lia. exact A.
Qed.
Lemma hmat_apply : forall m v x k, (k < Nelem g)%nat -> sumR (Nelem g) (fun j => hmat m v k j * x j) = sumR (Nelem g) (fun j => hamiltonian g m k j * x j) + gw g k * v k * x k.
Proof.
  intros m v x k K. unfold hmat. rewrite (sumR_ext _ _ (fun j => hamiltonian g m k j * x j + (if (k =? j)%nat then gw g k * v k else 0) * x j)) by (intros; ring).
  rewrite sumR_plus. f_equal. rewrite (sumR_single _ k); auto.
  - rewrite Nat.eqb_refl. reflexivity.
  - intros i _ N. apply not_eq_sym, Nat.eqb_neq in N. rewrite N. ring.
Qed.
Lemma eigvec_pair : forall m v e p, eigvec (Nelem g) (hmat m v) (gw g) e p <-> eigenpair g (hamiltonian g m) v e p.
Proof.
  intros m v e p. unfold eigvec, eigenpair. split; intros H k K; specialize (H k K); rewrite hmat_apply in * by auto; exact H.
Qed.
Lemma Nelem_pos : (0 < Nelem g)%nat.
Proof. unfold Nelem. pose proof (Na_pos g). pose proof (Nr_pos g). nia. Qed.

(** ** Dependence on m *)
Lemma sinh_small : forall h, 0 < h -> h <= 1 -> sinh (h / 2) * cosh (h / 2) < h.
Proof.
  intros h H0 H1. destruct (MVT_cor2 (fun t => 2 * t - sinh t) (fun t => 2 * 1 - cosh t) 0 h H0) as (c & Hc & Hc').
  { intros c _. apply (derivable_pt_lim_minus (fun t => 2 * t) sinh); [|apply derivable_pt_lim_sinh].
    apply (derivable_pt_lim_scal id); apply derivable_pt_lim_id. }
  assert (C : cosh c < 2).
  { Local Transparent cosh sinh. unfold cosh. Local Opaque cosh sinh.
    assert (exp c <= 3). { apply Rle_trans with (exp 1); [|apply exp_le_3]. left. apply exp_increasing. lra. }
    assert (exp (- c) < 1) by (rewrite <- exp_0; apply exp_increasing; lra). lra. }
  rewrite sinh_0 in Hc. assert (0 < (2 * 1 - cosh c) * (h - 0)) by (apply Rmult_lt_0_compat; lra).
  assert (D : sinh h = 2 * (sinh (h / 2) * cosh (h / 2))).
  { Local Transparent cosh sinh. unfold cosh, sinh. Local Opaque cosh sinh. replace h with (h / 2 + h / 2) at 1 by field.
    replace (- h) with (- (h / 2) + - (h / 2)) by field. rewrite !exp_plus. field. }
  lra.
Qed.
Lemma sinh_half : forall h, 0 < h -> 2 * sinh (h / 2) < h * cosh (h / 2).
Proof.
  intros h H0. destruct (MVT_cor2 (fun t => t * cosh t - sinh t) (fun t => t * sinh t) 0 (h / 2) ltac:(lra)) as (c & Hc & Hc').
  { intros c _. replace (c * sinh c) with (1 * cosh c + c * sinh c - cosh c) by ring. apply derivable_pt_lim_minus; [|apply derivable_pt_lim_sinh].
    apply (derivable_pt_lim_mult id cosh); [apply derivable_pt_lim_id|apply derivable_pt_lim_cosh]. }
  rewrite sinh_0 in Hc. pose proof (sinh_pos c ltac:(lra)).
  assert (0 < c * sinh c * (h / 2 - 0)) by (apply Rmult_lt_0_compat; [apply Rmult_lt_0_compat; lra|lra]). lra.
Qed.
Lemma sin_half : forall h, 0 < h -> h <= PI -> 0 < sin (h / 2) /\ 2 * sin (h / 2) <= h /\ sin (h / 2) * cos (h / 2) < h /\ h * cos (h / 2) <= 2 * sin (h / 2).
Proof.
  intros h H0 H1. assert (S : 0 < sin (h / 2)) by (apply sin_gt_0; lra). assert (L : sin (h / 2) < h / 2) by (apply sin_lt_x; lra).
  split; [exact S|]. split; [lra|]. pose proof (COS_bound (h / 2)) as [_ C].
  split; [assert (sin (h / 2) * cos (h / 2) <= sin (h / 2) * 1) by (apply Rmult_le_compat_l; lra); lra|].
  destruct (Req_dec h PI) as [E|E]; [rewrite E, cos_PI2, sin_PI2; lra|]. pose proof (tan_ge (h / 2) ltac:(lra)). lra.
Qed.
(** What the sign at the axis adds to the Hamiltonian at (ia, ir), per unit of the vector. *)
Definition axis_part (ia ir : nat) : R :=
  (if (ia + 1 =? Na g)%nat then cE g ia ir else 0) + (if (ia =? 0)%nat then cW g ia ir else 0) + (if (ir =? 0)%nat then cS g ia ir else 0).
Lemma Na_two : (2 <= Na g)%nat.
Proof. unfold Na. destruct Hg as (A & B & _). nia. Qed.
Definition centri (ia ir : nat) : R := gw g (pos g ia ir) * (1 / (2 * gY g (pos g ia ir) ^ 2)).
Lemma centri_val : forall ia ir, is_point g ia ir -> let s := sin (node (Na g) PI ia) in let z := sinh (node (Nr g) (gL g) ir) in
  centri ia ir = ga g * (s / (2 * z) + z / (2 * s)).
Proof.
  intros ia ir Hp s z. pose proof Hp as [Ha Hr]. assert (S : 0 < s) by (apply snP; auto). assert (Z : 0 < z) by (apply shP; auto).
  pose proof Hg as (_ & _ & _ & A & _). unfold centri. assert (K : (pos g ia ir < Nelem g)%nat) by (apply pos_lt; auto).
  rewrite gw_val, gY_val by auto. rewrite Xa_pos, Xr_pos by auto. rewrite xa_node, xr_node by auto. fold s z. field. repeat split; lra.
Qed.
Lemma inv_lt : forall a b, 0 < a -> a < b -> / b < / a.
Proof. intros. apply Rinv_lt_contravar; [apply Rmult_lt_0_compat|]; lra. Qed.
Lemma axis_bound : forall ia ir, is_point g ia ir -> - centri ia ir < axis_part ia ir < centri ia ir.
Proof.
  intros ia ir Hp. pose proof Hp as [Ha Hr]. rewrite (centri_val ia ir Hp). cbv zeta.
  set (s := sin (node (Na g) PI ia)). set (z := sinh (node (Nr g) (gL g) ir)).
  assert (S : 0 < s) by (apply snP; auto). assert (Z : 0 < z) by (apply shP; auto). pose proof Hg as (_ & _ & _ & A & _).
  set (h := PI / INR (Na g)) in *. set (k := gL g / INR (Nr g)) in *.
  assert (N2 : 2 <= INR (Na g)) by (pose proof Na_two as N2; apply le_INR in N2; exact N2).
  assert (HP : h <= PI). { unfold h. pose proof PI_RGT_0. apply Rmult_le_reg_r with (INR (Na g)); [lra|]. unfold Rdiv. rewrite Rmult_assoc, Rinv_l by lra. nra. }
  destruct (sin_half h haP HP) as (S1 & S2 & S3 & S4). pose proof (sinh_small k hrP Hh) as K1. pose proof (sinh_half k hrP) as K2.
  assert (CP : 0 <= cos (h / 2)) by (apply cos_ge_0; lra).
  assert (ANG : 0 <= z * (sin (h / 2) / h ^ 2 - cos (h / 2) / (2 * h)) < z / (2 * sin (h / 2))).
  { replace (sin (h / 2) / h ^ 2 - cos (h / 2) / (2 * h)) with ((2 * sin (h / 2) - h * cos (h / 2)) * / (2 * h ^ 2)) by (field; lra).
    assert (I : 0 < / (2 * h ^ 2)) by (apply Rinv_0_lt_compat; pose proof (pow_lt h 2 haP); lra). split; [apply Rmult_le_pos; [lra|apply Rmult_le_pos; lra]|].
    apply Rmult_lt_compat_l; [exact Z|]. apply Rle_lt_trans with (h * / (2 * h ^ 2)); [apply Rmult_le_compat_r; [lra|]; nra|].
    replace (h * / (2 * h ^ 2)) with (/ (2 * h)) by (field; lra). apply inv_lt; lra. }
  assert (RAD : forall y, y = sinh (k / 2) -> - (s / (2 * y)) < s * (sinh (k / 2) / k ^ 2 - cosh (k / 2) / (2 * k)) <= 0).
  { intros y ->. assert (Y : 0 < sinh (k / 2)) by (apply sinh_pos; lra). split.
    - apply Rlt_le_trans with (- (s * (cosh (k / 2) / (2 * k)))).
      + apply Ropp_lt_contravar. apply Rmult_lt_compat_l; [exact S|]. apply Rmult_lt_reg_r with (2 * k * sinh (k / 2)); [apply Rmult_lt_0_compat; lra|].
        replace (cosh (k / 2) / (2 * k) * (2 * k * sinh (k / 2))) with (sinh (k / 2) * cosh (k / 2)) by (field; lra).
        replace (/ (2 * sinh (k / 2)) * (2 * k * sinh (k / 2))) with k by (field; lra). exact K1.
      + assert (0 < sinh (k / 2) / k ^ 2) by (apply Rdiv_lt_0_compat; [exact Y|apply pow_lt; auto]). nra.
    - replace (s * (sinh (k / 2) / k ^ 2 - cosh (k / 2) / (2 * k))) with (- (s * ((k * cosh (k / 2) - 2 * sinh (k / 2)) * / (2 * k ^ 2)))) by (field; lra).
      assert (0 < / (2 * k ^ 2)) by (apply Rinv_0_lt_compat; pose proof (pow_lt k 2 hrP); lra).
      assert (0 < s * ((k * cosh (k / 2) - 2 * sinh (k / 2)) * / (2 * k ^ 2))) by (apply Rmult_lt_0_compat; [exact S|apply Rmult_lt_0_compat; lra]). lra. }
  set (ang := (if (ia + 1 =? Na g)%nat then cE g ia ir else 0) + (if (ia =? 0)%nat then cW g ia ir else 0)).
  set (rad := if (ir =? 0)%nat then cS g ia ir else 0).
  assert (BA : 0 <= ang < ga g * (z / (2 * s))).
  { assert (PZ : 0 < z / (2 * s)) by (apply Rdiv_lt_0_compat; lra). assert (PA : 0 < ga g * (z / (2 * s))) by (apply Rmult_lt_0_compat; lra).
    pose proof Na_two as N2'. unfold ang. destruct (Nat.eqb_spec (ia + 1) (Na g)) as [E|E]; destruct (Nat.eqb_spec ia 0) as [E'|E']; try lia; [| |lra].
    - assert (T : node (Na g) PI ia = PI - h / 2).
      { rewrite node_eq. fold h. apply (f_equal INR) in E. rewrite plus_INR in E. simpl in E. replace PI with (INR (Na g) * h) by (unfold h; field; lra). rewrite <- E. field. }
      assert (ES : s = sin (h / 2)) by (unfold s; rewrite T, Rtrigo_facts.sin_pi_minus; reflexivity).
      replace (cE g ia ir + 0) with (ga g * (z * (sin (h / 2) / h ^ 2 - cos (h / 2) / (2 * h)))).
      + rewrite ES. split; [apply Rmult_le_pos; lra|apply Rmult_lt_compat_l; lra].
      + unfold cE. fold h. fold z. rewrite T, Rtrigo_facts.sin_pi_minus, Rtrigo_facts.cos_pi_minus. field. lra.
    - assert (T : node (Na g) PI ia = h / 2) by (rewrite node_eq, E'; fold h; simpl; field).
      assert (ES : s = sin (h / 2)) by (unfold s; rewrite T; reflexivity).
      replace (0 + cW g ia ir) with (ga g * (z * (sin (h / 2) / h ^ 2 - cos (h / 2) / (2 * h)))).
      + rewrite ES. split; [apply Rmult_le_pos; lra|apply Rmult_lt_compat_l; lra].
      + unfold cW. fold h. fold z. rewrite T. ring. }
  assert (BR : - (ga g * (s / (2 * z))) < rad <= 0).
  { assert (PZ : 0 < s / (2 * z)) by (apply Rdiv_lt_0_compat; lra). assert (PA : 0 < ga g * (s / (2 * z))) by (apply Rmult_lt_0_compat; lra).
    unfold rad. destruct (Nat.eqb_spec ir 0) as [E|E]; [|lra].
    assert (T : node (Nr g) (gL g) ir = k / 2) by (rewrite node_eq, E; fold k; simpl; field).
    assert (EZ : z = sinh (k / 2)) by (unfold z; rewrite T; reflexivity).
    destruct (RAD z EZ) as [R1 R2]. replace (cS g ia ir) with (ga g * (s * (sinh (k / 2) / k ^ 2 - cosh (k / 2) / (2 * k)))).
    - split; [rewrite Ropp_mult_distr_r; apply Rmult_lt_compat_l; lra|]. rewrite <- (Rmult_0_r (ga g)). apply Rmult_le_compat_l; lra.
    - unfold cS. fold k. fold s. rewrite T. ring. }
  unfold axis_part. fold ang rad. change (- (ga g * (s / (2 * z) + z / (2 * s))) < ang + rad < ga g * (s / (2 * z) + z / (2 * s))). lra.
Qed.
(** Hamiltonian of solver m against the one of m = 0. *)
Lemma ham_shift : forall m x ia ir, is_point g ia ir ->
  gapply g (hamiltonian g m) x (pos g ia ir) = gapply g (hamiltonian g 0) x (pos g ia ir)
    + ((if Z.even m then 0 else axis_part ia ir) + IZR m ^ 2 * centri ia ir) * x (pos g ia ir).
Proof.
  intros m x ia ir Hp. rewrite !hamiltonian_apply by (auto using pos_lt). rewrite !lap_parity, !lap_form_sg by auto. cbv zeta.
  unfold centri, axis_part, parity. change (Z.even 0) with true. unfold sgE, sgW, aline, rline. change (ia + Na g * ir)%nat with (pos g ia ir).
  set (u := x (pos g ia ir)). unfold Rdiv. set (q := / (2 * gY g (pos g ia ir) ^ 2)).
  destruct (Z.even m), (ia + 1 =? Na g)%nat, (ia =? 0)%nat, (ir =? 0)%nat; field.
Qed.
Lemma shift_order : forall m m' ia ir, is_point g ia ir -> (Z.abs m < Z.abs m')%Z ->
  (if Z.even m then 0 else axis_part ia ir) + IZR m ^ 2 * centri ia ir < (if Z.even m' then 0 else axis_part ia ir) + IZR m' ^ 2 * centri ia ir.
Proof.
  intros m m' ia ir Hp L. destruct (axis_bound ia ir Hp) as [B1 B2]. set (c := centri ia ir) in *. set (a := axis_part ia ir) in *.
  assert (C : 0 < c) by lra.
  assert (Q : (m ^ 2 + 1 <= m' ^ 2)%Z) by nia. apply IZR_le in Q. rewrite plus_IZR in Q. rewrite !Z.pow_2_r, !mult_IZR in Q.
  assert (W : (IZR m * IZR m + 1) * c <= IZR m' * IZR m' * c) by (apply Rmult_le_compat_r; lra).
  destruct (Z.even m), (Z.even m'); simpl pow; rewrite ?Rmult_1_r; lra.
Qed.
End Three.
