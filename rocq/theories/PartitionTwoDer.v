(** Partition: how the potentials of the two-orbital kinetic functional relate to derivatives with respect to the densities. *)
From Coq Require Import FunctionalExtensionality Reals List Arith Lia Lra ZArith Bool String.
From Coquelicot Require Import Coquelicot.
From Verif Require Import Base BaseLemmas GridModel Poly GridSpec GridProofs HartreeModel SolverModel SolverSpec LibxcModel OptionsModel KSModel KSSpec KSProofs KSLoop KSEnergy
  InverterModel PartitionModel PartitionSpec PartitionBase PartitionConstr PartitionDens PartitionFrame PartitionEnergy PartitionEp PartitionKin PartitionTwo PartitionTwoPot.
Import ListNotations.
Local Open Scope R_scope.

(** The second orbital: the square root of what is left of half of the density. *)
Definition two_rest (g : grid) (n1 n2 : vec) : vec := fun k => sqrt ((n1 k + n2 k) / 2 - two_diff g n1 n2 k ^ 2).
(** Rate of change of the kinetic energy of an orbital f that changes at rate df, in the sense of the symmetric operator
    -1/2 Laplacian. *)
Definition kin_rate (g : grid) (f df : vec) : R := integrate1 g (fun k => 2 * (half_lap g f k / gw g k) * df k).
(** df is the rate of change of f as the density changes from n by h. *)
Definition rate (g : grid) (f : vec -> vec) (n h df : vec) : Prop :=
  forall k, (k < Nelem g)%nat -> is_derive (fun t => f (fun j => n j + t * h j) k) 0 (df k).

Lemma is_derive_int : forall g (f : R -> vec) (df : vec), (forall k, (k < Nelem g)%nat -> is_derive (fun t => f t k) 0 (df k)) ->
  is_derive (fun t => integrate1 g (f t)) 0 (integrate1 g df).
Proof.
  intros g f df H. unfold integrate1. apply (is_derive_scal (fun t => sumR (Nelem g) (fun k => gwi g k * gw g k * f t k)) 0 (iprefac g) (sumR (Nelem g) (fun k => gwi g k * gw g k * df k))).
  apply (is_derive_sumR (Nelem g) (fun k t => gwi g k * gw g k * f t k) (fun k _ => gwi g k * gw g k * df k)).
  intros k K. apply (is_derive_scal (fun t => f t k) 0 (gwi g k * gw g k) (df k)). auto.
Qed.

Section Rates.
Variables (g : grid) (n1 n2 h : vec).
Let C := integrate1 g (fun j => (sqrt (n1 j) - sqrt (n2 j)) ^ 2).
Let f := two_diff g n1 n2.
Hypothesis P1 : forall k, (k < Nelem g)%nat -> 0 < n1 k.
Hypothesis PC : 0 < C.
Hypothesis PQ : forall k, (k < Nelem g)%nat -> 0 < (n1 k + n2 k) / 2 - f k ^ 2.
Let c1 : R := integrate1 g (fun k => h k * (f k / sqrt (C * n1 k))).
Lemma C_rate : is_derive (fun t => integrate1 g (fun j => (sqrt (n1 j + t * h j) - sqrt (n2 j)) ^ 2)) 0 (C * c1).
Proof.
  assert (E : C * c1 = integrate1 g (fun j => 2 * (sqrt (n1 j) - sqrt (n2 j)) * (h j / (2 * sqrt (n1 j))))).
  { unfold c1. rewrite <- integrate1_scal. apply integrate1_ext. intros k K. unfold f, two_diff. fold C. pose proof (P1 k K). rewrite sqrt_mult by lra.
    assert (0 < sqrt C) by (apply sqrt_lt_R0; auto). assert (0 < sqrt (n1 k)) by (apply sqrt_lt_R0; auto).
    replace C with (sqrt C * sqrt C) at 1 by (apply sqrt_sqrt; lra). field. split; lra. }
  rewrite E. apply is_derive_int. intros k K. pose proof (P1 k K). auto_derive; rewrite !Rmult_0_l, !Rplus_0_r; [lra|]. field. apply Rgt_not_eq, sqrt_lt_R0. auto.
Qed.
Definition d_diff : vec := fun k => h k / (2 * sqrt (C * n1 k)) - f k * c1 / 2.
Lemma diff_rate : rate g (fun n => two_diff g n n2) n1 h d_diff.
Proof.
  intros k K. unfold two_diff, d_diff. pose proof C_rate as CR. set (CC := fun t : R => integrate1 g (fun j => (sqrt (n1 j + t * h j) - sqrt (n2 j)) ^ 2)) in *.
  assert (C0 : CC 0 = C) by (unfold CC, C; apply integrate1_ext; intros; rewrite Rmult_0_l, Rplus_0_r; reflexivity).
  change (is_derive (fun t => (sqrt (n1 k + t * h k) - sqrt (n2 k)) / sqrt (CC t)) 0 (h k / (2 * sqrt (C * n1 k)) - f k * c1 / 2)).
  pose proof (P1 k K). assert (SC : 0 < sqrt C) by (apply sqrt_lt_R0; auto). assert (SN : 0 < sqrt (n1 k)) by (apply sqrt_lt_R0; auto).
  assert (V : h k / (2 * sqrt (C * n1 k)) - f k * c1 / 2 = (h k / (2 * sqrt (n1 k)) * sqrt C - (C * c1 / (2 * sqrt C)) * (sqrt (n1 k) - sqrt (n2 k))) / sqrt C ^ 2).
  { unfold f, two_diff. fold C. rewrite sqrt_mult by lra. replace C with (sqrt C ^ 2) at 4 by (apply pow2_sqrt; lra). field. split; lra. }
  rewrite V. clear V.
  pose proof (is_derive_div (fun t => sqrt (n1 k + t * h k) - sqrt (n2 k)) (fun t => sqrt (CC t)) 0 (h k / (2 * sqrt (n1 k))) (C * c1 / (2 * sqrt C))) as D. cbv beta in D.
  rewrite C0 in D. rewrite Rmult_0_l, Rplus_0_r in D. unfold minus, plus, opp, scal in D; cbn in D. unfold mult in D; cbn in D.
  refine (eq_ind _ (fun z => is_derive _ 0 z) (D _ _ _) _ _).
  - auto_derive; rewrite !Rmult_0_l, !Rplus_0_r; [lra|]. field. lra.
  - rewrite <- C0 at 2. apply (is_derive_sqrt CC 0 (C * c1)); [exact CR|]. rewrite C0. exact PC.
  - lra.
  - match goal with |- ?a = ?b => change (@eq R a b) end. field. lra.
Qed.
Let r := two_rest g n1 n2.
Definition d_rest : vec := fun k => (h k / 2 - 2 * f k * d_diff k) / (2 * r k).
Lemma rest_rate : rate g (fun n => two_rest g n n2) n1 h d_rest.
Proof.
  intros k K. pose proof (diff_rate k K) as D. cbv beta in D. unfold two_rest.
  set (u := fun t : R => two_diff g (fun j => n1 j + t * h j) n2 k) in *.
  assert (U0 : u 0 = f k). { unfold u, f. f_equal. apply functional_extensionality. intros j. ring. }
  change (is_derive (fun t => sqrt ((n1 k + t * h k + n2 k) / 2 - u t ^ 2)) 0 (d_rest k)).
  assert (I : is_derive (fun t => (n1 k + t * h k + n2 k) / 2 - u t ^ 2) 0 (h k / 2 - 2 * f k * d_diff k)).
  { assert (ED : ex_derive u 0) by (eexists; exact D). auto_derive; [exact ED|]. change (is_derive (fun x : R => u x) 0 (d_diff k)) in D. rewrite (is_derive_unique (fun x : R => u x) 0 (d_diff k) D).
    replace (u 0) with (f k) by (symmetry; exact U0). field. }
  refine (eq_ind _ (fun z => is_derive _ 0 z) (is_derive_sqrt (fun t => (n1 k + t * h k + n2 k) / 2 - u t ^ 2) 0 _ I _) _ _); rewrite U0.
  - rewrite Rmult_0_l, Rplus_0_r. apply PQ. auto.
  - unfold d_rest, r, two_rest. fold f. rewrite Rmult_0_l, Rplus_0_r. reflexivity.
Qed.
Let i1 := kin_energy g f.
Let i2 := integrate1 g (fun k => f k ^ 2 / r k * (half_lap g r k / gw g k)).
(** Rates of the two kinetic energies. *)
Lemma diff_kin : kin_rate g f d_diff = integrate1 g (fun k => h k * (/ sqrt (C * n1 k) * (half_lap g f k / gw g k - f k * i1))).
Proof.
  unfold kin_rate.
  transitivity (integrate1 g (fun k => h k * (/ sqrt (C * n1 k) * (half_lap g f k / gw g k)) + (- c1) * (f k * (half_lap g f k / gw g k)))).
  - apply integrate1_ext. intros k K. unfold d_diff. pose proof (P1 k K). assert (0 < sqrt (C * n1 k)) by (apply sqrt_lt_R0, Rmult_lt_0_compat; auto). generalize (half_lap g f k / gw g k). intros. field. lra.
  - rewrite integrate1_plus, integrate1_scal. change (integrate1 g (fun k => f k * (half_lap g f k / gw g k))) with i1.
    transitivity (integrate1 g (fun k => h k * (/ sqrt (C * n1 k) * (half_lap g f k / gw g k)) + (- i1) * (h k * (f k / sqrt (C * n1 k))))).
    + rewrite integrate1_plus, integrate1_scal. fold c1. ring.
    + apply integrate1_ext. intros k K. unfold Rdiv. ring.
Qed.
Lemma rest_kin : kin_rate g r d_rest = integrate1 g (fun k => h k * (2 * (half_lap g r k / gw g k * ((1 / 4 - 1 / 2 * / sqrt (C * n1 k) * f k) / r k) + 1 / 2 * (f k / sqrt (C * n1 k)) * i2))).
Proof.
  unfold kin_rate.
  transitivity (integrate1 g (fun k => h k * (2 * (half_lap g r k / gw g k * ((1 / 4 - 1 / 2 * / sqrt (C * n1 k) * f k) / r k))) + c1 * (f k ^ 2 / r k * (half_lap g r k / gw g k)))).
  - apply integrate1_ext. intros k K. unfold d_rest, d_diff. pose proof (P1 k K). assert (0 < sqrt (C * n1 k)) by (apply sqrt_lt_R0, Rmult_lt_0_compat; auto).
    assert (0 < r k) by (apply sqrt_lt_R0; apply PQ; auto). generalize (half_lap g r k / gw g k). intros. field. lra.
  - rewrite integrate1_plus, integrate1_scal. fold i2.
    transitivity (integrate1 g (fun k => h k * (2 * (half_lap g r k / gw g k * ((1 / 4 - 1 / 2 * / sqrt (C * n1 k) * f k) / r k))) + i2 * (h k * (f k / sqrt (C * n1 k))))).
    + rewrite integrate1_plus, integrate1_scal. fold c1. ring.
    + apply integrate1_ext. intros k K. generalize (half_lap g r k / gw g k). intros. field. split; [apply Rgt_not_eq, sqrt_lt_R0, Rmult_lt_0_compat; auto|]. apply Rgt_not_eq, sqrt_lt_R0. apply PQ. auto.
Qed.
End Rates.

Lemma diff_swap : forall g n1 n2 k, two_diff g n2 n1 k = - two_diff g n1 n2 k.
Proof.
  intros g n1 n2 k. unfold two_diff. replace (integrate1 g (fun j => (sqrt (n2 j) - sqrt (n1 j)) ^ 2)) with (integrate1 g (fun j => (sqrt (n1 j) - sqrt (n2 j)) ^ 2)) by (apply integrate1_ext; intros; ring).
  unfold Rdiv. ring.
Qed.
Lemma rest_swap : forall g n1 n2 k, two_rest g n2 n1 k = two_rest g n1 n2 k.
Proof. intros. unfold two_rest. rewrite diff_swap. f_equal. field. Qed.
Lemma C_swap : forall g (n1 n2 : vec), integrate1 g (fun j => (sqrt (n2 j) - sqrt (n1 j)) ^ 2) = integrate1 g (fun j => (sqrt (n1 j) - sqrt (n2 j)) ^ 2).
Proof. intros. apply integrate1_ext. intros; ring. Qed.

#[local] Opaque pow.
(** The complete formulas. *)
Lemma two_pot_full : forall g n1 n2 v1 v2, two_pot g n1 n2 = Ok (v1, v2) ->
  let C := integrate1 g (fun j => (sqrt (n1 j) - sqrt (n2 j)) ^ 2) in let f := two_diff g n1 n2 in let r := two_rest g n1 n2 in
  let i2 := integrate1 g (fun k => f k ^ 2 / r k * (half_lap g r k / gw g k)) in
  (forall k, (k < Nelem g)%nat -> 0 < n1 k /\ 0 < n2 k /\ 0 < (n1 k + n2 k) / 2 - f k ^ 2) /\ 0 < C /\
  forall k, v1 k = / sqrt (C * n1 k) * (half_lap g f k / gw g k - f k * lap_total g f)
                   + 2 * (half_lap g r k / gw g k * ((1 / 4 - 1 / 2 * / sqrt (C * n1 k) * f k) / r k) + 1 / 2 * (f k / sqrt (C * n1 k)) * i2) /\
            v2 k = - / sqrt (C * n2 k) * (half_lap g f k / gw g k - f k * kin_energy g f)
                   + 2 * (half_lap g r k / gw g k * ((1 / 4 + 1 / 2 * / sqrt (C * n2 k) * f k) / r k) - 1 / 2 * (f k / sqrt (C * n2 k)) * i2).
Proof.
  intros g n1 n2 v1 v2 H. cbv zeta. unfold two_pot in H. cbv zeta in H.
  change (two_C g (fun k => sqrt (n1 k)) (fun k => sqrt (n2 k))) with (integrate1 g (fun j => (sqrt (n1 j) - sqrt (n2 j)) ^ 2)) in H.
  set (C := integrate1 g (fun j => (sqrt (n1 j) - sqrt (n2 j)) ^ 2)) in *.
  destruct (_ && _)%bool eqn:E; [|discriminate]. cbn [negb] in H. injection H as <- <-.
  apply andb_prop in E. destruct E as (E & E4). apply andb_prop in E. destruct E as (E & E3). apply andb_prop in E. destruct E as (E1 & E2).
  destruct (Rlt_dec 0 C) as [PC|]; [|discriminate]. pose proof (all_pos_ok _ _ E1) as P1. pose proof (all_pos_ok _ _ E2) as P2. pose proof (all_pos_ok _ _ E4) as P4.
  split; [intros k K; split; [auto|split; [auto|]]; exact (P4 k K)|]. split; [exact PC|].
  set (f := two_diff g n1 n2). set (r := two_rest g n1 n2).
  assert (FE : forall k, (sqrt (n1 k) - sqrt (n2 k)) / sqrt C = f k) by reflexivity.
  assert (RE : forall k, sqrt ((n1 k + n2 k) / 2 - ((sqrt (n1 k) - sqrt (n2 k)) / sqrt C) ^ 2) = r k) by reflexivity.
  assert (D1 : forall k, kinop g (fun k0 => (sqrt (n1 k0) - sqrt (n2 k0)) / sqrt C) k = half_lap g f k) by (intros; apply kinop_half; intros; apply FE).
  assert (D2 : forall k, kinop g (fun k0 => sqrt ((n1 k0 + n2 k0) / 2 - ((sqrt (n1 k0) - sqrt (n2 k0)) / sqrt C) ^ 2)) k = half_lap g r k) by (intros; apply kinop_half; intros; apply RE).
  assert (I0 : integrate1 g (fun k => kinop g (fun k0 => (sqrt (n1 k0) - sqrt (n2 k0)) / sqrt C) k / gw g k) = lap_total g f) by (apply integrate1_ext; intros k K; rewrite D1; reflexivity).
  assert (I1 : integrate1 g (fun k => (sqrt (n1 k) - sqrt (n2 k)) / sqrt C * (kinop g (fun k0 => (sqrt (n1 k0) - sqrt (n2 k0)) / sqrt C) k / gw g k)) = kin_energy g f) by (apply integrate1_ext; intros k K; rewrite D1; reflexivity).
  set (i2 := integrate1 g (fun k => f k ^ 2 / r k * (half_lap g r k / gw g k))).
  assert (I2 : integrate1 g (fun k => ((sqrt (n1 k) - sqrt (n2 k)) / sqrt C) ^ 2 / sqrt ((n1 k + n2 k) / 2 - ((sqrt (n1 k) - sqrt (n2 k)) / sqrt C) ^ 2) * (kinop g (fun k0 => sqrt ((n1 k0 + n2 k0) / 2 - ((sqrt (n1 k0) - sqrt (n2 k0)) / sqrt C) ^ 2)) k / gw g k)) = i2) by (apply integrate1_ext; intros k K; rewrite D2, RE, FE; reflexivity).
  intros k. rewrite D1, D2, I0, I1, I2, RE, FE. split; fin2.
Qed.

(** Column 1 of V.vt is the rate of the kinetic energies with respect to the density of fragment B. *)
Theorem two_second_gradient : forall g n1 n2 v1 v2 h, two_pot g n1 n2 = Ok (v1, v2) ->
  exists a b, rate g (fun n => two_diff g n1 n) n2 h a /\ rate g (fun n => two_rest g n1 n) n2 h b /\
    kin_rate g (two_diff g n1 n2) a + kin_rate g (two_rest g n1 n2) b = integrate1 g (fun k => h k * v2 k).
Proof.
  intros g n1 n2 v1 v2 h H. destruct (two_pot_full _ _ _ _ _ H) as (P & PC & V). cbv zeta in *.
  assert (P1 : forall k, (k < Nelem g)%nat -> 0 < n2 k) by (intros; apply P; auto). assert (P2 : forall k, (k < Nelem g)%nat -> 0 < n1 k) by (intros; apply P; auto).
  assert (PC' : 0 < integrate1 g (fun j => (sqrt (n2 j) - sqrt (n1 j)) ^ 2)) by (rewrite C_swap; auto).
  assert (PQ : forall k, (k < Nelem g)%nat -> 0 < (n2 k + n1 k) / 2 - two_diff g n2 n1 k ^ 2). { intros k K. rewrite diff_swap. replace ((n2 k + n1 k) / 2 - (- two_diff g n1 n2 k) ^ 2) with ((n1 k + n2 k) / 2 - two_diff g n1 n2 k ^ 2) by field. apply P; auto. }
  pose proof (diff_rate g n2 n1 h P1 PC') as D1. pose proof (rest_rate g n2 n1 h P1 PC' PQ) as D2.
  exists (fun k => - d_diff g n2 n1 h k), (d_rest g n2 n1 h). split; [|split].
  - intros k K. apply (is_derive_ext (fun t => - two_diff g (fun j => n2 j + t * h j) n1 k)); [intros t; rewrite diff_swap; apply Ropp_involutive|]. apply (is_derive_opp (fun t => two_diff g (fun j => n2 j + t * h j) n1 k)). apply D1; auto.
  - intros k K. apply (is_derive_ext (fun t => two_rest g (fun j => n2 j + t * h j) n1 k)); [intros t; apply rest_swap|]. apply D2; auto.
  - pose proof (diff_kin g n2 n1 h P1 PC') as K1. pose proof (rest_kin g n2 n1 h P1 PC' PQ) as K2.
    assert (HL : forall k, half_lap g (two_diff g n2 n1) k = - half_lap g (two_diff g n1 n2) k). { intros k. rewrite <- half_lap_opp. apply half_lap_ext. intros. apply diff_swap. }
    assert (HR : forall k, half_lap g (two_rest g n2 n1) k = half_lap g (two_rest g n1 n2) k) by (intros k; apply half_lap_ext; intros; apply rest_swap).
    transitivity (kin_rate g (two_diff g n2 n1) (d_diff g n2 n1 h) + kin_rate g (two_rest g n2 n1) (d_rest g n2 n1 h)).
    { f_equal; unfold kin_rate; apply integrate1_ext; intros k K; rewrite ?HL, ?HR; unfold Rdiv; ring. }
    rewrite K1, K2. rewrite <- integrate1_plus. apply integrate1_ext. intros k K. destruct (V k) as (_ & ->). rewrite (C_swap g n1 n2), HL, HR, (diff_swap g n1 n2), (rest_swap g n1 n2).
    replace (kin_energy g (two_diff g n2 n1)) with (kin_energy g (two_diff g n1 n2)) by (unfold kin_energy; apply integrate1_ext; intros; rewrite (diff_swap g n1 n2), HL; unfold Rdiv; ring).
    set (i2 := integrate1 g (fun k0 => two_diff g n1 n2 k0 ^ 2 / two_rest g n1 n2 k0 * (half_lap g (two_rest g n1 n2) k0 / gw g k0))).
    replace (integrate1 g (fun k0 => two_diff g n2 n1 k0 ^ 2 / two_rest g n2 n1 k0 * (half_lap g (two_rest g n2 n1) k0 / gw g k0))) with i2 by (apply integrate1_ext; intros k0 K0; rewrite (diff_swap g n1 n2), (rest_swap g n1 n2), HR; replace ((- two_diff g n1 n2 k0) ^ 2) with (two_diff g n1 n2 k0 ^ 2) by ring; reflexivity).
    fin2.
Qed.
(** Column 0 is not: the integral of the wrong function is subtracted. *)
Theorem two_first_gradient : forall g n1 n2 v1 v2 h, two_pot g n1 n2 = Ok (v1, v2) ->
  exists a b, rate g (fun n => two_diff g n n2) n1 h a /\ rate g (fun n => two_rest g n n2) n1 h b /\
    kin_rate g (two_diff g n1 n2) a + kin_rate g (two_rest g n1 n2) b = integrate1 g (fun k => h k * v1 k) +
      (lap_total g (two_diff g n1 n2) - kin_energy g (two_diff g n1 n2)) *
      integrate1 g (fun k => h k * (two_diff g n1 n2 k / sqrt (integrate1 g (fun j => (sqrt (n1 j) - sqrt (n2 j)) ^ 2) * n1 k))).
Proof.
  intros g n1 n2 v1 v2 h H. destruct (two_pot_full _ _ _ _ _ H) as (P & PC & V). cbv zeta in *.
  assert (P1 : forall k, (k < Nelem g)%nat -> 0 < n1 k) by (intros; apply P; auto). assert (P2 : forall k, (k < Nelem g)%nat -> 0 < n2 k) by (intros; apply P; auto).
  assert (PQ : forall k, (k < Nelem g)%nat -> 0 < (n1 k + n2 k) / 2 - two_diff g n1 n2 k ^ 2) by (intros; apply P; auto).
  exists (d_diff g n1 n2 h), (d_rest g n1 n2 h). split; [apply diff_rate; auto|]. split; [apply rest_rate; auto|].
  rewrite (diff_kin g n1 n2 h P1 PC), (rest_kin g n1 n2 h P1 PC PQ). rewrite <- integrate1_scal, <- !integrate1_plus. apply integrate1_ext. intros k K. destruct (V k) as (-> & _). fin2.
Qed.

(** The same for the object. *)
Theorem two_gradients : forall g w p F n p', densities p F n -> p_ens p = false -> po_kin (p_opt p) = "twoorbital"%string -> vp_kinetic g w p = Ok p' ->
  exists na nb v1 v2 x, p_na p = Some na /\ p_nb p = Some nb /\ p_vt p' = Some (2%nat, x) /\ (forall k, x k 0%nat = Fin (v1 k) /\ x k 1%nat = Fin (v2 k)) /\
   let n1 := fun k => na k 0%nat in let n2 := fun k => nb k 0%nat in let f := two_diff g n1 n2 in forall h,
    (exists a b, rate g (fun n => two_diff g n1 n) n2 h a /\ rate g (fun n => two_rest g n1 n) n2 h b /\
      kin_rate g f a + kin_rate g (two_rest g n1 n2) b = integrate1 g (fun k => h k * v2 k)) /\
    (exists a b, rate g (fun n => two_diff g n n2) n1 h a /\ rate g (fun n => two_rest g n n2) n1 h b /\
      kin_rate g f a + kin_rate g (two_rest g n1 n2) b = integrate1 g (fun k => h k * v1 k) +
        (lap_total g f - kin_energy g f) * integrate1 g (fun k => h k * (f k / sqrt (integrate1 g (fun j => (sqrt (n1 j) - sqrt (n2 j)) ^ 2) * n1 k)))).
Proof.
  intros g w p F n p' D EN K H. destruct (vpk_two_inv _ _ _ _ _ _ D EN K H) as (na & nb & v1 & v2 & ua & ub & xa & xb & fa & fb & A1 & A2 & A3 & _ & _ & _ & _ & _ & _ & _ & (x & X1 & X2) & _).
  exists na, nb, v1, v2, x. do 4 (split; [assumption|]). cbv zeta. intros h. split; [eapply two_second_gradient; eauto|eapply two_first_gradient; eauto].
Qed.
(** The potential of a fragment is half of the rate of its von Weizsaecker energy. *)
Theorem two_fragment_half : forall g w p F n p', grid_ok g -> densities p F n -> p_ens p = false -> po_kin (p_opt p) = "twoorbital"%string -> vp_kinetic g w p = Ok p' ->
  forall c, c = Ca \/ c = Cb -> exists f y u, p_f p' c = Some f /\ f_vt f = Some y /\ (forall k, y k 0%nat = Fin (u k)) /\ forall h,
    exists a, rate g (fun m => fun k => sqrt (m k)) (fun k => n c k 0%nat) h a /\ integrate1 g (fun k => h k * u k) = kin_rate g (fun k => sqrt (n c k 0%nat)) a / 2.
Proof.
  intros g w p F n p' G D EN K H. destruct (vpk_two_inv _ _ _ _ _ _ D EN K H) as (na & nb & v1 & v2 & ua & ub & xa & xb & fa & fb & A1 & A2 & A3 & UA & UB & FA & _ & FB & _ & _ & _ & (y & Y1 & Y2) & (z & Z1 & Z2)).
  assert (X : forall m u, two_frag g m = Ok u -> forall h, exists a, rate g (fun m => fun k => sqrt (m k)) m h a /\ integrate1 g (fun k => h k * u k) = kin_rate g (fun k => sqrt (m k)) a / 2).
  { intros m u T h. unfold two_frag in T. destruct (all_pos (Nelem g) m) eqn:E; [|discriminate]. injection T as <-. pose proof (all_pos_ok _ _ E) as P.
    exists (fun k => h k / (2 * sqrt (m k))). split.
    - intros k KK. pose proof (P k KK). auto_derive; rewrite !Rmult_0_l, !Rplus_0_r; [lra|]. field. apply Rgt_not_eq, sqrt_lt_R0. auto.
    - transitivity (/ 2 * kin_rate g (fun k => sqrt (m k)) (fun k => h k / (2 * sqrt (m k)))); [|field]. unfold kin_rate. rewrite <- integrate1_scal. apply integrate1_ext. intros k KK.
      rewrite (kinop_half g _ (fun x => sqrt (m x))) by auto. pose proof (P k KK). pose proof (gw_pos g k G KK). field. split; [apply Rgt_not_eq, sqrt_lt_R0; auto|lra]. }
  intros c [-> | ->]; [exists fa, y, ua|exists fb, z, ub]; (do 3 (split; [assumption|])); apply X; assumption.
Qed.
