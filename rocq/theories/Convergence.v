(** Stability of the three-point discrete Poisson problem and second-order convergence of the Hartree potential. *)
From Coq Require Import Reals List Lia Lra ZArith.
From Coquelicot Require Import Coquelicot.
From Verif Require Import Base BaseLemmas GridModel Poly GridSpec GridProofs FDProofs OpProofs LapCont GridWitness GridMore
  SolverModel HartreeModel HartreeSpec HartreeProofs LinAlg MaxPrinciple HartreeThms Accuracy AccuracyOp AccuracyWit.
Import ListNotations.
Local Open Scope R_scope.
Local Opaque sinh cosh.

(** Radial coordinate of the first points beyond the outer boundary. *)
Definition outer (g : grid) : R := node (Nr g) (gL g) (Nr g).
Definition m_at (g : grid) (k : nat) : R := node (Nr g) (gL g) (k / Na g).
Definition t_at (g : grid) (k : nat) : R := node (Na g) PI (k mod Na g).

Lemma m_at_pos : forall g ia ir, is_point g ia ir -> m_at g (pos g ia ir) = node (Nr g) (gL g) ir.
Proof. intros g ia ir H. unfold m_at. rewrite pos_div by apply H. reflexivity. Qed.

(** * Elementary inequalities *)
Lemma sinh_ge : forall m, 0 <= m -> m <= sinh m.
Proof.
  intros m [H|<-]; [|rewrite sinh_0; lra].
  destruct (MVT_cor2 sinh cosh 0 m H) as (c & E & _).
  { intros c _. apply is_derive_Reals, is_derive_sinh. }
  rewrite sinh_0 in E. pose proof (cosh_ge_1 c). nra.
Qed.
Lemma mcosh_ge : forall m, 0 <= m -> sinh m <= m * cosh m.
Proof.
  intros m [H|<-]; [|rewrite sinh_0; lra].
  destruct (MVT_cor2 (fun t => t * cosh t - sinh t) (fun t => t * sinh t) 0 m H) as (c & E & Hc).
  { intros c _. apply is_derive_Reals.
    pose proof (is_derive_mult (fun t : R => t) cosh c 1 (sinh c) (is_derive_id c) (is_derive_cosh c) Rmult_comm) as D1.
    pose proof (is_derive_minus _ _ _ _ _ D1 (is_derive_sinh c)) as D.
    replace (c * sinh c) with (minus (plus (mult 1 (cosh c)) (mult c (sinh c))) (cosh c)); [exact D|].
    unfold minus, plus, mult, opp. simpl. unfold plus, mult, opp; simpl. ring. }
  rewrite sinh_0 in E. pose proof (sinh_le_cosh c ltac:(lra)) as [P _]. 
  assert (0 <= c * sinh c * (m - 0)) by (apply Rmult_le_pos; [apply Rmult_le_pos|]; lra). lra.
Qed.
Local Transparent sinh cosh.
Lemma mcosh_le : forall m, 0 <= m -> m * cosh m <= (1 + m) * sinh m.
Proof.
  intros m H. pose proof (sinh_ge m H) as S. assert (E : exp (- m) <= 1).
  { rewrite <- exp_0. destruct H as [H|<-]; [left; apply exp_increasing; lra|rewrite Ropp_0; lra]. }
  pose proof (exp_pos (- m)). assert (C : cosh m = sinh m + exp (- m)) by (unfold cosh, sinh; lra). rewrite C. nra.
Qed.
Local Opaque sinh cosh.

(** * Stability *)
Section Stable.
Variable g : grid.
Hypothesis Hg : grid_ok g.
Hypothesis Hfd : fd_ok g 1.
Hypothesis Hh : gL g / INR (Nr g) <= 1.

Lemma lap_form_comb : forall x out y o' c ia ir, is_point g ia ir ->
  lap_form g 1 1 (fun k => x k + c * y k) (fun i q => out i q + c * o' i q) ia ir
  = lap_form g 1 1 x out ia ir + c * lap_form g 1 1 y o' ia ir.
Proof using Hg Hfd.
  intros x out y o' c ia ir Hp. rewrite !lap_form_nb by auto. cbv zeta.
  unfold nbE, nbW, nbN, aline, rline. destruct (_ =? _)%nat, (_ =? _)%nat, (_ =? _)%nat, (_ =? _)%nat; ring.
Qed.
Lemma lap_form_const : forall c ia ir, is_point g ia ir -> lap_form g 1 1 (fun _ => c) (fun _ _ => c) ia ir = 0.
Proof using Hg Hfd.
  intros c ia ir Hp. rewrite !lap_form_nb by auto. cbv zeta.
  unfold nbE, nbW, nbN, aline, rline. destruct (_ =? _)%nat, (_ =? _)%nat, (_ =? _)%nat, (_ =? _)%nat; ring.
Qed.

(** The paraboloid outer^2 - m^2, which vanishes on the ghost points. *)
Definition bowl (k : nat) : R := outer g ^ 2 - m_at g k ^ 2.
Lemma bowl_lap : forall ia ir, is_point g ia ir ->
  let t := node (Na g) PI ia in let m := node (Nr g) (gL g) ir in
  lap_form g 1 1 bowl (fun _ _ => 0) ia ir = - (ga g * sin t * (2 * sinh m + 2 * (m * cosh m))).
Proof using Hg Hfd.
  intros ia ir Hp t m. rewrite lap_form_nb by auto. cbv zeta.
  assert (NR : 0 < INR (Nr g)) by apply lt_0_INR, Nr_pos.
  assert (HL : 0 < gL g) by apply Hg.
  assert (B : forall ja jr, is_point g ja jr -> bowl (pos g ja jr) = outer g ^ 2 - node (Nr g) (gL g) jr ^ 2).
  { intros. unfold bowl. rewrite m_at_pos by auto. reflexivity. }
  assert (EE : nbE (Na g) (aline g bowl ir) ia = bowl (pos g ia ir)).
  { unfold nbE, aline. destruct (Nat.eqb_spec (ia + 1) (Na g)); [reflexivity|]. rewrite !B; auto. split; [destruct Hp; lia|apply Hp]. }
  assert (EW : nbW (Na g) (aline g bowl ir) ia = bowl (pos g ia ir)).
  { unfold nbW, aline. destruct (Nat.eqb_spec ia 0); [reflexivity|]. rewrite !B; auto. split; [destruct Hp; lia|apply Hp]. }
  set (h := gL g / INR (Nr g)).
  assert (EN : nbN (Nr g) (rline g bowl ia) 0 ir = outer g ^ 2 - (m + h) ^ 2).
  { unfold nbN, rline. destruct (Nat.eqb_spec (ir + 1) (Nr g)) as [E|].
    - unfold outer, m. rewrite !node_eq. rewrite <- E at 1. rewrite plus_INR. simpl INR. fold h. ring.
    - rewrite B by (split; [apply Hp|destruct Hp; lia]). unfold m. rewrite !node_eq, plus_INR. simpl INR. fold h. ring. }
  assert (ES : nbW (Nr g) (rline g bowl ia) ir = outer g ^ 2 - (m - h) ^ 2).
  { unfold nbW, rline. destruct (Nat.eqb_spec ir 0) as [E|].
    - rewrite B by auto. unfold m. rewrite !node_eq, E. simpl INR. fold h. field.
    - rewrite B by (split; [apply Hp|destruct Hp; lia]). unfold m. rewrite !node_eq, minus_INR by lia. simpl INR. fold h. ring. }
  rewrite EE, EW, EN, ES, B by auto. unfold cN, cS. fold t m h.
  assert (h <> 0) by (unfold h; apply Rgt_not_eq, Rdiv_lt_0_compat; auto). field. auto.
Qed.
Lemma bowl_super : forall ia ir, is_point g ia ir ->
  lap_form g 1 1 bowl (fun _ _ => 0) ia ir <= - 4 * (ga g * sin (node (Na g) PI ia) * sinh (node (Nr g) (gL g) ir)).
Proof using Hg Hfd.
  intros ia ir Hp. rewrite bowl_lap by auto. cbv zeta. set (t := node (Na g) PI ia). set (m := node (Nr g) (gL g) ir).
  assert (St : 0 < sin t) by (apply snP, Hp). assert (Ha : 0 < ga g) by apply Hg.
  assert (Hm : 0 < m) by (apply (node_range (Nr g) (gL g) ir); [apply Hp|apply Hg]).
  pose proof (mcosh_ge m ltac:(lra)). assert (0 < ga g * sin t) by (apply Rmult_lt_0_compat; auto).
  assert (ga g * sin t * sinh m <= ga g * sin t * (m * cosh m)) by (apply Rmult_le_compat_l; lra). lra.
Qed.

Lemma stable_one : forall x out eps delta, 0 <= eps ->
  (forall ia, (ia < Na g)%nat -> out ia 0%nat <= delta) ->
  (forall ia ir, is_point g ia ir ->
     - (eps * (ga g * sin (node (Na g) PI ia) * sinh (node (Nr g) (gL g) ir))) <= lap_form g 1 1 x out ia ir) ->
  forall k, (k < Nelem g)%nat -> x k <= delta + eps * (outer g ^ 2 - m_at g k ^ 2) / 4.
Proof using Hg Hfd Hh.
  intros x out eps delta He Ho Hl k Hk.
  enough (x k + (- eps / 4) * bowl k + 1 * (- delta) <= 0) by (unfold bowl in *; lra).
  apply (max_principle g Hg Hfd Hh (fun k => x k + (- eps / 4) * bowl k + 1 * (- delta))
    (fun i q => out i q + (- eps / 4) * 0 + 1 * (- delta))); auto.
  - intros ia Hia. pose proof (Ho ia Hia). lra.
  - intros ia ir Hp.
    rewrite (lap_form_comb (fun k => x k + (- eps / 4) * bowl k) (fun i q => out i q + (- eps / 4) * 0) (fun _ => - delta) (fun _ _ => - delta) 1) by auto.
    rewrite (lap_form_comb x out bowl (fun _ _ => 0)), lap_form_const by auto.
    pose proof (bowl_super ia ir Hp). pose proof (Hl ia ir Hp).
    assert (- eps / 4 * (- 4 * (ga g * sin (node (Na g) PI ia) * sinh (node (Nr g) (gL g) ir)))
      <= - eps / 4 * lap_form g 1 1 bowl (fun _ _ => 0) ia ir) by (apply Rmult_le_compat_neg_l; lra). lra.
Qed.
(** Residual at most eps (relative to a sin t sinh m) and boundary values at most delta. *)
Lemma stable : forall x out eps delta, 0 <= eps ->
  (forall ia, (ia < Na g)%nat -> Rabs (out ia 0%nat) <= delta) ->
  (forall ia ir, is_point g ia ir ->
     Rabs (lap_form g 1 1 x out ia ir) <= eps * (ga g * sin (node (Na g) PI ia) * sinh (node (Nr g) (gL g) ir))) ->
  forall k, (k < Nelem g)%nat -> Rabs (x k) <= delta + eps * (outer g ^ 2 - m_at g k ^ 2) / 4.
Proof using Hg Hfd Hh.
  intros x out eps delta He Ho Hl k Hk. apply Rabs_le. split.
  - enough (- x k <= delta + eps * (outer g ^ 2 - m_at g k ^ 2) / 4) by lra.
    apply (stable_one (fun k => - x k) (fun i q => - out i q) eps delta); auto.
    + intros ia Hi. pose proof (Ho ia Hi) as A. apply Rabs_le_between in A. lra.
    + intros ia ir Hp. rewrite (lap_form_opp g Hg Hfd) by auto. pose proof (Hl ia ir Hp) as A. apply Rabs_le_between in A. lra.
  - apply (stable_one x out eps delta); auto.
    + intros ia Hi. pose proof (Ho ia Hi) as A. apply Rabs_le_between in A. lra.
    + intros ia ir Hp. pose proof (Hl ia ir Hp) as A. apply Rabs_le_between in A. lra.
Qed.
End Stable.

(** * The third derivative of an even function *)
Lemma third_even : forall f M r, smooth 4 f -> (forall s, f (- s) = f s) ->
  (forall s, Rabs s <= r -> Rabs (Derive_n f 4 s) <= M) -> forall s, Rabs s <= r -> Rabs (Derive_n f 3 s) <= M * Rabs s.
Proof.
  intros f M r Sf P B.
  assert (Z : Derive_n f 3 0 = 0).
  { pose proof (Derive_opp_n 4 f 3 0 Sf ltac:(lia)) as E. rewrite (Derive_n_ext _ f 3 0 P), Ropp_0 in E. simpl pow in E. lra. }
  assert (D : forall s, derivable_pt_lim (Derive_n f 3) s (Derive_n f 4 s)).
  { intros s. apply is_derive_Reals. change (Derive_n f 4 s) with (Derive (Derive_n f 3) s). apply Derive_correct.
    exact (Sf 4%nat s ltac:(lia)). }
  intros s Hs. destruct (Rtotal_order s 0) as [H|[-> |H]].
  - destruct (MVT_cor2 (Derive_n f 3) (Derive_n f 4) s 0 H (fun c _ => D c)) as (c & E & Hc).
    rewrite Z in E. replace (Derive_n f 3 s) with (Derive_n f 4 c * s) by lra. rewrite Rabs_mult.
    apply Rmult_le_compat_r; [apply Rabs_pos|]. apply B. rewrite Rabs_left in * by lra. lra.
  - rewrite Z, Rabs_R0. lra.
  - destruct (MVT_cor2 (Derive_n f 3) (Derive_n f 4) 0 s H (fun c _ => D c)) as (c & E & Hc).
    rewrite Z in E. replace (Derive_n f 3 s) with (Derive_n f 4 c * s) by lra. rewrite Rabs_mult.
    apply Rmult_le_compat_r; [apply Rabs_pos|]. apply B. rewrite Rabs_right in * by lra. lra.
Qed.
Lemma third_pi : forall f M, smooth 4 f -> (forall s, f (2 * PI - s) = f s) ->
  (forall s, Rabs (Derive_n f 4 s) <= M) -> forall s, Rabs (Derive_n f 3 s) <= M * Rabs (PI - s).
Proof.
  intros f M Sf P B s.
  assert (T : forall k s, Derive_n (fun x => f (x + PI)) k s = Derive_n f k (s + PI)) by (intros; apply Derive_n_comp_trans).
  replace s with (s - PI + PI) at 1 by ring. rewrite <- T. rewrite Rabs_minus_sym.
  apply (third_even (fun x => f (x + PI)) M (Rabs (s - PI))); [|intros x; rewrite <- (P (x + PI)); f_equal; ring|intros; rewrite T; auto|lra].
  intros k x Hk. apply ex_derive_n_comp_trans, Sf, Hk.
Qed.

(** * Consistency relative to a sin t sinh m *)
Lemma const1 : forall g, fd_ok g 1 -> fd_const 1 3 (d1 g) = 1 / 6 /\ fd_const 1 4 (d2 g) = 1 / 12.
Proof.
  intros g H. destruct (fd1_coef g H) as (A & B & C & D & E & F). unfold fd_const, rule_const, offset.
  change (2 * 1 + 1)%nat with 3%nat. cbn [sumR]. rewrite A, B, C, D, E, F.
  assert (F3 : INR (fact 3) = 6) by (simpl; lra). assert (F4 : INR (fact 4) = 24) by (simpl; lra). rewrite F3, F4.
  simpl INR. replace (0 - 1) with (-1) by ring. replace (1 - 1) with 0 by ring. replace (1 + 1 - 1) with 1 by ring.
  rewrite !Rabs_R0, !Rabs_R1. replace (Rabs (-1)) with 1 by (rewrite Rabs_left; lra).
  replace (Rabs (- / 2)) with (/ 2) by (rewrite Rabs_left; lra). replace (Rabs (/ 2)) with (/ 2) by (rewrite Rabs_right; lra).
  split; simpl; lra.
Qed.
Lemma three_sharp : forall g, fd_ok g 1 -> sharp g 1.
Proof.
  intros g (E & _ & H1 & H2). rewrite E in H1, H2.
  pose proof (H1 0%nat ltac:(simpl; lia)) as A0. pose proof (H1 1%nat ltac:(simpl; lia)) as A1.
  pose proof (H1 2%nat ltac:(simpl; lia)) as A2.
  pose proof (H2 0%nat ltac:(simpl; lia)) as B0. pose proof (H2 1%nat ltac:(simpl; lia)) as B1.
  pose proof (H2 2%nat ltac:(simpl; lia)) as B2.
  unfold transp, fd_table, fd_rhs in *. rewrite sym_stencil_length in *.
  simpl in A0, A1, A2, B0, B1, B2. unfold fd_x in *. simpl in A0, A1, A2, B0, B1, B2.
  assert (Q1 : ls_fd1 g 0%nat = - / 2 /\ ls_fd1 g 1%nat = 0 /\ ls_fd1 g 2%nat = / 2) by lra.
  assert (Q2 : ls_fd2 g 0%nat = 1 /\ ls_fd2 g 1%nat = - 2 /\ ls_fd2 g 2%nat = 1) by lra.
  destruct Q1 as (Qa & Qb & Qc). destruct Q2 as (Qd & Qe & Qf).
  split; intros j Hj; (destruct j as [|[|[|j]]]; [rewrite ?Qa, ?Qd|rewrite ?Qb, ?Qe|rewrite ?Qc, ?Qf|lia]);
    first [left; reflexivity|apply big; lra].
Qed.

(** All fourth derivatives along the coordinate lines, on the grid and up to the first points beyond it. *)
Definition fourth (g : grid) (F : R -> R -> R) (Ma Mr : R) : Prop :=
  (forall ir t, (ir < Nr g)%nat -> Rabs (Derive_n (fun t => F t (node (Nr g) (gL g) ir)) 4 t) <= Ma) /\
  (forall ia m, (ia < Na g)%nat -> Rabs m <= outer g -> Rabs (Derive_n (fun m => F (node (Na g) PI ia) m) 4 m) <= Mr).
(** Size of the consistency error. *)
Definition second_order (g : grid) (Ma Mr : R) : R :=
  7 / 12 * Ma * (PI / INR (Na g)) ^ 2 + (7 / 12 + gL g / 2) * Mr * (gL g / INR (Nr g)) ^ 2.

Section Consistent.
Variables (u uz uy uzz uzy uyy : R -> R -> R) (g : grid) (Ma Mr : R).
Hypothesis Hg : grid_ok g.
Hypothesis Hfd : fd_ok g 1.
Hypothesis Hu : fits g 1 1 u uz uy uzz uzy uyy.
Let F := seen u (ga g).
Hypothesis HM : fourth g F Ma Mr.

Lemma Ma_nonneg : 0 <= Ma.
Proof using HM. eapply Rle_trans; [apply Rabs_pos|]. exact (proj1 HM 0%nat 0 (Nr_pos g)). Qed.
Lemma Mr_nonneg : 0 <= Mr.
Proof using HM Hg.
  eapply Rle_trans; [apply Rabs_pos|]. apply (proj2 HM 0%nat 0 (Na_pos g)). rewrite Rabs_R0. unfold outer.
  rewrite node_eq. apply Rmult_le_pos; [pose proof (pos_INR (Nr g)); lra|left; apply dr_pos, Hg].
Qed.

(** Third derivatives near a grid point, angular line: at most 3 Ma times the distance to the nearer end. *)
Lemma angular_third : forall ia ir s, is_point g ia ir -> let t := node (Na g) PI ia in
  Rabs (s - t) <= PI / INR (Na g) ->
  Rabs (cos t) * Rabs (Derive_n (fun t => F t (node (Nr g) (gL g) ir)) 3 s) <= sin t * (3 * Ma).
Proof using HM Hu.
  intros ia ir s Hp t Hs. set (m := node (Nr g) (gL g) ir). set (h := PI / INR (Na g)) in *.
  assert (NA : 0 < INR (Na g)) by apply lt_0_INR, Na_pos. pose proof PI_RGT_0 as PP.
  assert (Hh : 0 < h) by apply da_pos. pose proof Ma_nonneg as M0.
  assert (Ht : 0 < t < PI) by (apply node_range; [apply Hp|exact PP]).
  assert (T1 : h / 2 <= t) by (unfold t; rewrite node_eq; fold h; pose proof (pos_INR ia); nra).
  assert (T2 : h / 2 <= PI - t).
  { unfold t. rewrite node_eq. fold h. assert (EP : PI = INR (Na g) * h) by (unfold h; field; lra). rewrite EP at 1.
    assert (INR ia + 1 <= INR (Na g)) by (rewrite <- S_INR; apply le_INR; destruct Hp; lia). nra. }
  destruct Hu as (_ & Par & St & _).
  assert (Par' : forall z y, u z (- y) = 1 * u z y) by auto.
  apply Rabs_le_between in Hs.
  destruct (Rlt_dec t (PI / 2)) as [L|L].
  - assert (C : 0 < cos t) by (apply cos_gt_0; lra). rewrite (Rabs_right (cos t)) by lra.
    assert (D : Rabs (Derive_n (fun t => F t m) 3 s) <= Ma * Rabs s).
    { apply (third_even (fun t => F t m) Ma (Rabs s)); [exact (St m)|intros x; unfold F; rewrite (seen_t0 u g 1 Par'); ring| |lra].
      intros x _. apply (proj1 HM). apply Hp. }
    assert (S3 : Rabs s <= 3 * t) by (apply Rabs_le; lra).
    pose proof (tan_ge t ltac:(lra)) as TG.
    assert (Rabs (Derive_n (fun t => F t m) 3 s) <= Ma * (3 * t)) by (eapply Rle_trans; [exact D|apply Rmult_le_compat_l; lra]).
    apply Rle_trans with (cos t * (Ma * (3 * t))); [apply Rmult_le_compat_l; lra|].
    replace (cos t * (Ma * (3 * t))) with ((3 * Ma) * (t * cos t)) by ring.
    rewrite (Rmult_comm (sin t)). apply Rmult_le_compat_l; lra.
  - assert (D : Rabs (Derive_n (fun t => F t m) 3 s) <= Ma * Rabs (PI - s)).
    { apply (third_pi (fun t => F t m) Ma); [exact (St m)|intros x; unfold F; rewrite (seen_tpi u g 1 Par'); ring|].
      intros x. apply (proj1 HM). apply Hp. }
    assert (S3 : Rabs (PI - s) <= 3 * (PI - t)) by (apply Rabs_le; lra).
    assert (C : Rabs (cos t) = cos (PI - t)).
    { rewrite Rtrigo_facts.cos_pi_minus. apply Rabs_left1. destruct (Rle_lt_or_eq_dec (PI / 2) t ltac:(lra)) as [Q|Q].
      - left. apply cos_lt_0; lra.
      - rewrite <- Q, cos_PI2. lra. }
    assert (TG : (PI - t) * cos (PI - t) <= sin t).
    { rewrite <- Rtrigo_facts.sin_pi_minus. destruct (Rle_lt_or_eq_dec (PI / 2) t ltac:(lra)) as [Q|Q].
      - apply tan_ge. lra.
      - rewrite <- Q. replace (PI - PI / 2) with (PI / 2) by lra. rewrite cos_PI2, sin_PI2. lra. }
    rewrite C. assert (0 <= cos (PI - t)) by (rewrite <- C; apply Rabs_pos).
    assert (Rabs (Derive_n (fun t => F t m) 3 s) <= Ma * (3 * (PI - t))) by (eapply Rle_trans; [exact D|apply Rmult_le_compat_l; lra]).
    apply Rle_trans with (cos (PI - t) * (Ma * (3 * (PI - t)))); [apply Rmult_le_compat_l; lra|].
    replace (cos (PI - t) * (Ma * (3 * (PI - t)))) with ((3 * Ma) * ((PI - t) * cos (PI - t))) by ring.
    rewrite (Rmult_comm (sin t)). apply Rmult_le_compat_l; lra.
Qed.
Lemma radial_third : forall ia ir s, is_point g ia ir -> let m := node (Nr g) (gL g) ir in
  Rabs (s - m) <= gL g / INR (Nr g) ->
  Rabs (Derive_n (fun m => F (node (Na g) PI ia) m) 3 s) <= 3 * Mr * m /\
  Rabs (Derive_n (fun m => F (node (Na g) PI ia) m) 4 s) <= Mr.
Proof using HM Hg Hu.
  intros ia ir s Hp m Hs. set (t := node (Na g) PI ia). set (h := gL g / INR (Nr g)) in *.
  assert (NR : 0 < INR (Nr g)) by apply lt_0_INR, Nr_pos. assert (HL : 0 < gL g) by apply Hg.
  assert (Hh : 0 < h) by (apply dr_pos, HL). pose proof Mr_nonneg as M0.
  assert (T1 : h / 2 <= m) by (unfold m; rewrite node_eq; fold h; pose proof (pos_INR ir); nra).
  assert (T2 : m + h <= outer g).
  { unfold m, outer. rewrite !node_eq. fold h. 
    assert (INR ir + 1 <= INR (Nr g)) by (rewrite <- S_INR; apply le_INR; destruct Hp; lia). nra. }
  destruct Hu as (_ & Par & _ & Sm).
  apply Rabs_le_between in Hs.
  assert (R : Rabs s <= outer g) by (apply Rabs_le; lra). split; [|apply (proj2 HM); [apply Hp|exact R]].
  assert (D : Rabs (Derive_n (fun m => F t m) 3 s) <= Mr * Rabs s).
  { apply (third_even (fun m => F t m) Mr (outer g)); [exact (Sm t)|intros x; unfold F; rewrite (seen_m0 u g 1 Par); ring| |exact R].
    intros x Hx. apply (proj2 HM); [apply Hp|exact Hx]. }
  eapply Rle_trans; [exact D|]. assert (Rabs s <= 3 * m) by (apply Rabs_le; lra). nra.
Qed.

Lemma consistent : forall f out ia ir, is_point g ia ir -> sampled g F f ->
  let t := node (Na g) PI ia in let m := node (Nr g) (gL g) ir in
  out ia 0%nat = F t (outer g) ->
  Rabs (lap_form g 1 1 f out ia ir - gw g (pos g ia ir) * lap_at uy uzz uyy (ga g) t m)
  <= second_order g Ma Mr * (ga g * sin t * sinh m).
Proof using HM Hg Hfd Hu.
  intros f out ia ir Hp Hf t m Ho. destruct (const1 g Hfd) as [K1 K2].
  pose proof Ma_nonneg as A0. pose proof Mr_nonneg as R0.
  assert (Ht : 0 < t < PI) by (apply node_range; [apply Hp|exact PI_RGT_0]).
  assert (HL : 0 < gL g) by apply Hg. assert (Ha : 0 < ga g) by apply Hg.
  assert (Hm : 0 < m < gL g) by (apply (node_range (Nr g) (gL g) ir); [apply Hp|exact HL]).
  assert (St0 : 0 < sin t) by (apply sin_gt_0; lra).
  pose proof (sinh_ge m ltac:(lra)) as S1. pose proof (mcosh_le m ltac:(lra)) as S2. pose proof (cosh_ge_1 m) as C1.
  assert (X : exists B1, Rabs (cos t) * B1 <= sin t * (3 * Ma) /\
    forall s, Rabs (s - t) <= PI / INR (Na g) -> Rabs (Derive_n (fun t => F t m) 3 s) <= B1).
  { destruct (Req_EM_T (cos t) 0) as [Z|Z].
    - exists (Ma * (t + PI / INR (Na g))). rewrite Z, Rabs_R0. split; [rewrite Rmult_0_l; apply Rmult_le_pos; lra|].
      intros s Hs. destruct Hu as (_ & Par & St & _).
      assert (D : Rabs (Derive_n (fun t => F t m) 3 s) <= Ma * Rabs s).
      { apply (third_even (fun t => F t m) Ma (Rabs s)); [exact (St m)|intros x; unfold F; rewrite (seen_t0 u g 1 Par); ring| |lra].
        intros x _. apply (proj1 HM). apply Hp. }
      eapply Rle_trans; [exact D|]. apply Rmult_le_compat_l; [lra|]. apply Rabs_le_between in Hs. apply Rabs_le. lra.
    - assert (P : 0 < Rabs (cos t)) by (apply Rabs_pos_lt; auto). exists (sin t * (3 * Ma) / Rabs (cos t)).
      split; [apply Req_le; field; lra|]. intros s Hs.
      apply Rmult_le_reg_l with (Rabs (cos t)); [exact P|].
      replace (Rabs (cos t) * (sin t * (3 * Ma) / Rabs (cos t))) with (sin t * (3 * Ma)) by (field; lra).
      apply angular_third; auto. }
  destruct X as (B1 & X1 & X2).
  assert (LB : lap_bound g 1 F t m B1 Ma (3 * Mr * m) Mr).
  { split; simpl INR; intros s Hs; rewrite Rmult_1_l in Hs.
    - split; [apply X2, Hs|apply (proj1 HM), Hp].
    - apply radial_third; auto. }
  destruct Hu as (Tw & Par & St & Sm).
  pose proof (lap_form_error_at u uz uy uzz uzy uyy g 1 1 Tw Par Hg Hfd (three_sharp g Hfd) (Na_pos g) (Nr_pos g) St Sm
    f out ia ir B1 Ma (3 * Mr * m) Mr Hp Hf) as E.
  eapply Rle_trans.
  - apply E; [|exact LB]. intros q Hq Hge. replace q with 0%nat in * by lia.
    replace (ir + 0 + 1)%nat with (Nr g) by (destruct Hp; lia). rewrite Nat.sub_diag. exact Ho.
  - unfold lap_error_at. fold t m. change (2 * 1 + 2)%nat with 4%nat. change (2 * 1 + 1)%nat with 3%nat. change (2 * 1)%nat with 2%nat.
    rewrite K1, K2. unfold second_order. set (p := (PI / INR (Na g)) ^ 2). set (q := (gL g / INR (Nr g)) ^ 2).
    assert (P0 : 0 <= p) by apply pow2_ge_0. assert (Q0 : 0 <= q) by apply pow2_ge_0.
    replace ((7 / 12 * Ma * p + (7 / 12 + gL g / 2) * Mr * q) * (ga g * sin t * sinh m))
      with (ga g * (sinh m * (sin t * (7 / 12 * Ma * p)) + sin t * (sinh m * ((7 / 12 + gL g / 2) * Mr * q)))) by ring.
    apply Rmult_le_compat_l; [lra|]. apply Rplus_le_compat.
    + apply Rmult_le_compat_l; [lra|].
      replace (Rabs (cos t) * (1 / 6 * B1 * p)) with (p / 6 * (Rabs (cos t) * B1)) by field.
      assert (p / 6 * (Rabs (cos t) * B1) <= p / 6 * (sin t * (3 * Ma))) by (apply Rmult_le_compat_l; lra). lra.
    + apply Rmult_le_compat_l; [lra|].
      assert (V : Mr * q * (m * cosh m) <= Mr * q * ((1 + gL g) * sinh m)).
      { apply Rmult_le_compat_l; [apply Rmult_le_pos; lra|]. eapply Rle_trans; [exact S2|].
        apply Rmult_le_compat_r; lra. }
      lra.
Qed.
End Consistent.

(** * Convergence *)
Lemma lap_form_ext : forall g f f' out out' ia ir, grid_ok g -> fd_ok g 1 -> is_point g ia ir ->
  (forall k, (k < Nelem g)%nat -> f k = f' k) -> out ia 0%nat = out' ia 0%nat ->
  lap_form g 1 1 f out ia ir = lap_form g 1 1 f' out' ia ir.
Proof.
  intros g f f' out out' ia ir Hg Hfd Hp E Eo. rewrite !lap_form_nb by auto. cbv zeta. destruct Hp as [Ha Hr].
  assert (P : forall ja jr, (ja < Na g)%nat -> (jr < Nr g)%nat -> f (pos g ja jr) = f' (pos g ja jr)).
  { intros. apply E, pos_lt. split; auto. }
  unfold nbE, nbW, nbN, aline, rline. rewrite Eo.
  destruct (Nat.eqb_spec (ia + 1) (Na g)), (Nat.eqb_spec ia 0), (Nat.eqb_spec (ir + 1) (Nr g)), (Nat.eqb_spec ir 0);
    rewrite !P by lia; reflexivity.
Qed.

Lemma hartree_converges : forall g spL spU L U (n : nat -> nat -> R) cols v u uz uy uzz uzy uyy Ma Mr delta,
  grid_ok g -> fd_ok g 1 -> gL g / INR (Nr g) <= 1 ->
  solver_for (Nelem g) L spL -> solver_for (Nelem g) U spU ->
  (forall i j, (i < Nelem g)%nat -> (j < Nelem g)%nat -> matmul (Nelem g) L U i j = elap g i j) ->
  v_hartree g spL spU (A2 cols n) = Ok v ->
  let tot := fun k => sumR cols (fun s => n k s) in
  fits g 1 1 u uz uy uzz uzy uyy -> fourth g (seen u (ga g)) Ma Mr ->
  (forall ia ir, is_point g ia ir ->
     lap_at uy uzz uyy (ga g) (node (Na g) PI ia) (node (Nr g) (gL g) ir) = - 4 * PI * tot (pos g ia ir)) ->
  (forall ia, (ia < Na g)%nat ->
     Rabs (multipole g tot (ghostZ g ia 0) (ghostY g ia 0) - u (ghostZ g ia 0) (ghostY g ia 0)) <= delta) ->
  forall ia ir, is_point g ia ir -> let t := node (Na g) PI ia in let m := node (Nr g) (gL g) ir in
  Rabs (entry v (pos g ia ir) 0 - seen u (ga g) t m) <= delta + second_order g Ma Mr * (outer g ^ 2 - m ^ 2) / 4.
Proof.
  intros g spL spU L U n cols v u uz uy uzz uzy uyy Ma Mr delta Hg Hfd Hh HL HU HLU EV tot Hu HM HP HB ia ir Hp t m.
  assert (N1 : (1 <= Na g)%nat) by apply Na_pos. assert (N2 : (1 <= Nr g)%nat) by apply Nr_pos.
  pose proof (hartree_poisson g spL spU L U 1 n cols v Hg Hfd N1 N2 HL HU HLU EV) as P. cbv zeta in P. fold tot in P.
  set (F := seen u (ga g)). set (V := fun k => F (t_at g k) (m_at g k)).
  assert (SV : sampled g F V).
  { intros ja jr H. unfold V, t_at, m_at. rewrite pos_mod, pos_div by apply H. reflexivity. }
  set (oV := fun (i q : nat) => F (node (Na g) PI i) (node (Nr g) (gL g) (Nr g + q))).
  set (oM := fun i q => multipole g tot (ghostZ g i q) (ghostY g i q)).
  assert (M0 : 0 <= second_order g Ma Mr).
  { pose proof (Ma_nonneg u g Ma Mr HM). pose proof (Mr_nonneg u g Ma Mr Hg HM). assert (0 < gL g) by apply Hg.
    unfold second_order. apply Rplus_le_le_0_compat; (apply Rmult_le_pos; [apply Rmult_le_pos; lra|apply pow2_ge_0]). }
  pose proof (stable g Hg Hfd Hh (fun k => entry v k 0 + (-1) * V k) (fun i q => oM i q + (-1) * oV i q)
    (second_order g Ma Mr) delta M0) as ST.
  assert (EM : m = m_at g (pos g ia ir)) by (rewrite m_at_pos by auto; reflexivity).
  replace (entry v (pos g ia ir) 0 - F t m) with (entry v (pos g ia ir) 0 + (-1) * V (pos g ia ir)) by (rewrite SV by auto; unfold t, m; ring).
  rewrite EM. apply ST; [| |apply pos_lt; auto].
  - intros ja Hja. unfold oM, oV. rewrite Nat.add_0_r.
    replace (multipole g tot (ghostZ g ja 0) (ghostY g ja 0) + -1 * F (node (Na g) PI ja) (node (Nr g) (gL g) (Nr g)))
      with (multipole g tot (ghostZ g ja 0) (ghostY g ja 0) - u (ghostZ g ja 0) (ghostY g ja 0)); [apply HB, Hja|].
    unfold F, seen, pz, py, ghostZ, ghostY. rewrite Nat.add_0_r. ring.
  - intros ja jr Hj. rewrite lap_form_comb by auto. unfold oM. rewrite P by auto.
    pose proof (consistent u uz uy uzz uzy uyy g Ma Mr Hg Hfd Hu HM V oV ja jr Hj SV) as C. cbv zeta in C.
    rewrite HP in C by auto.
    match goal with |- Rabs ?x <= _ =>
      replace x with (- (lap_form g 1 1 V oV ja jr - gw g (pos g ja jr) * (- 4 * PI * tot (pos g ja jr)))) by (unfold tot; ring) end.
    rewrite Rabs_Ropp. apply C. unfold oV. rewrite Nat.add_0_r. reflexivity.
Qed.

(** The weight times a bounded source, relative to a sin t sinh m. *)
Lemma source_bound : forall g ia ir x N, grid_ok g -> is_point g ia ir -> Rabs x <= N ->
  Rabs (- 4 * PI * gw g (pos g ia ir) * x)
  <= 4 * PI * (ga g * cosh (gL g)) ^ 2 * N * (ga g * sin (node (Na g) PI ia) * sinh (node (Nr g) (gL g) ir)).
Proof.
  intros g ja jr x N Hg Hj HN. set (k := pos g ja jr). set (t := node (Na g) PI ja). set (mu := node (Nr g) (gL g) jr).
  assert (Hk : (k < Nelem g)%nat) by (apply pos_lt; auto). pose proof PI_RGT_0 as PP.
  assert (W : gw g k = ga g ^ 3 * sin t * sinh mu * (sin t ^ 2 + sinh mu ^ 2)).
  { unfold k. destruct Hj. rewrite gw_val, !Xa_pos, !Xr_pos, xa_node, xr_node by (try split; auto; apply pos_lt; split; auto). reflexivity. }
  assert (Ha : 0 < ga g) by apply Hg. assert (S0 : 0 < sin t) by (apply snP, Hj).
  assert (Hm : 0 < mu < gL g) by (apply node_range; [apply Hj|apply Hg]).
  assert (M0 : 0 < sinh mu) by (apply sinh_pos; lra).
  pose proof (gw_pos g k Hg Hk) as W0.
  rewrite !Rabs_mult, (Rabs_right (gw g k)), (Rabs_right PI), (Rabs_left (- 4)) by lra.
  assert (CB : sin t ^ 2 + sinh mu ^ 2 <= cosh (gL g) ^ 2).
  { pose proof (cosh2_sinh2 mu). pose proof (SIN_bound t). assert (sin t ^ 2 <= 1) by (simpl; nra).
    assert (cosh mu <= cosh (gL g)).
    { destruct (MVT_cor2 cosh sinh mu (gL g) ltac:(lra)) as (c & E & Hc).
      - intros c _. apply is_derive_Reals, is_derive_cosh.
      - assert (0 < sinh c) by (apply sinh_pos; lra). nra. }
    pose proof (cosh_ge_1 mu). assert (cosh mu ^ 2 <= cosh (gL g) ^ 2) by (apply pow_incr; lra). lra. }
  assert (W1 : gw g k <= (ga g * cosh (gL g)) ^ 2 * (ga g * sin t * sinh mu)).
  { rewrite W.
    replace ((ga g * cosh (gL g)) ^ 2 * (ga g * sin t * sinh mu)) with (ga g ^ 3 * sin t * sinh mu * cosh (gL g) ^ 2) by ring.
    apply Rmult_le_compat_l; [|exact CB]. repeat apply Rmult_le_pos; lra. }
  pose proof (Rabs_pos x) as T0.
  assert (gw g k * Rabs x <= (ga g * cosh (gL g)) ^ 2 * (ga g * sin t * sinh mu) * N).
  { apply Rmult_le_compat; lra. }
  replace (4 * PI * (ga g * cosh (gL g)) ^ 2 * N * (ga g * sin t * sinh mu))
    with (4 * PI * ((ga g * cosh (gL g)) ^ 2 * (ga g * sin t * sinh mu) * N)) by ring.
  replace (- - 4 * PI * gw g k * Rabs x) with (4 * PI * (gw g k * Rabs x)) by ring.
  apply Rmult_le_compat_l; lra.
Qed.

(** Densities that are close have potentials that are close. *)
Lemma hartree_close : forall g spL spU L U (n n' : nat -> nat -> R) cols cols' v v' N delta,
  grid_ok g -> fd_ok g 1 -> gL g / INR (Nr g) <= 1 ->
  solver_for (Nelem g) L spL -> solver_for (Nelem g) U spU ->
  (forall i j, (i < Nelem g)%nat -> (j < Nelem g)%nat -> matmul (Nelem g) L U i j = elap g i j) ->
  v_hartree g spL spU (A2 cols n) = Ok v -> v_hartree g spL spU (A2 cols' n') = Ok v' ->
  let tot := fun k => sumR cols (fun s => n k s) in let tot' := fun k => sumR cols' (fun s => n' k s) in
  (forall k, (k < Nelem g)%nat -> Rabs (tot k - tot' k) <= N) ->
  (forall ia, (ia < Na g)%nat ->
     Rabs (multipole g tot (ghostZ g ia 0) (ghostY g ia 0) - multipole g tot' (ghostZ g ia 0) (ghostY g ia 0)) <= delta) ->
  forall ia ir, is_point g ia ir -> let m := node (Nr g) (gL g) ir in
  Rabs (entry v (pos g ia ir) 0 - entry v' (pos g ia ir) 0)
  <= delta + PI * (ga g * cosh (gL g)) ^ 2 * N * (outer g ^ 2 - m ^ 2).
Proof.
  intros g spL spU L U n n' cols cols' v v' N delta Hg Hfd Hh HL HU HLU EV EV' tot tot' HN HB ia ir Hp m.
  assert (N1 : (1 <= Na g)%nat) by apply Na_pos. assert (N2 : (1 <= Nr g)%nat) by apply Nr_pos.
  pose proof (hartree_poisson g spL spU L U 1 n cols v Hg Hfd N1 N2 HL HU HLU EV) as P. cbv zeta in P. fold tot in P.
  pose proof (hartree_poisson g spL spU L U 1 n' cols' v' Hg Hfd N1 N2 HL HU HLU EV') as P'. cbv zeta in P'. fold tot' in P'.
  assert (N0 : 0 <= N) by (eapply Rle_trans; [apply Rabs_pos|apply (HN _ (pos_lt g ia ir Hp))]). pose proof PI_RGT_0 as PP.
  pose proof (stable g Hg Hfd Hh (fun k => entry v k 0 + (-1) * entry v' k 0)
    (fun i q => multipole g tot (ghostZ g i q) (ghostY g i q) + (-1) * multipole g tot' (ghostZ g i q) (ghostY g i q))
    (4 * PI * (ga g * cosh (gL g)) ^ 2 * N) delta) as ST.
  assert (EM : m = m_at g (pos g ia ir)) by (rewrite m_at_pos by auto; reflexivity). rewrite EM.
  replace (delta + PI * (ga g * cosh (gL g)) ^ 2 * N * (outer g ^ 2 - m_at g (pos g ia ir) ^ 2))
    with (delta + 4 * PI * (ga g * cosh (gL g)) ^ 2 * N * (outer g ^ 2 - m_at g (pos g ia ir) ^ 2) / 4) by field.
  replace (entry v (pos g ia ir) 0 - entry v' (pos g ia ir) 0) with (entry v (pos g ia ir) 0 + (-1) * entry v' (pos g ia ir) 0) by ring.
  apply ST; [| | |apply pos_lt; auto].
  - apply Rmult_le_pos; [apply Rmult_le_pos; [lra|apply pow2_ge_0]|lra].
  - intros ja Hja. match goal with |- Rabs ?x <= _ =>
      replace x with (multipole g tot (ghostZ g ja 0) (ghostY g ja 0) - multipole g tot' (ghostZ g ja 0) (ghostY g ja 0)) by ring end. apply HB, Hja.
  - intros ja jr Hj. rewrite lap_form_comb by auto. rewrite P, P' by auto.
    match goal with |- Rabs ?x <= _ => replace x with (- 4 * PI * gw g (pos g ja jr) * (tot (pos g ja jr) - tot' (pos g ja jr))) by (unfold tot, tot'; ring) end.
    apply source_bound; auto. apply HN, pos_lt, Hj.
Qed.
Lemma hartree_bound : forall g spL spU L U (n : nat -> nat -> R) cols v N delta,
  grid_ok g -> fd_ok g 1 -> gL g / INR (Nr g) <= 1 ->
  solver_for (Nelem g) L spL -> solver_for (Nelem g) U spU ->
  (forall i j, (i < Nelem g)%nat -> (j < Nelem g)%nat -> matmul (Nelem g) L U i j = elap g i j) ->
  v_hartree g spL spU (A2 cols n) = Ok v ->
  let tot := fun k => sumR cols (fun s => n k s) in
  (forall k, (k < Nelem g)%nat -> Rabs (tot k) <= N) ->
  (forall ia, (ia < Na g)%nat -> Rabs (multipole g tot (ghostZ g ia 0) (ghostY g ia 0)) <= delta) ->
  forall ia ir, is_point g ia ir -> let m := node (Nr g) (gL g) ir in
  Rabs (entry v (pos g ia ir) 0) <= delta + PI * (ga g * cosh (gL g)) ^ 2 * N * (outer g ^ 2 - m ^ 2).
Proof.
  intros g spL spU L U n cols v N delta Hg Hfd Hh HL HU HLU EV tot HN HB ia ir Hp m.
  assert (N1 : (1 <= Na g)%nat) by apply Na_pos. assert (N2 : (1 <= Nr g)%nat) by apply Nr_pos.
  pose proof (hartree_poisson g spL spU L U 1 n cols v Hg Hfd N1 N2 HL HU HLU EV) as P. cbv zeta in P. fold tot in P.
  assert (N0 : 0 <= N) by (eapply Rle_trans; [apply Rabs_pos|apply (HN _ (pos_lt g ia ir Hp))]). pose proof PI_RGT_0 as PP.
  pose proof (stable g Hg Hfd Hh (fun k => entry v k 0) (fun i q => multipole g tot (ghostZ g i q) (ghostY g i q))
    (4 * PI * (ga g * cosh (gL g)) ^ 2 * N) delta) as ST.
  assert (EM : m = m_at g (pos g ia ir)) by (rewrite m_at_pos by auto; reflexivity). rewrite EM.
  replace (delta + PI * (ga g * cosh (gL g)) ^ 2 * N * (outer g ^ 2 - m_at g (pos g ia ir) ^ 2))
    with (delta + 4 * PI * (ga g * cosh (gL g)) ^ 2 * N * (outer g ^ 2 - m_at g (pos g ia ir) ^ 2) / 4) by field.
  apply ST; [|exact HB| |apply pos_lt; auto].
  - apply Rmult_le_pos; [apply Rmult_le_pos; [lra|apply pow2_ge_0]|lra].
  - intros ja jr Hj. rewrite P by auto. apply source_bound; auto. apply (HN _ (pos_lt g ja jr Hj)).
Qed.

(** The error bound in terms of the number of points. *)
Lemma refinement : forall g Ma Mr m N, grid_ok g -> gL g / INR (Nr g) <= 1 -> 0 <= Ma -> 0 <= Mr ->
  (0 < N)%nat -> (N <= Na g)%nat -> (N <= Nr g)%nat ->
  second_order g Ma Mr * (outer g ^ 2 - m ^ 2) / 4
  <= (7 / 12 * Ma * PI ^ 2 + (7 / 12 + gL g / 2) * Mr * gL g ^ 2) * (gL g + 1) ^ 2 / 4 / INR N ^ 2.
Proof.
  intros g Ma Mr m N Hg Hh HA HR HN N1 N2. assert (HL : 0 < gL g) by apply Hg. pose proof PI_RGT_0 as PP.
  assert (P : 0 < INR N) by (apply lt_0_INR; auto).
  assert (Q : forall c M, 0 < c -> (N <= M)%nat -> (c / INR M) ^ 2 <= c ^ 2 / INR N ^ 2).
  { intros c M Hc HM. apply le_INR in HM. unfold Rdiv. rewrite Rpow_mult_distr.
    apply Rmult_le_compat_l; [apply pow2_ge_0|]. rewrite <- pow_inv.
    apply pow_incr. split; [left; apply Rinv_0_lt_compat; lra|apply Rinv_le_contravar; lra]. }
  assert (E : second_order g Ma Mr <= (7 / 12 * Ma * PI ^ 2 + (7 / 12 + gL g / 2) * Mr * gL g ^ 2) / INR N ^ 2).
  { unfold second_order. replace ((7 / 12 * Ma * PI ^ 2 + (7 / 12 + gL g / 2) * Mr * gL g ^ 2) / INR N ^ 2)
      with (7 / 12 * Ma * (PI ^ 2 / INR N ^ 2) + (7 / 12 + gL g / 2) * Mr * (gL g ^ 2 / INR N ^ 2)) by (field; lra).
    apply Rplus_le_compat; apply Rmult_le_compat_l; auto; apply Rmult_le_pos; lra. }
  assert (E0 : 0 <= second_order g Ma Mr).
  { unfold second_order. apply Rplus_le_le_0_compat; (apply Rmult_le_pos; [apply Rmult_le_pos; lra|apply pow2_ge_0]). }
  assert (O : 0 <= outer g <= gL g + 1).
  { unfold outer. rewrite node_eq. assert (0 < INR (Nr g)) by apply lt_0_INR, Nr_pos.
    replace ((INR (Nr g) + 1 / 2) * (gL g / INR (Nr g))) with (gL g + gL g / INR (Nr g) / 2) by (field; lra).
    assert (0 < gL g / INR (Nr g)) by (apply Rdiv_lt_0_compat; lra). lra. }
  assert (O2 : outer g ^ 2 - m ^ 2 <= (gL g + 1) ^ 2).
  { pose proof (pow2_ge_0 m). assert (outer g ^ 2 <= (gL g + 1) ^ 2) by (apply pow_incr; lra). lra. }
  replace ((7 / 12 * Ma * PI ^ 2 + (7 / 12 + gL g / 2) * Mr * gL g ^ 2) * (gL g + 1) ^ 2 / 4 / INR N ^ 2)
    with ((7 / 12 * Ma * PI ^ 2 + (7 / 12 + gL g / 2) * Mr * gL g ^ 2) / INR N ^ 2 * (gL g + 1) ^ 2 / 4) by (field; lra).
  unfold Rdiv at 1 4. apply Rmult_le_compat_r; [lra|].
  apply Rle_trans with (second_order g Ma Mr * (gL g + 1) ^ 2); [apply Rmult_le_compat_l; auto|].
  apply Rmult_le_compat_r; [apply pow2_ge_0|exact E].
Qed.
