(** Properties C101-C105: accuracy of the discretisation on smooth functions. *)
From Coq Require Import Reals List Lia Lra ZArith.
From Coquelicot Require Import Coquelicot.
From Verif Require Import Base BaseLemmas GridModel Poly GridSpec GridProofs FDProofs OpProofs LapCont GridWitness
  NCProofs GridMore SolverModel Accuracy AccuracyOp AccuracyWit AccuracyInt AccuracyIntWit.
Import ListNotations.
Local Open Scope R_scope.
Local Opaque sinh cosh.

(** * C101 *)
(** First and second derivative matrices, angular direction: error of order 2b in the step on functions of
    the parity the matrix is built for. *)
Theorem C101_angular : forall (g : grid) b (f : R -> R) p M1 M2 sg,
  fd_ok g b -> sharp g b -> (b <= Na g)%nat -> (p < Na g)%nat -> sg = 1 \/ sg = -1 ->
  let h := PI / INR (Na g) in let t := node (Na g) PI p in let v := fun i => f (node (Na g) PI i) in
  (forall s, f (- s) = sg * f s) -> (forall s, f (2 * PI - s) = sg * f s) -> smooth (2 * b + 2) f ->
  (forall s, Rabs (s - t) <= INR b * h -> Rabs (Derive_n f (2 * b + 1) s) <= M1 /\ Rabs (Derive_n f (2 * b + 2) s) <= M2) ->
  let Da1 := if Req_EM_T sg 1 then eDa1 g else oDa1 g in let Da2 := if Req_EM_T sg 1 then eDa2 g else oDa2 g in
  Rabs (matvec (Na g) Da1 v p - Derive f t) <= fd_const b (2 * b + 1) (d1 g) * M1 * h ^ (2 * b) /\
  Rabs (matvec (Na g) Da2 v p - Derive_n f 2 t) <= fd_const b (2 * b + 2) (d2 g) * M2 * h ^ (2 * b).
Proof.
  intros g b f p M1 M2 sg Hg (U1 & U2) Hb Hp Hsg h t v P0 P1 Sf B Da1 Da2. split.
  - apply (angular1 g b f p M1 Hg Hb Hp sg); auto.
    + unfold Da1. destruct (Req_EM_T sg 1) as [->|N]; [apply eDa1_apply; auto|].
      destruct Hsg as [->| ->]; [lra|apply oDa1_apply; auto].
    + apply (smooth_le (2 * b + 2)); [lia|auto].
    + intros s Hs. apply (B s Hs).
  - apply (angular2 g b f p M2 Hg Hb Hp sg); auto.
    + unfold Da2. destruct (Req_EM_T sg 1) as [->|N]; [apply eDa2_apply; auto|].
      destruct Hsg as [->| ->]; [lra|apply oDa2_apply; auto].
    + intros s Hs. apply (B s Hs).
Qed.
Print Assumptions C101_angular.
(** Radial direction: the same with the boundary matrices acting on the values beyond the outer end. *)
Theorem C101_radial : forall (g : grid) b (f : R -> R) p M1 M2 sg out,
  fd_ok g b -> sharp g b -> (b <= Nr g)%nat -> (p < Nr g)%nat -> 0 < gL g -> sg = 1 \/ sg = -1 ->
  let h := gL g / INR (Nr g) in let t := node (Nr g) (gL g) p in let v := fun i => f (node (Nr g) (gL g) i) in
  (forall s, f (- s) = sg * f s) -> (forall q, (q < b)%nat -> out q = f (node (Nr g) (gL g) (Nr g + q)%nat)) ->
  smooth (2 * b + 2) f ->
  (forall s, Rabs (s - t) <= INR b * h -> Rabs (Derive_n f (2 * b + 1) s) <= M1 /\ Rabs (Derive_n f (2 * b + 2) s) <= M2) ->
  let Dr1 := if Req_EM_T sg 1 then eDr1 g else oDr1 g in let Dr2 := if Req_EM_T sg 1 then eDr2 g else oDr2 g in
  let beyond Bm := if (Nr g - b <=? p)%nat then matvec b Bm out (p - (Nr g - b))%nat else 0 in
  Rabs (matvec (Nr g) Dr1 v p + beyond (bc1 g) - Derive f t) <= fd_const b (2 * b + 1) (d1 g) * M1 * h ^ (2 * b) /\
  Rabs (matvec (Nr g) Dr2 v p + beyond (bc2 g) - Derive_n f 2 t) <= fd_const b (2 * b + 2) (d2 g) * M2 * h ^ (2 * b).
Proof.
  intros g b f p M1 M2 sg out Hg (U1 & U2) Hb Hp HL Hsg h t v P0 P1 Sf B Dr1 Dr2 beyond.
  assert (G : forall q, (q < b)%nat -> (Nr g <= p + q + 1)%nat -> out (p + q + 1 - Nr g)%nat = f (node (Nr g) (gL g) (p + q + 1)%nat)).
  { intros q Hq Hge. rewrite P1 by lia. f_equal. f_equal. lia. }
  assert (E : matvec (Nr g) Dr1 v p + beyond (bc1 g) = stencil b (d1 g) (reflect_inner (Nr g) sg v out) p / h /\
              matvec (Nr g) Dr2 v p + beyond (bc2 g) = stencil b (d2 g) (reflect_inner (Nr g) sg v out) p / h ^ 2).
  { unfold h, Dr1, Dr2, beyond. rewrite <- hr_val.
    destruct (Req_EM_T sg 1) as [->|N].
    - rewrite (eDr1_apply g b), (eDr2_apply g b) by auto. split; [apply ghost_rows1|apply ghost_rows2]; auto.
    - destruct Hsg as [->| ->]; [lra|].
      rewrite (oDr1_apply g b), (oDr2_apply g b) by auto. split; [apply ghost_rows1|apply ghost_rows2]; auto. }
  destruct E as [E1 E2]. split.
  - apply (radial1 g b f p M1 out Hg Hb Hp HL sg); auto.
    + apply (smooth_le (2 * b + 2)); [lia|auto].
    + intros s Hs. apply (B s Hs).
  - apply (radial2 g b f p M2 out Hg Hb Hp HL sg); auto. intros s Hs. apply (B s Hs).
Qed.
Print Assumptions C101_radial.
(** The constants do not depend on the step: for the nine-point stencil they are below 1/100 and 1/500, and no
    coefficient is lost to the cut-off. *)
Theorem C101_nine_point : forall (g : grid), fd_ok g 4 ->
  sharp g 4 /\ fd_const 4 9 (d1 g) < 1 / 100 /\ fd_const 4 10 (d2 g) < 1 / 500 /\
  forall j, (j < 9)%nat ->
    d1 g j = nth j [1/280; -4/105; 1/5; -4/5; 0; 4/5; -1/5; 4/105; -1/280] 0 /\
    d2 g j = nth j [-1/560; 8/315; -1/5; 8/5; -205/72; 8/5; -1/5; 8/315; -1/560] 0.
Proof.
  intros g H. split; [exact (nine_sharp g H)|]. destruct (nine_const g H) as [A B]. split; [exact A|]. split; [exact B|].
  exact (nine_coef g H).
Qed.
Print Assumptions C101_nine_point.
(** cos (even) and sin (odd) meet the hypotheses on the angular line with bound 1, cosh and sinh on the radial one. *)
Lemma C101_witness : fd_ok g_test 4 /\ sharp g_test 4 /\ (4 <= Na g_test)%nat /\ (4 <= Nr g_test)%nat /\ 0 < gL g_test /\
  (forall s, cos (- s) = 1 * cos s) /\ (forall s, cos (2 * PI - s) = 1 * cos s) /\ smooth 10 cos /\
  (forall k s, Rabs (Derive_n cos k s) <= 1) /\
  (forall s, sinh (- s) = -1 * sinh s) /\ smooth 10 sinh /\
  (forall k s, Rabs (Derive_n sinh k s) <= exp (Rabs s)).
Proof.
  assert (C : forall t, trig 1 0 t = cos t) by (intros; unfold trig; ring).
  assert (H : forall t, hyp 0 1 t = sinh t) by (intros; unfold hyp; ring).
  destruct fine_test as ((_ & _ & _ & _ & HL) & F & Sh & A & B).
  split; [exact F|]. split; [exact Sh|]. split; [exact A|]. split; [exact B|]. split; [exact HL|].
  split; [intros; rewrite cos_neg; ring|]. split.
  { intros s. replace (2 * PI - s) with (- s + 2 * INR 1 * PI) by (simpl; ring). rewrite cos_period, cos_neg. ring. }
  split; [apply (smooth_ext _ _ _ C), smooth_trig|]. split.
  { intros k s. rewrite <- (Derive_n_ext _ _ k s C). eapply Rle_trans; [apply trig_bound|]. rewrite Rabs_R1, Rabs_R0. lra. }
  split; [|split; [apply (smooth_ext _ _ _ H), smooth_hyp|]].
  { intros s. Local Transparent sinh. unfold sinh. rewrite Ropp_involutive. lra. }
  intros k s. rewrite <- (Derive_n_ext _ _ k s H). eapply Rle_trans; [apply hyp_bound|]. rewrite Rabs_R1, Rabs_R0. lra.
Qed.
Local Opaque sinh.

(** * C102 *)
(** elap on the grid plus blap on the values beyond the outer boundary is w times the Laplacian of the sampled
    function, up to an error of order 2b in both steps. *)
Theorem C102_laplacian_with_boundary : forall g b u uz uy uzz uzy uyy f out ia ir Ma1 Ma2 Mr1 Mr2,
  fine g b -> fits g b 1 u uz uy uzz uzy uyy -> sampled g (seen u (ga g)) f -> is_point g ia ir ->
  let t := node (Na g) PI ia in let m := node (Nr g) (gL g) ir in
  (forall q, (q < b)%nat -> out (ia + Na g * q)%nat = seen u (ga g) t (node (Nr g) (gL g) (Nr g + q)%nat)) ->
  lap_bound g b (seen u (ga g)) t m Ma1 Ma2 Mr1 Mr2 ->
  Rabs (gapply g (elap g) f (pos g ia ir)
        + (if (Nr g - b <=? ir)%nat then matvec (Na g * b) (blap g) out (ia + Na g * (ir - (Nr g - b)))%nat else 0)
        - gw g (pos g ia ir) * lap_at uy uzz uyy (ga g) t m) <= lap_error g b m Ma1 Ma2 Mr1 Mr2.
Proof. exact elap_blap_error. Qed.
Print Assumptions C102_laplacian_with_boundary.
(** elap (even functions) and olap (odd functions) alone, where the function vanishes beyond the outer boundary or
    the row does not reach it. *)
Theorem C102_laplacian : forall g b sg u uz uy uzz uzy uyy f ia ir Ma1 Ma2 Mr1 Mr2, sg = 1 \/ sg = -1 ->
  fine g b -> fits g b sg u uz uy uzz uzy uyy -> sampled g (seen u (ga g)) f -> is_point g ia ir ->
  let t := node (Na g) PI ia in let m := node (Nr g) (gL g) ir in
  (forall q, (q < b)%nat -> (Nr g <= ir + q + 1)%nat -> seen u (ga g) t (node (Nr g) (gL g) (ir + q + 1)%nat) = 0) ->
  lap_bound g b (seen u (ga g)) t m Ma1 Ma2 Mr1 Mr2 ->
  Rabs (gapply g (lap_of g sg) f (pos g ia ir) - gw g (pos g ia ir) * lap_at uy uzz uyy (ga g) t m)
  <= lap_error g b m Ma1 Ma2 Mr1 Mr2.
Proof. exact lap_error_inner. Qed.
Print Assumptions C102_laplacian.
Lemma C102_witness : fine g_test 4 /\
  fits g_test 4 1 (fun z _ => z) (fun _ _ => 1) (fun _ _ => 0) (fun _ _ => 0) (fun _ _ => 0) (fun _ _ => 0) /\
  fits g_test 4 (-1) (fun _ y => y) (fun _ _ => 0) (fun _ _ => 1) (fun _ _ => 0) (fun _ _ => 0) (fun _ _ => 0) /\
  is_point g_test 3 5 /\ (forall q, (q < 4)%nat -> ~ (Nr g_test <= 5 + q + 1)%nat) /\
  (exists f, sampled g_test (seen (fun _ y => y) (ga g_test)) f) /\
  (forall t m, exists Ma Mr, lap_bound g_test 4 (seen (fun z _ => z) (ga g_test)) t m Ma Ma Mr Mr) /\
  (forall t m, exists Ma Mr, lap_bound g_test 4 (seen (fun _ y => y) (ga g_test)) t m Ma Ma Mr Mr).
Proof.
  destruct g_test_sizes as (A & B & _).
  split; [exact fine_test|]. split; [apply fits_z|]. split; [apply fits_y|].
  split; [split; rewrite ?A, ?B; lia|]. split; [intros q Hq; rewrite B; lia|].
  split; [eexists; apply sampled_any|]. split; [apply bound_z|apply bound_y].
Qed.

(** * C103 *)
(** H0 applied to the profile of an orbital u e^(i m phi) is w times -1/2 of the Laplacian of the orbital. *)
Theorem C103_hamiltonian : forall g b (mz : Z) u uz uy uzz uzy uyy f ia ir Ma1 Ma2 Mr1 Mr2,
  let sg := if (mz mod 2 =? 0)%Z then 1 else -1 in
  fine g b -> fits g b sg u uz uy uzz uzy uyy -> sampled g (seen u (ga g)) f -> is_point g ia ir ->
  let t := node (Na g) PI ia in let m := node (Nr g) (gL g) ir in
  (forall q, (q < b)%nat -> (Nr g <= ir + q + 1)%nat -> seen u (ga g) t (node (Nr g) (gL g) (ir + q + 1)%nat) = 0) ->
  lap_bound g b (seen u (ga g)) t m Ma1 Ma2 Mr1 Mr2 ->
  let y := py (ga g) t m in
  Rabs (gapply g (hamiltonian g mz) f (pos g ia ir)
        - gw g (pos g ia ir) * (- (1 / 2) * (lap_at uy uzz uyy (ga g) t m - IZR mz ^ 2 / y ^ 2 * seen u (ga g) t m)))
  <= 1 / 2 * lap_error g b m Ma1 Ma2 Mr1 Mr2.
Proof. exact hamiltonian_error. Qed.
Print Assumptions C103_hamiltonian.
(** An orbital that solves the Schroedinger equation at a grid point solves the row of the discrete eigenvalue
    problem (H0 + W v) f = e W f up to that error. *)
Theorem C103_orbital_residual : forall g b (mz : Z) u uz uy uzz uzy uyy f ia ir Ma1 Ma2 Mr1 Mr2 v e,
  let sg := if (mz mod 2 =? 0)%Z then 1 else -1 in
  fine g b -> fits g b sg u uz uy uzz uzy uyy -> sampled g (seen u (ga g)) f -> is_point g ia ir ->
  let t := node (Na g) PI ia in let m := node (Nr g) (gL g) ir in
  (forall q, (q < b)%nat -> (Nr g <= ir + q + 1)%nat -> seen u (ga g) t (node (Nr g) (gL g) (ir + q + 1)%nat) = 0) ->
  lap_bound g b (seen u (ga g)) t m Ma1 Ma2 Mr1 Mr2 ->
  let y := py (ga g) t m in
  - (1 / 2) * (lap_at uy uzz uyy (ga g) t m - IZR mz ^ 2 / y ^ 2 * seen u (ga g) t m) + v * seen u (ga g) t m = e * seen u (ga g) t m ->
  let k := pos g ia ir in
  Rabs (gapply g (hamiltonian g mz) f k + gw g k * v * f k - e * (gw g k * f k)) <= 1 / 2 * lap_error g b m Ma1 Ma2 Mr1 Mr2.
Proof. exact eigen_residual. Qed.
Print Assumptions C103_orbital_residual.
(** y e^(i phi) is harmonic: it solves the equation with v = e for every value e. *)
Lemma C103_witness : fine g_test 4 /\ (1 mod 2 =? 0)%Z = false /\
  fits g_test 4 (-1) (fun _ y => y) (fun _ _ => 0) (fun _ _ => 1) (fun _ _ => 0) (fun _ _ => 0) (fun _ _ => 0) /\
  (exists f, sampled g_test (seen (fun _ y => y) (ga g_test)) f) /\ is_point g_test 3 5 /\
  forall e, let t := node (Na g_test) PI 3 in let m := node (Nr g_test) (gL g_test) 5 in
  let y := py (ga g_test) t m in let u := seen (fun _ y => y) (ga g_test) t m in
  - (1 / 2) * (lap_at (fun _ _ => 1) (fun _ _ => 0) (fun _ _ => 0) (ga g_test) t m - IZR 1 ^ 2 / y ^ 2 * u) + e * u = e * u.
Proof.
  destruct g_test_sizes as (A & B & _).
  split; [exact fine_test|]. split; [reflexivity|]. split; [apply fits_y|]. split; [eexists; apply sampled_any|].
  split; [split; rewrite ?A, ?B; lia|]. intros e t m y u.
  assert (Y : y <> 0).
  { pose proof fine_test as ((_ & _ & _ & Ha & HL) & _).
    assert (0 < t < PI) by (unfold t, node; rewrite A; pose proof PI_RGT_0; simpl; lra).
    assert (0 < m) by (unfold m, node; rewrite B; simpl INR; lra).
    unfold y, py. pose proof (sin_pos_0PI t ltac:(auto)). pose proof (sinh_pos m ltac:(auto)).
    apply Rgt_not_eq. apply Rmult_lt_0_compat; [apply Rmult_lt_0_compat|]; auto. }
  unfold lap_at, u, seen. fold y. simpl. field. exact Y.
Qed.

(** * C104 *)
(** The composite weights of NC with step h on [0, len]: error of order N in h on functions with N derivatives,
    plus the weight of the two end points that the grid does not contain. *)
Theorem C104_quadrature : forall N Nm w sol1 len f M, (2 <= N)%nat -> (2 * (N - 1) <= nc_NP N Nm)%nat -> 0 < len ->
  solves N nc_A (nc_b N) w -> solves N nc_A1 nc_b1 sol1 -> smooth N f ->
  (forall s, 0 <= s <= len -> Rabs (Derive_n f N s) <= M) ->
  let n := nc_NP N Nm in let h := len / INR n in
  Rabs (h * sumR n (fun i => nc_weights N Nm w sol1 i * f (node n len i)) - RInt f 0 len)
  <= quad_error N Nm w sol1 len M + h * Rabs (sol1 0%nat) * (Rabs (f 0) + Rabs (f len)).
Proof. exact node_error. Qed.
Print Assumptions C104_quadrature.
(** The sizes of the weights add up to a bounded multiple of the number of blocks: no cancellation builds up. *)
Theorem C104_weight_sizes : forall N Nm w sol1, (2 <= N)%nat -> (2 * (N - 1) <= nc_NP N Nm)%nat ->
  sumR (nc_NP N Nm) (fun i => Rabs (nc_weights N Nm w sol1 i))
  <= INR Nm * sumR N (fun j => Rabs (w j)) + 2 * sumR (N - 1) (fun j => Rabs (nc_w1 sol1 j)).
Proof. exact weights_abs. Qed.
Print Assumptions C104_weight_sizes.
Lemma C104_witness : (2 <= gNP g_test)%nat /\ (2 * (gNP g_test - 1) <= nc_NP (gNP g_test) (gNMa g_test))%nat /\
  solves (gNP g_test) nc_A (nc_b (gNP g_test)) (ls_nc g_test) /\ solves (gNP g_test) nc_A1 nc_b1 (ls_nc1 g_test) /\
  smooth (gNP g_test) (trig 0 1) /\ (forall s, Rabs (Derive_n (trig 0 1) (gNP g_test) s) <= 1) /\ trig 0 1 0 = 0 /\ trig 0 1 PI = 0.
Proof.
  destruct g_test_lstsq as (A & B & _).
  split; [exact (proj1 g_test_ok)|]. split; [apply nc_NP_ge; [exact (proj1 g_test_ok)|cbn; lia]|]. split; [exact A|]. split; [exact B|].
  split; [apply smooth_trig|]. split.
  - intros s. eapply Rle_trans; [apply trig_bound|]. rewrite Rabs_R0, Rabs_R1. lra.
  - unfold trig. rewrite sin_0, sin_PI. split; ring.
Qed.

(** * C105 *)
(** integrate of the samples of F is the volume integral of F over the prolate spheroid, up to an error of order N in
    both steps and a term from the outer boundary. *)
Theorem C105_volume_integral : forall g F f Ma Mr Mo, grid_ok g -> lstsq_ok g -> gNMa g = gNMr g -> (2 <= gNMa g)%nat ->
  let G := fun t m => vol (ga g) t m * F t m in
  sampled g F f -> cont2 G ->
  (forall m, smooth (gNP g) (fun t => G t m)) -> (forall t, smooth (gNP g) (fun m => G t m)) ->
  (forall t m, 0 <= t <= PI -> 0 <= m <= gL g ->
     Rabs (Derive_n (fun t => G t m) (gNP g) t) <= Ma /\ Rabs (Derive_n (fun m => G t m) (gNP g) m) <= Mr) ->
  (forall t, 0 <= t <= PI -> Rabs (G t (gL g)) <= Mo) ->
  Rabs (integrate1 g f - volume_integral (ga g) (gL g) F) <= volume_error g Ma Mr Mo.
Proof. exact integrate_error. Qed.
Print Assumptions C105_volume_integral.
(** F = 1: the volume. *)
Lemma C105_witness : grid_ok g_test /\ lstsq_ok g_test /\ gNMa g_test = gNMr g_test /\ (2 <= gNMa g_test)%nat /\
  let G := fun t m => vol (ga g_test) t m * 1 in
  sampled g_test (fun _ _ => 1) (fun _ => 1) /\ cont2 G /\
  (forall m, smooth (gNP g_test) (fun t => G t m)) /\ (forall t, smooth (gNP g_test) (fun m => G t m)) /\
  (exists Ma Mr, forall t m, 0 <= t <= PI -> 0 <= m <= gL g_test ->
     Rabs (Derive_n (fun t => G t m) (gNP g_test) t) <= Ma /\ Rabs (Derive_n (fun m => G t m) (gNP g_test) m) <= Mr) /\
  (exists Mo, forall t, 0 <= t <= PI -> Rabs (G t (gL g_test)) <= Mo).
Proof.
  pose proof g_test_ok as OK. destruct OK as (_ & _ & _ & Ha & HL).
  split; [exact g_test_ok|]. split; [exact g_test_lstsq|]. split; [apply g_test_sizes|]. split; [cbn; lia|]. intros G.
  split; [intros ? ? _; reflexivity|]. split; [apply vol_cont|]. split; [intros; apply vol_smooth_t|]. split; [intros; apply vol_smooth_m|].
  destruct (vol_bound_t (gNP g_test) _ _ Ha HL) as [Ma A]. destruct (vol_bound_m (gNP g_test) _ _ Ha HL) as [Mr B].
  split; [exists Ma, Mr; intros t m _ Hm; split; [apply A, Hm|apply B, Hm]|].
  destruct (vol_bound_m 0 _ _ Ha HL) as [Mo C]. exists Mo. intros t _. apply (C t (gL g_test)). lra.
Qed.
