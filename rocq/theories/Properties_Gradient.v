(** Property C115: accuracy of the gradient, of sigma and of the divergence, and the divergence beside the axis. *)
From Coq Require Import Reals List Lia Lra ZArith String.
From Coquelicot Require Import Coquelicot.
From Verif Require Import Base BaseLemmas GridModel GridSpec GridProofs FDProofs OpProofs GridWitness GridMore LapCont SolverModel LibxcModel Accuracy AccuracyOp AccuracyWit AccuracyGrad
  Convergence ConvergenceWit AccuracyDiv.
Import ListNotations.
Local Open Scope R_scope.

(** * C115 *)
(** grada and gradr of the samples of a smooth even function: the components of its gradient along the coordinate lines. *)
Theorem C115_gradient : forall u uz uy uzz uzy uyy g b f ia ir Ma Ma2 Mr Mr2,
  fine g b -> fits g b 1 u uz uy uzz uzy uyy -> sampled g (seen u (ga g)) f -> is_point g ia ir ->
  let t := node (Na g) PI ia in let m := node (Nr g) (gL g) ir in
  (forall q, (q < b)%nat -> (Nr g <= ir + q + 1)%nat -> seen u (ga g) t (node (Nr g) (gL g) (ir + q + 1)%nat) = 0) ->
  lap_bound g b (seen u (ga g)) t m Ma Ma2 Mr Mr2 ->
  let Gz := seen uz (ga g) t m in let Gy := seen uy (ga g) t m in
  let h := ga g * sqrt (sinh m ^ 2 + sin t ^ 2) in
  Rabs (gapply g (grada g) f (pos g ia ir) - (- (cosh m * sin t) * Gz + sinh m * cos t * Gy) / sqrt (sinh m ^ 2 + sin t ^ 2))
    <= fd_const b (2 * b + 1) (d1 g) * Ma * (PI / INR (Na g)) ^ (2 * b) / h /\
  Rabs (gapply g (gradr g) f (pos g ia ir) - (sinh m * cos t * Gz + cosh m * sin t * Gy) / sqrt (sinh m ^ 2 + sin t ^ 2))
    <= fd_const b (2 * b + 1) (d1 g) * Mr * (gL g / INR (Nr g)) ^ (2 * b) / h.
Proof.
  intros u uz uy uzz uzy uyy g b f ia ir Ma Ma2 Mr Mr2 H1 H2 H3 H4 t m H5 H6 Gz Gy h. split.
  - exact (grada_error u uz uy uzz uzy uyy g b f ia ir Ma Ma2 Mr Mr2 H1 H2 H3 H4 H6).
  - exact (gradr_error u uz uy uzz uzy uyy g b f ia ir Ma Ma2 Mr Mr2 H1 H2 H3 H4 H5 H6).
Qed.
Print Assumptions C115_gradient.
(** sigma of one spin: the squared length of the gradient (one column, and columns 0 and 2 of two). *)
Theorem C115_sigma : forall u uz uy uzz uzy uyy g b (n : mat) cols c (s : mat) j ia ir Ma Ma2 Mr Mr2,
  fine g b -> fits g b 1 u uz uy uzz uzy uyy -> sampled g (seen u (ga g)) (fun k => n k j) -> is_point g ia ir ->
  let t := node (Na g) PI ia in let m := node (Nr g) (gL g) ir in
  (forall q, (q < b)%nat -> (Nr g <= ir + q + 1)%nat -> seen u (ga g) t (node (Nr g) (gL g) (ir + q + 1)%nat) = 0) ->
  lap_bound g b (seen u (ga g)) t m Ma Ma2 Mr Mr2 ->
  (j < cols)%nat -> sigma g cols n = Ok (c, s) ->
  let G2 := seen uz (ga g) t m ^ 2 + seen uy (ga g) t m ^ 2 in
  let h := ga g * sqrt (sinh m ^ 2 + sin t ^ 2) in
  let Ea := fd_const b (2 * b + 1) (d1 g) * Ma * (PI / INR (Na g)) ^ (2 * b) / h in
  let Er := fd_const b (2 * b + 1) (d1 g) * Mr * (gL g / INR (Nr g)) ^ (2 * b) / h in
  Rabs (s (pos g ia ir) (2 * j)%nat - G2) <= Ea * (2 * sqrt G2 + Ea) + Er * (2 * sqrt G2 + Er).
Proof.
  intros u uz uy uzz uzy uyy g b n cols c s j ia ir Ma Ma2 Mr Mr2 H1 H2 H3 H4 t m H5 H6 Hj Hs G2 h Ea Er.
  pose proof (sigma_error u uz uy uzz uzy uyy g b (fun k => n k j) ia ir Ma Ma2 Mr Mr2 H1 H2 H3 H4 H5 H6) as K.
  replace (s (pos g ia ir) (2 * j)%nat) with (gapply g (grada g) (fun k => n k j) (pos g ia ir) ^ 2 + gapply g (gradr g) (fun k => n k j) (pos g ia ir) ^ 2); [exact K|].
  unfold sigma in Hs. destruct (Nat.eqb_spec cols 1) as [->|]; [|destruct (Nat.eqb_spec cols 2) as [->|]; [|discriminate]]; injection Hs as <- <-.
  - replace j with 0%nat by lia. reflexivity.
  - destruct j as [|[|]]; [reflexivity|reflexivity|lia].
Qed.
Print Assumptions C115_sigma.
(** diva + divr of the components of a smooth field: its divergence, at points whose stencils do not reach an end of a line. *)
Theorem C115_divergence : forall Vz Vy Vzz Vzy Vyz Vyy g b fa fr ia ir Ma Mr,
  (forall z y, differentiable_pt_lim Vz z y (Vzz z y) (Vzy z y)) -> (forall z y, differentiable_pt_lim Vy z y (Vyz z y) (Vyy z y)) ->
  fine g b -> field_sampled g Vz Vy fa fr -> is_point g ia ir ->
  let t := node (Na g) PI ia in let m := node (Nr g) (gL g) ir in
  (b <= ia)%nat /\ (ia + b < Na g)%nat -> (b <= ir)%nat /\ (ir + b < Nr g)%nat ->
  smooth (2 * b + 1) (fun t => flux_t Vz Vy (ga g) t m) -> smooth (2 * b + 1) (fun m => flux_m Vz Vy (ga g) t m) ->
  (forall s, Rabs (s - t) <= INR b * (PI / INR (Na g)) -> Rabs (Derive_n (fun t => flux_t Vz Vy (ga g) t m) (2 * b + 1) s) <= Ma) ->
  (forall s, Rabs (s - m) <= INR b * (gL g / INR (Nr g)) -> Rabs (Derive_n (fun m => flux_m Vz Vy (ga g) t m) (2 * b + 1) s) <= Mr) ->
  let Y := ga g * sinh m * sin t in
  Rabs (gapply g (diva g) fa (pos g ia ir) + gapply g (divr g) fr (pos g ia ir)
        - (seen Vzz (ga g) t m + seen Vyy (ga g) t m + seen Vy (ga g) t m / Y))
  <= fd_const b (2 * b + 1) (d1 g) * (Ma * (PI / INR (Na g)) ^ (2 * b) + Mr * (gL g / INR (Nr g)) ^ (2 * b)) / gw g (pos g ia ir).
Proof.
  intros Vz Vy Vzz Vzy Vyz Vyy g b fa fr ia ir Ma Mr A1 A2 A3 A4 A5 t m A6 A7 A8 A9 B1 B2.
  exact (div_error Vz Vy Vzz Vzy Vyz Vyy g b fa fr ia ir Ma Mr A1 A2 A3 A4 A5 A6 A7 A8 A9 B1 B2).
Qed.
Print Assumptions C115_divergence.
(** Beside the axis this fails, however fine the grid: the unit field along the axis has divergence 0, the matrices give at most
    -1/(5 a cosh m) in the first angular row. *)
Theorem C115_divergence_refuted : forall g fa fr ir, grid_ok g -> fd_ok g 1 -> PI / INR (Na g) <= 1 / 4 -> gL g / INR (Nr g) <= 1 / 8 ->
  field_sampled g (fun _ _ => 1) (fun _ _ => 0) fa fr -> (1 <= ir)%nat -> (ir + 1 < Nr g)%nat ->
  gapply g (diva g) fa (pos g 0 ir) + gapply g (divr g) fr (pos g 0 ir) <= - / (5 * ga g * cosh (node (Nr g) (gL g) ir)).
Proof. exact axis_field. Qed.
Print Assumptions C115_divergence_refuted.
(** So is the potential of a gradient functional: for the energy density sigma (vrho = 0, vsigma = 1) and the density c + z the
    potential is -2 div grad n = 0; get_xc returns at least 2/(5 a cosh m) beside the axis. *)
Theorem C115_potential_refuted : forall g c (n : mat) ir lib id, grid_ok g -> fd_ok g 1 -> PI / INR (Na g) <= 1 / 4 -> gL g / INR (Nr g) <= 1 / 8 ->
  (forall ja jr, is_point g ja jr -> n (pos g ja jr) 0%nat = c + gZ g (pos g ja jr)) -> (1 <= ir)%nat -> (ir + 2 < Nr g)%nat ->
  lib id 1%nat = Ok (fun n sg => mkXc (fun k => match sg with Some s => s k 0%nat / n k 0%nat | None => 0 end) (fun _ _ => 0) (fun _ _ => 1)) ->
  exists exc eps v, get_xc g lib "gga" id 1 n = Ok (exc, eps, v) /\ 2 / (5 * ga g * cosh (node (Nr g) (gL g) ir)) <= v (pos g 0 ir) 0%nat.
Proof.
  intros g c n ir lib id Hok Hfd H1 H2 Hn Hi1 Hi2 Hl.
  unfold get_xc, get_xc_dictionary. rewrite Hl. cbn [bind String.eqb Ascii.eqb Bool.eqb]. unfold sigma. cbn [Nat.eqb bind snd].
  eexists _, _, _. split; [reflexivity|]. cbn [xc_vrho xc_vsigma]. unfold div_s_grad.
  assert (E : forall M f k, gapply g M (fun j => 1 * f j) k = gapply g M f k).
  { intros M f k. unfold gapply, matvec. apply sumR_ext. intros. ring. }
  rewrite !E. pose proof (lap_of_z g (fun k => n k 0%nat) c ir Hok Hfd H1 H2) as L.
  assert (Q : forall ja jr, is_point g ja jr -> n (pos g ja jr) 0%nat = c + pz (ga g) (node (Na g) PI ja) (node (Nr g) (gL g) jr)).
  { intros ja jr Hp. rewrite (Hn ja jr Hp). f_equal. rewrite gZ_val by (apply pos_lt, Hp). rewrite Xa_pos, Xr_pos, xa_node, xr_node by (auto; apply Hp). reflexivity. }
  specialize (L Q Hi1 Hi2). unfold Rdiv. lra.
Qed.
Print Assumptions C115_potential_refuted.
(** z has gradient (1, 0) and meets the hypotheses on the test grid; the fine three-point grids exist with any number of points. *)
Lemma C115_witness : fine g_test 4 /\ fits g_test 4 1 (fun z _ => z) (fun _ _ => 1) (fun _ _ => 0) (fun _ _ => 0) (fun _ _ => 0) (fun _ _ => 0) /\
  is_point g_test 10 10 /\ ~ (Nr g_test <= 10 + 3 + 1)%nat /\ (4 <= 10)%nat /\ (10 + 4 < Na g_test)%nat /\ (10 + 4 < Nr g_test)%nat /\
  (exists f, sampled g_test (seen (fun z _ => z) (ga g_test)) f) /\ (exists fa fr, field_sampled g_test (fun _ _ => 1) (fun _ _ => 0) fa fr) /\
  (forall t m, exists Ma Mr, lap_bound g_test 4 (seen (fun z _ => z) (ga g_test)) t m Ma Ma Mr Mr) /\
  (forall n : mat, exists c s, sigma g_test 2 n = Ok (c, s)) /\
  (forall z y, differentiable_pt_lim (fun _ _ => 1) z y 0 0 /\ differentiable_pt_lim (fun _ _ => 0) z y 0 0) /\
  (forall a t m n r, smooth n (fun t => flux_t (fun _ _ => 1) (fun _ _ => 0) a t m) /\ smooth n (fun m => flux_m (fun _ _ => 1) (fun _ _ => 0) a t m) /\
    exists Ma Mr, (forall s, Rabs (Derive_n (fun t => flux_t (fun _ _ => 1) (fun _ _ => 0) a t m) (S n) s) <= Ma) /\
      forall s, Rabs s <= r -> Rabs (Derive_n (fun m => flux_m (fun _ _ => 1) (fun _ _ => 0) a t m) (S n) s) <= Mr) /\
  (forall N, exists g, grid_ok g /\ fd_ok g 1 /\ PI / INR (Na g) <= 1 / 4 /\ gL g / INR (Nr g) <= 1 / 8 /\ (N < Na g)%nat /\ (N < Nr g)%nat /\ (1 + 2 < Nr g)%nat /\ ga g = 1).
Proof.
  split; [exact fine_test|]. split; [apply fits_z|]. split; [split; compute; lia|]. split; [compute; lia|]. split; [lia|]. split; [compute; lia|]. split; [compute; lia|].
  split; [eexists; apply sampled_any|]. split; [apply field_any|]. split; [intros; apply bound_z|]. split; [intro; eexists _, _; reflexivity|].
  split; [intros z y; split|].
  - apply (differentiable_pt_lim_ext (fun z y => 0 * z + 0 * y + 1)); [|apply diff2_lin]. exists (mkposreal 1 Rlt_0_1). intros. ring.
  - apply (differentiable_pt_lim_ext (fun z y => 0 * z + 0 * y + 0)); [|apply diff2_lin]. exists (mkposreal 1 Rlt_0_1). intros. ring.
  - split; [exact axis_smooth|]. intro N. exists (fine3 N). exact (fine3_ok N).
Qed.
