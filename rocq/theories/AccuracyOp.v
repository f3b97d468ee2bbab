(** Accuracy of the derivative matrices, the Laplacian and the Hamiltonian on smooth functions. *)
From Coq Require Import Reals List Lia Lra ZArith.
From Coquelicot Require Import Coquelicot.
From Verif Require Import Base BaseLemmas GridModel Poly GridSpec GridProofs FDProofs OpProofs LapCont
  SolverModel Accuracy.
Import ListNotations.
Local Open Scope R_scope.
Local Opaque sinh cosh.

(** Coefficients of both stencils survive finite_difference_coefficients.py:50-56. *)
Definition sharp (g : grid) (b : nat) : Prop := unflushed b (ls_fd1 g) /\ unflushed b (ls_fd2 g).

Lemma da_pos : forall g, 0 < PI / INR (Na g).
Proof. intros g. apply Rdiv_lt_0_compat; [exact PI_RGT_0|apply lt_0_INR, Na_pos]. Qed.
Lemma dr_pos : forall g, 0 < gL g -> 0 < gL g / INR (Nr g).
Proof. intros g H. apply Rdiv_lt_0_compat; [exact H|apply lt_0_INR, Nr_pos]. Qed.

(** * Derivative matrices *)
Section Angular.
Variables (g : grid) (b : nat) (f : R -> R) (p : nat) (M : R).
Hypothesis Hg : fd_ok g b.
Hypothesis Hb : (b <= Na g)%nat.
Hypothesis Hp : (p < Na g)%nat.
Let h := PI / INR (Na g).
Let t := node (Na g) PI p.
Let v := fun i => f (node (Na g) PI i).

Lemma angular1 : forall sg D, unflushed b (ls_fd1 g) ->
  matvec (Na g) D v p = stencil b (d1 g) (reflect (Na g) sg v) p / ha g ->
  (forall s, f (- s) = sg * f s) -> (forall s, f (2 * PI - s) = sg * f s) -> smooth (2 * b + 1) f ->
  (forall s, Rabs (s - t) <= INR b * h -> Rabs (Derive_n f (2 * b + 1) s) <= M) ->
  Rabs (matvec (Na g) D v p - Derive f t) <= fd_const b (2 * b + 1) (d1 g) * M * h ^ (2 * b).
Proof using Hg Hb Hp.
  intros sg D U E P0 P1 Sf B. rewrite E, ha_val. change (Derive f t) with (Derive_n f 1 t).
  apply stencil1_error; auto; [apply da_pos|]. apply reflect_samples; auto. apply Na_pos.
Qed.
Lemma angular2 : forall sg D, unflushed b (ls_fd2 g) ->
  matvec (Na g) D v p = stencil b (d2 g) (reflect (Na g) sg v) p / ha g ^ 2 ->
  (forall s, f (- s) = sg * f s) -> (forall s, f (2 * PI - s) = sg * f s) -> smooth (2 * b + 2) f ->
  (forall s, Rabs (s - t) <= INR b * h -> Rabs (Derive_n f (2 * b + 2) s) <= M) ->
  Rabs (matvec (Na g) D v p - Derive_n f 2 t) <= fd_const b (2 * b + 2) (d2 g) * M * h ^ (2 * b).
Proof using Hg Hb Hp.
  intros sg D U E P0 P1 Sf B. rewrite E, ha_val.
  apply stencil2_error; auto; [apply da_pos|]. apply reflect_samples; auto. apply Na_pos.
Qed.
End Angular.

Section Radial.
Variables (g : grid) (b : nat) (f : R -> R) (p : nat) (M : R) (out : vec).
Hypothesis Hg : fd_ok g b.
Hypothesis Hb : (b <= Nr g)%nat.
Hypothesis Hp : (p < Nr g)%nat.
Hypothesis HL : 0 < gL g.
Let h := gL g / INR (Nr g).
Let t := node (Nr g) (gL g) p.
Let v := fun i => f (node (Nr g) (gL g) i).

Lemma radial1 : forall sg x, unflushed b (ls_fd1 g) ->
  x = stencil b (d1 g) (reflect_inner (Nr g) sg v out) p / h ->
  (forall s, f (- s) = sg * f s) ->
  (forall q, (q < b)%nat -> (Nr g <= p + q + 1)%nat -> out (p + q + 1 - Nr g)%nat = v (p + q + 1)%nat) ->
  smooth (2 * b + 1) f ->
  (forall s, Rabs (s - t) <= INR b * h -> Rabs (Derive_n f (2 * b + 1) s) <= M) ->
  Rabs (x - Derive f t) <= fd_const b (2 * b + 1) (d1 g) * M * h ^ (2 * b).
Proof using Hg Hb Hp HL.
  intros sg x U E P0 P1 Sf B. rewrite E. change (Derive f t) with (Derive_n f 1 t).
  apply stencil1_error; auto; [apply dr_pos, HL|]. apply inner_samples; auto. apply Nr_pos.
Qed.
Lemma radial2 : forall sg x, unflushed b (ls_fd2 g) ->
  x = stencil b (d2 g) (reflect_inner (Nr g) sg v out) p / h ^ 2 ->
  (forall s, f (- s) = sg * f s) ->
  (forall q, (q < b)%nat -> (Nr g <= p + q + 1)%nat -> out (p + q + 1 - Nr g)%nat = v (p + q + 1)%nat) ->
  smooth (2 * b + 2) f ->
  (forall s, Rabs (s - t) <= INR b * h -> Rabs (Derive_n f (2 * b + 2) s) <= M) ->
  Rabs (x - Derive_n f 2 t) <= fd_const b (2 * b + 2) (d2 g) * M * h ^ (2 * b).
Proof using Hg Hb Hp HL.
  intros sg x U E P0 P1 Sf B. rewrite E.
  apply stencil2_error; auto; [apply dr_pos, HL|]. apply inner_samples; auto. apply Nr_pos.
Qed.
End Radial.

(** * Laplacian *)
Lemma cosh_ge_1 : forall m, 1 <= cosh m.
Proof.
  intros m. pose proof (cosh2_sinh2 m). pose proof (pow2_ge_0 (sinh m)).
  assert (0 < cosh m). { Local Transparent cosh. unfold cosh. pose proof (exp_pos m). pose proof (exp_pos (- m)). lra. }
  apply Rnot_lt_le. intros L. assert (cosh m ^ 2 < 1) by (simpl; nra). lra.
Qed.
Local Opaque cosh.
Lemma sinh_le_cosh : forall m, 0 <= m -> 0 <= sinh m <= cosh m.
Proof.
  intros m H. pose proof (cosh_ge_1 m).
  assert (P : 0 <= sinh m) by (destruct H as [H|<-]; [left; apply sinh_pos, H|rewrite sinh_0; lra]).
  split; [exact P|]. Local Transparent sinh cosh. unfold sinh, cosh in *. pose proof (exp_pos (- m)). lra.
Qed.
Local Opaque sinh cosh.

(** Prolate coordinates of a point and the function u seen in them. *)
Definition pz (a t m : R) : R := a * cosh m * cos t.
Definition py (a t m : R) : R := a * sinh m * sin t.
Definition seen (u : R -> R -> R) (a t m : R) : R := u (pz a t m) (py a t m).

(** Bounds on the derivatives entering the error at the point (t, m): angular and radial lines. *)
Definition lap_bound (g : grid) (b : nat) (F : R -> R -> R) (t m Ma1 Ma2 Mr1 Mr2 : R) : Prop :=
  (forall s, Rabs (s - t) <= INR b * (PI / INR (Na g)) ->
     Rabs (Derive_n (fun t => F t m) (2 * b + 1) s) <= Ma1 /\ Rabs (Derive_n (fun t => F t m) (2 * b + 2) s) <= Ma2) /\
  (forall s, Rabs (s - m) <= INR b * (gL g / INR (Nr g)) ->
     Rabs (Derive_n (fun m => F t m) (2 * b + 1) s) <= Mr1 /\ Rabs (Derive_n (fun m => F t m) (2 * b + 2) s) <= Mr2).

(** Size of the error: order 2b in both steps. *)
Definition lap_error (g : grid) (b : nat) (m Ma1 Ma2 Mr1 Mr2 : R) : R :=
  ga g * cosh m *
  ((fd_const b (2 * b + 1) (d1 g) * Ma1 + fd_const b (2 * b + 2) (d2 g) * Ma2) * (PI / INR (Na g)) ^ (2 * b)
   + (fd_const b (2 * b + 1) (d1 g) * Mr1 + fd_const b (2 * b + 2) (d2 g) * Mr2) * (gL g / INR (Nr g)) ^ (2 * b)).

(** The same, part by part at (t, m). *)
Definition lap_error_at (g : grid) (b : nat) (t m Ma1 Ma2 Mr1 Mr2 : R) : R :=
  ga g *
  (sinh m * (sin t * (fd_const b (2 * b + 2) (d2 g) * Ma2 * (PI / INR (Na g)) ^ (2 * b))
             + Rabs (cos t) * (fd_const b (2 * b + 1) (d1 g) * Ma1 * (PI / INR (Na g)) ^ (2 * b)))
   + sin t * (sinh m * (fd_const b (2 * b + 2) (d2 g) * Mr2 * (gL g / INR (Nr g)) ^ (2 * b))
              + cosh m * (fd_const b (2 * b + 1) (d1 g) * Mr1 * (gL g / INR (Nr g)) ^ (2 * b)))).

Lemma Rabs_mult_le : forall x y c d, Rabs x <= c -> Rabs y <= d -> Rabs (x * y) <= c * d.
Proof. intros. rewrite Rabs_mult. apply Rmult_le_compat; auto using Rabs_pos. Qed.

Section Lap.
Variables (u uz uy uzz uzy uyy : R -> R -> R) (g : grid) (b : nat) (sg : R).
Hypothesis Hu : twice_diff u uz uy uzz uzy uyy.
Hypothesis Hpar : forall z y, u z (- y) = sg * u z y.
Hypothesis Hok : grid_ok g.
Hypothesis Hfd : fd_ok g b.
Hypothesis Hsharp : sharp g b.
Hypothesis HNa : (b <= Na g)%nat.
Hypothesis HNr : (b <= Nr g)%nat.
Let F := seen u (ga g).
Hypothesis St : forall m, smooth (2 * b + 2) (fun t => F t m).
Hypothesis Sm : forall t, smooth (2 * b + 2) (fun m => F t m).

Lemma seen_t0 : forall m t, F (- t) m = sg * F t m.
Proof using Hpar.
  intros m t. unfold F, seen, pz, py. rewrite cos_neg, sin_neg, <- Hpar. f_equal. ring.
Qed.
Lemma seen_tpi : forall m t, F (2 * PI - t) m = sg * F t m.
Proof using Hpar.
  intros m t. rewrite <- seen_t0. unfold F, seen, pz, py. replace (2 * PI - t) with (- t + 2 * INR 1 * PI) by (simpl; ring).
  rewrite cos_period, sin_period. reflexivity.
Qed.
Lemma seen_m0 : forall t m, F t (- m) = sg * F t m.
Proof using Hpar.
  intros t m. unfold F, seen, pz, py. rewrite <- Hpar.
  assert (cosh (- m) = cosh m /\ sinh (- m) = - sinh m) as [-> ->].
  { Local Transparent sinh cosh. unfold sinh, cosh. rewrite Ropp_involutive. split; lra. }
  f_equal. ring.
Qed.
Local Opaque sinh cosh.

Lemma lap_form_error_at : forall f out ia ir Ma1 Ma2 Mr1 Mr2, is_point g ia ir ->
  let t := node (Na g) PI ia in let m := node (Nr g) (gL g) ir in
  (forall ja jr, is_point g ja jr -> f (pos g ja jr) = F (node (Na g) PI ja) (node (Nr g) (gL g) jr)) ->
  (forall q, (q < b)%nat -> (Nr g <= ir + q + 1)%nat -> out ia (ir + q + 1 - Nr g)%nat = F t (node (Nr g) (gL g) (ir + q + 1)%nat)) ->
  lap_bound g b F t m Ma1 Ma2 Mr1 Mr2 ->
  Rabs (lap_form g b sg f out ia ir
    - gw g (pos g ia ir) * (uzz (pz (ga g) t m) (py (ga g) t m) + uyy (pz (ga g) t m) (py (ga g) t m)
                            + uy (pz (ga g) t m) (py (ga g) t m) / py (ga g) t m))
  <= lap_error_at g b t m Ma1 Ma2 Mr1 Mr2.
Proof using Hu Hpar Hok Hfd Hsharp HNa HNr St Sm.
  intros f out ia ir Ma1 Ma2 Mr1 Mr2 Hp t m Hf Hout [Ba Br].
  destruct Hok as (_ & _ & _ & Ha & HL). destruct Hp as [Hia Hir]. destruct Hsharp as [U1 U2].
  assert (NA : 0 < INR (Na g)) by apply lt_0_INR, Na_pos. assert (NR : 0 < INR (Nr g)) by apply lt_0_INR, Nr_pos.
  assert (Ht : 0 < t < PI).
  { unfold t, node. pose proof PI_RGT_0. pose proof (pos_INR ia). assert (INR ia + 1 <= INR (Na g)).
    { rewrite <- S_INR. apply le_INR. lia. }
    split; [apply Rdiv_lt_0_compat; nra|]. apply Rmult_lt_reg_r with (INR (Na g)); auto.
    unfold Rdiv. rewrite Rmult_assoc, Rinv_l by lra. nra. }
  assert (Hm : 0 < m). { unfold m, node. pose proof (pos_INR ir). apply Rdiv_lt_0_compat; nra. }
  assert (W : gw g (pos g ia ir) = ga g ^ 3 * sin t * sinh m * (sin t ^ 2 + sinh m ^ 2)).
  { rewrite gw_val, !Xa_pos, !Xr_pos, xa_node, xr_node by (try split; auto; apply pos_lt; split; auto). reflexivity. }
  rewrite W. unfold py at 2 4. unfold pz, py.
  rewrite <- (lap_identity u uz uy uzz uzy uyy Hu (ga g) t m Ha Ht Hm).
  unfold lap_form. fold t m.
  set (da := PI / INR (Na g)). set (dr := gL g / INR (Nr g)).
  assert (SA : samples b (reflect (Na g) sg (aline g f ir)) ia (fun t => F t m) t da).
  { pose proof (reflect_samples (Na g) PI sg (fun t => F t m) b ia (Na_pos g) HNa Hia (seen_t0 m) (seen_tpi m)) as Q.
    intros j Hj. refine (eq_trans _ (Q j Hj)). unfold reflect, aline.
    repeat match goal with |- context [Z.ltb ?x ?y] => destruct (Z.ltb_spec x y) end; try rewrite Hf; try reflexivity; split; auto; lia. }
  assert (SR : samples b (reflect_inner (Nr g) sg (rline g f ia) (out ia)) ir (fun m => F t m) m dr).
  { pose proof (inner_samples (Nr g) (gL g) sg (fun m => F t m) (out ia) b ir (Nr_pos g) HNr Hir (seen_m0 t) Hout) as Q.
    intros j Hj. refine (eq_trans _ (Q j Hj)). unfold reflect_inner, rline.
    repeat match goal with |- context [Z.ltb ?x ?y] => destruct (Z.ltb_spec x y) end; try rewrite Hf; try reflexivity; split; auto; lia. }
  assert (S1 : forall h, smooth (2 * b + 2) h -> smooth (2 * b + 1) h) by (intros h; apply smooth_le; lia).
  pose proof (stencil1_error g b _ ia (fun t => F t m) t da Ma1 Hfd U1 (da_pos g) SA (S1 _ (St m)) (fun s Hs => proj1 (Ba s Hs))) as EA1.
  pose proof (stencil2_error g b _ ia (fun t => F t m) t da Ma2 Hfd U2 (da_pos g) SA (St m) (fun s Hs => proj2 (Ba s Hs))) as EA2.
  pose proof (stencil1_error g b _ ir (fun m => F t m) m dr Mr1 Hfd U1 (dr_pos g HL) SR (S1 _ (Sm t)) (fun s Hs => proj1 (Br s Hs))) as ER1.
  pose proof (stencil2_error g b _ ir (fun m => F t m) m dr Mr2 Hfd U2 (dr_pos g HL) SR (Sm t) (fun s Hs => proj2 (Br s Hs))) as ER2.
  change (Derive_n (fun t => F t m) 1 t) with (Derive (fun t => F t m) t) in EA1.
  change (Derive_n (fun m => F t m) 1 m) with (Derive (fun m => F t m) m) in ER1.
  unfold F in EA1, EA2, ER1, ER2. unfold seen, pz, py in EA1, EA2, ER1, ER2.
  set (xa1 := stencil b (d1 g) (reflect (Na g) sg (aline g f ir)) ia / da) in *.
  set (xa2 := stencil b (d2 g) (reflect (Na g) sg (aline g f ir)) ia / da ^ 2) in *.
  set (xr1 := stencil b (d1 g) (reflect_inner (Nr g) sg (rline g f ia) (out ia)) ir / dr) in *.
  set (xr2 := stencil b (d2 g) (reflect_inner (Nr g) sg (rline g f ia) (out ia)) ir / dr ^ 2) in *.
  set (ya1 := Derive _ t) in *. set (ya2 := Derive_n _ 2 t) in *. set (yr1 := Derive _ m) in *. set (yr2 := Derive_n _ 2 m) in *.
  replace (_ - _) with (ga g * (sinh m * (sin t * (xa2 - ya2)) + sinh m * (cos t * (xa1 - ya1))
     + (sin t * (sinh m * (xr2 - yr2)) + sin t * (cosh m * (xr1 - yr1))))) by ring.
  pose proof (sinh_le_cosh m (Rlt_le _ _ Hm)) as [Sh0 _]. pose proof (cosh_ge_1 m) as C1.
  assert (St0 : 0 < sin t) by (apply sin_gt_0; lra).
  assert (As : Rabs (sin t) <= sin t) by (rewrite Rabs_right; lra).
  assert (Ac : Rabs (cos t) <= Rabs (cos t)) by lra.
  assert (Ash : Rabs (sinh m) <= sinh m) by (rewrite Rabs_right; lra).
  assert (Ach : Rabs (cosh m) <= cosh m) by (rewrite Rabs_right; lra).
  pose proof (Rabs_mult_le _ _ _ _ Ash (Rabs_mult_le _ _ _ _ As EA2)) as B1.
  pose proof (Rabs_mult_le _ _ _ _ Ash (Rabs_mult_le _ _ _ _ Ac EA1)) as B2.
  pose proof (Rabs_mult_le _ _ _ _ As (Rabs_mult_le _ _ _ _ Ash ER2)) as B3.
  pose proof (Rabs_mult_le _ _ _ _ As (Rabs_mult_le _ _ _ _ Ach ER1)) as B4.
  rewrite Rabs_mult, (Rabs_right (ga g)) by lra. unfold lap_error_at.
  apply Rmult_le_compat_l; [lra|].
  eapply Rle_trans; [apply Rabs_triang|].
  eapply Rle_trans; [apply Rplus_le_compat; apply Rabs_triang|]. fold da dr. lra.
Qed.
Lemma lap_form_error : forall f out ia ir Ma1 Ma2 Mr1 Mr2, is_point g ia ir ->
  let t := node (Na g) PI ia in let m := node (Nr g) (gL g) ir in
  (forall ja jr, is_point g ja jr -> f (pos g ja jr) = F (node (Na g) PI ja) (node (Nr g) (gL g) jr)) ->
  (forall q, (q < b)%nat -> (Nr g <= ir + q + 1)%nat -> out ia (ir + q + 1 - Nr g)%nat = F t (node (Nr g) (gL g) (ir + q + 1)%nat)) ->
  lap_bound g b F t m Ma1 Ma2 Mr1 Mr2 ->
  Rabs (lap_form g b sg f out ia ir
    - gw g (pos g ia ir) * (uzz (pz (ga g) t m) (py (ga g) t m) + uyy (pz (ga g) t m) (py (ga g) t m)
                            + uy (pz (ga g) t m) (py (ga g) t m) / py (ga g) t m))
  <= lap_error g b m Ma1 Ma2 Mr1 Mr2.
Proof using Hu Hpar Hok Hfd Hsharp HNa HNr St Sm.
  intros f out ia ir Ma1 Ma2 Mr1 Mr2 Hp t m Hf Hout HB.
  eapply Rle_trans; [exact (lap_form_error_at f out ia ir Ma1 Ma2 Mr1 Mr2 Hp Hf Hout HB)|]. fold t m.
  destruct Hok as (_ & _ & _ & Ha & HL).
  assert (Ht : 0 < t < PI) by (apply node_range; [apply Hp|exact PI_RGT_0]).
  assert (Hm : 0 < m) by (apply (node_range (Nr g) (gL g) ir); [apply Hp|exact HL]).
  pose proof (sinh_le_cosh m (Rlt_le _ _ Hm)) as [Sh0 Sh]. pose proof (cosh_ge_1 m) as C1.
  assert (St0 : 0 < sin t) by (apply sin_gt_0; lra).
  assert (St1 : sin t <= 1) by apply SIN_bound.
  assert (Ac : 0 <= Rabs (cos t) <= 1) by (split; [apply Rabs_pos|apply Rabs_le; pose proof (COS_bound t); lra]).
  destruct HB as [Ba Br].
  assert (0 <= Ma1 /\ 0 <= Ma2) as [P1 P2].
  { destruct (Ba t) as [X Y]; [|split; (eapply Rle_trans; [apply Rabs_pos|eauto])].
    rewrite Rminus_diag_eq, Rabs_R0 by auto. apply Rmult_le_pos; [apply pos_INR|left; apply da_pos]. }
  assert (0 <= Mr1 /\ 0 <= Mr2) as [P3 P4].
  { destruct (Br m) as [X Y]; [|split; (eapply Rle_trans; [apply Rabs_pos|eauto])].
    rewrite Rminus_diag_eq, Rabs_R0 by auto. apply Rmult_le_pos; [apply pos_INR|left; apply dr_pos; auto]. }
  assert (K : forall n c, 0 <= fd_const b n c).
  { intros n c. unfold fd_const, rule_const. apply Rmult_le_pos; [|left; apply Rinv_0_lt_compat, INR_fact_lt_0].
    apply sumR_nonneg. intros. apply Rmult_le_pos; [apply Rabs_pos|apply pow_le, Rabs_pos]. }
  unfold lap_error_at, lap_error. rewrite (Rmult_assoc (ga g) (cosh m)). apply Rmult_le_compat_l; [lra|].
  assert (Q1 : 0 <= (PI / INR (Na g)) ^ (2 * b)) by (apply pow_le; left; apply da_pos).
  assert (Q2 : 0 <= (gL g / INR (Nr g)) ^ (2 * b)) by (apply pow_le; left; apply dr_pos; auto).
  assert (T : forall X K M q, 0 <= X <= cosh m -> 0 <= K -> 0 <= M -> 0 <= q -> X * (K * M * q) <= cosh m * (K * M * q)).
  { intros. apply Rmult_le_compat_r; [|lra]. repeat apply Rmult_le_pos; auto. }
  pose proof (T (sinh m * sin t) _ Ma2 _ ltac:(nra) (K (2 * b + 2)%nat (d2 g)) P2 Q1).
  pose proof (T (sinh m * Rabs (cos t)) _ Ma1 _ ltac:(nra) (K (2 * b + 1)%nat (d1 g)) P1 Q1).
  pose proof (T (sin t * sinh m) _ Mr2 _ ltac:(nra) (K (2 * b + 2)%nat (d2 g)) P4 Q2).
  pose proof (T (sin t * cosh m) _ Mr1 _ ltac:(nra) (K (2 * b + 1)%nat (d1 g)) P3 Q2).
  lra.
Qed.
End Lap.

(** The value of the Laplacian at the point seen at (t, m). *)
Definition lap_at (uy uzz uyy : R -> R -> R) (a t m : R) : R :=
  uzz (pz a t m) (py a t m) + uyy (pz a t m) (py a t m) + uy (pz a t m) (py a t m) / py a t m.
(** f holds the values of F at the grid points. *)
Definition sampled (g : grid) (F : R -> R -> R) (f : vec) : Prop :=
  forall ja jr, is_point g ja jr -> f (pos g ja jr) = F (node (Na g) PI ja) (node (Nr g) (gL g) jr).

(** A function of (z, y) of parity sg in y with as many derivatives along the coordinate lines as the
    stencil needs. *)
Definition fits (g : grid) (b : nat) (sg : R) (u uz uy uzz uzy uyy : R -> R -> R) : Prop :=
  twice_diff u uz uy uzz uzy uyy /\ (forall z y, u z (- y) = sg * u z y) /\
  (forall m, smooth (2 * b + 2) (fun t => seen u (ga g) t m)) /\
  (forall t, smooth (2 * b + 2) (fun m => seen u (ga g) t m)).

Definition fine (g : grid) (b : nat) : Prop :=
  grid_ok g /\ fd_ok g b /\ sharp g b /\ (b <= Na g)%nat /\ (b <= Nr g)%nat.

Lemma elap_blap_error : forall g b u uz uy uzz uzy uyy f out ia ir Ma1 Ma2 Mr1 Mr2,
  fine g b -> fits g b 1 u uz uy uzz uzy uyy -> sampled g (seen u (ga g)) f -> is_point g ia ir ->
  let t := node (Na g) PI ia in let m := node (Nr g) (gL g) ir in
  (forall q, (q < b)%nat -> out (ia + Na g * q)%nat = seen u (ga g) t (node (Nr g) (gL g) (Nr g + q)%nat)) ->
  lap_bound g b (seen u (ga g)) t m Ma1 Ma2 Mr1 Mr2 ->
  Rabs (gapply g (elap g) f (pos g ia ir)
        + (if (Nr g - b <=? ir)%nat then matvec (Na g * b) (blap g) out (ia + Na g * (ir - (Nr g - b)))%nat else 0)
        - gw g (pos g ia ir) * lap_at uy uzz uyy (ga g) t m) <= lap_error g b m Ma1 Ma2 Mr1 Mr2.
Proof.
  intros g b u uz uy uzz uzy uyy f out ia ir Ma1 Ma2 Mr1 Mr2 (Hok & Hfd & Hs & HNa & HNr) (Hu & Hpar & Ht & Hm) Hf Hp t m Hout HB.
  rewrite (elap_blap g b) by auto.
  apply (lap_form_error u uz uy uzz uzy uyy g b 1); auto.
  intros q Hq Hge. rewrite Hout by (destruct Hp; lia). unfold t. f_equal. f_equal. destruct Hp. lia.
Qed.

Definition lap_of (g : grid) (sg : R) : mat := if Req_EM_T sg 1 then elap g else olap g.

Lemma lap_error_inner : forall g b sg u uz uy uzz uzy uyy f ia ir Ma1 Ma2 Mr1 Mr2, sg = 1 \/ sg = -1 ->
  fine g b -> fits g b sg u uz uy uzz uzy uyy -> sampled g (seen u (ga g)) f -> is_point g ia ir ->
  let t := node (Na g) PI ia in let m := node (Nr g) (gL g) ir in
  (forall q, (q < b)%nat -> (Nr g <= ir + q + 1)%nat -> seen u (ga g) t (node (Nr g) (gL g) (ir + q + 1)%nat) = 0) ->
  lap_bound g b (seen u (ga g)) t m Ma1 Ma2 Mr1 Mr2 ->
  Rabs (gapply g (lap_of g sg) f (pos g ia ir) - gw g (pos g ia ir) * lap_at uy uzz uyy (ga g) t m)
  <= lap_error g b m Ma1 Ma2 Mr1 Mr2.
Proof.
  intros g b sg u uz uy uzz uzy uyy f ia ir Ma1 Ma2 Mr1 Mr2 Hsg (Hok & Hfd & Hs & HNa & HNr) (Hu & Hpar & Ht & Hm) Hf Hp t m Hout HB.
  replace (gapply g (lap_of g sg) f (pos g ia ir)) with (lap_form g b sg f (fun _ _ => 0) ia ir).
  - apply (lap_form_error u uz uy uzz uzy uyy g b sg); auto. intros q Hq Hge. symmetry. apply Hout; auto.
  - unfold lap_of. destruct (Req_EM_T sg 1) as [->|N]; symmetry; [apply elap_form; auto|].
    destruct Hsg as [->| ->]; [lra|apply olap_form; auto].
Qed.

(** * Hamiltonian *)
Lemma hamiltonian_apply : forall g m f k, (k < Nelem g)%nat ->
  gapply g (hamiltonian g m) f k
  = - (1 / 2) * gapply g (if (m mod 2 =? 0)%Z then elap g else olap g) f k + IZR m ^ 2 * gw g k * gf g k * f k.
Proof.
  intros g m f k Hk. unfold gapply, matvec, hamiltonian.
  set (L := if (m mod 2 =? 0)%Z then elap g else olap g).
  rewrite (sumR_ext _ _ (fun j => - (1 / 2) * (L k j * f j) + (if (k =? j)%nat then IZR m ^ 2 * gw g k * gf g k * f j else 0))).
  2:{ intros j Hj. unfold diagflat. destruct (Nat.eqb_spec k j); [|ring]. subst. ring. }
  rewrite sumR_plus, sumR_scal. f_equal. rewrite (sumR_single _ k); auto.
  - rewrite Nat.eqb_refl. reflexivity.
  - intros i Hi Hne. destruct (Nat.eqb_spec k i); [congruence|reflexivity].
Qed.

Lemma gf_point : forall g ia ir, grid_ok g -> is_point g ia ir ->
  gf g (pos g ia ir) = / (2 * py (ga g) (node (Na g) PI ia) (node (Nr g) (gL g) ir) ^ 2).
Proof.
  intros g ia ir Hok Hp. pose proof (pos_lt g ia ir Hp) as HP. rewrite gf_val0 by auto.
  rewrite !Xa_pos, !Xr_pos, xa_node, xr_node by (auto; apply Hp).
  destruct Hok as (_ & _ & _ & Ha & HL). destruct Hp as [Hia Hir].
  assert (NA : 0 < INR (Na g)) by apply lt_0_INR, Na_pos. assert (NR : 0 < INR (Nr g)) by apply lt_0_INR, Nr_pos.
  set (t := node (Na g) PI ia). set (m := node (Nr g) (gL g) ir).
  assert (Ht : 0 < t < PI).
  { unfold t, node. pose proof PI_RGT_0. pose proof (pos_INR ia). assert (INR ia + 1 <= INR (Na g)).
    { rewrite <- S_INR. apply le_INR. lia. }
    split; [apply Rdiv_lt_0_compat; nra|]. apply Rmult_lt_reg_r with (INR (Na g)); auto.
    unfold Rdiv. rewrite Rmult_assoc, Rinv_l by lra. nra. }
  assert (Hm : 0 < m). { unfold m, node. pose proof (pos_INR ir). apply Rdiv_lt_0_compat; nra. }
  pose proof (sin_pos_0PI t Ht). pose proof (sinh_pos m Hm). pose proof (cosh2_sinh2 m) as EC. pose proof (sin2c t) as ES.
  unfold py. replace (cosh m ^ 2 - cos t ^ 2) with (sinh m ^ 2 + sin t ^ 2) by lra.
  replace (cosh m ^ 2 - 1) with (sinh m ^ 2) by lra. replace (1 - cos t ^ 2) with (sin t ^ 2) by lra.
  field. repeat split; try nra.
Qed.

Lemma hamiltonian_error : forall g b (mz : Z) u uz uy uzz uzy uyy f ia ir Ma1 Ma2 Mr1 Mr2,
  let sg := if (mz mod 2 =? 0)%Z then 1 else -1 in
  fine g b -> fits g b sg u uz uy uzz uzy uyy -> sampled g (seen u (ga g)) f -> is_point g ia ir ->
  let t := node (Na g) PI ia in let m := node (Nr g) (gL g) ir in
  (forall q, (q < b)%nat -> (Nr g <= ir + q + 1)%nat -> seen u (ga g) t (node (Nr g) (gL g) (ir + q + 1)%nat) = 0) ->
  lap_bound g b (seen u (ga g)) t m Ma1 Ma2 Mr1 Mr2 ->
  let y := py (ga g) t m in
  Rabs (gapply g (hamiltonian g mz) f (pos g ia ir)
        - gw g (pos g ia ir) * (- (1 / 2) * (lap_at uy uzz uyy (ga g) t m - IZR mz ^ 2 / y ^ 2 * seen u (ga g) t m)))
  <= 1 / 2 * lap_error g b m Ma1 Ma2 Mr1 Mr2.
Proof.
  intros g b mz u uz uy uzz uzy uyy f ia ir Ma1 Ma2 Mr1 Mr2 sg Hfine Hfit Hf Hp t m Hout HB y.
  rewrite hamiltonian_apply by (apply pos_lt, Hp).
  assert (Hsg : sg = 1 \/ sg = -1) by (unfold sg; destruct (mz mod 2 =? 0)%Z; auto).
  replace (if (mz mod 2 =? 0)%Z then elap g else olap g) with (lap_of g sg).
  2:{ unfold lap_of, sg. destruct (mz mod 2 =? 0)%Z; destruct (Req_EM_T _ _) as [E|N]; auto; lra. }
  pose proof (lap_error_inner g b sg u uz uy uzz uzy uyy f ia ir Ma1 Ma2 Mr1 Mr2 Hsg Hfine Hfit Hf Hp Hout HB) as E.
  fold t m in E. rewrite gf_point by (auto; apply Hfine). fold t m y. rewrite (Hf ia ir Hp). fold t m.
  assert (Y : / (2 * y ^ 2) = 1 / 2 * / y ^ 2).
  { rewrite Rinv_mult. lra. }
  rewrite Y. set (L := gapply _ _ _ _) in *. set (G := gw g (pos g ia ir)) in *. set (V := lap_at _ _ _ _ _ _) in *.
  replace (_ - _) with (- (1 / 2) * (L - G * V)) by (unfold Rdiv; ring).
  rewrite Rabs_mult, Rabs_Ropp, (Rabs_right (1 / 2)) by lra. apply Rmult_le_compat_l; [lra|exact E].
Qed.

(** An orbital u e^(i mz phi) satisfying the Schroedinger equation at a grid point, with potential v and
    energy e, satisfies the row of the discrete eigenvalue problem up to the same error. *)
Lemma eigen_residual : forall g b (mz : Z) u uz uy uzz uzy uyy f ia ir Ma1 Ma2 Mr1 Mr2 v e,
  let sg := if (mz mod 2 =? 0)%Z then 1 else -1 in
  fine g b -> fits g b sg u uz uy uzz uzy uyy -> sampled g (seen u (ga g)) f -> is_point g ia ir ->
  let t := node (Na g) PI ia in let m := node (Nr g) (gL g) ir in
  (forall q, (q < b)%nat -> (Nr g <= ir + q + 1)%nat -> seen u (ga g) t (node (Nr g) (gL g) (ir + q + 1)%nat) = 0) ->
  lap_bound g b (seen u (ga g)) t m Ma1 Ma2 Mr1 Mr2 ->
  let y := py (ga g) t m in
  - (1 / 2) * (lap_at uy uzz uyy (ga g) t m - IZR mz ^ 2 / y ^ 2 * seen u (ga g) t m) + v * seen u (ga g) t m = e * seen u (ga g) t m ->
  let k := pos g ia ir in
  Rabs (gapply g (hamiltonian g mz) f k + gw g k * v * f k - e * (gw g k * f k)) <= 1 / 2 * lap_error g b m Ma1 Ma2 Mr1 Mr2.
Proof.
  intros g b mz u uz uy uzz uzy uyy f ia ir Ma1 Ma2 Mr1 Mr2 v e sg Hfine Hfit Hf Hp t m Hout HB y Q k.
  eapply Rle_trans; [|apply (hamiltonian_error g b mz u uz uy uzz uzy uyy f ia ir Ma1 Ma2 Mr1 Mr2 Hfine Hfit Hf Hp Hout HB)].
  fold t m y k. apply Req_le. f_equal. unfold k. rewrite (Hf ia ir Hp). fold t m k.
  replace (- (1 / 2) * (lap_at uy uzz uyy (ga g) t m - IZR mz ^ 2 / y ^ 2 * seen u (ga g) t m))
    with (e * seen u (ga g) t m - v * seen u (ga g) t m) by lra. ring.
Qed.
