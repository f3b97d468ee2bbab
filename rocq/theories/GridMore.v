(** Remaining grid facts: boundary mesh, metric, misplaced weights, single-column integrals, sigma,
    axis_plot, spinflip. *)
From Coq Require Import Reals List Arith Lia Lra ZArith Bool Permutation Sorted.
From Coquelicot Require Import Coquelicot.
From Verif Require Import Base BaseLemmas GridModel Poly GridSpec GridProofs NCProofs FDProofs OpProofs
  LapCont GridWitness.
Import ListNotations.
Local Open Scope R_scope.
Local Opaque sinh cosh.

(** Boundary mesh *)
Lemma bXr_val : forall g b ia q, bcN g = b -> (ia < Na g)%nat -> (q < b)%nat ->
  bXr g (ia + Na g * q)%nat = node (Nr g) (gL g) (Nr g + q).
Proof.
  intros g b ia q Hb Ha Hq. unfold bXr, flattenF, meshgrid_x. rewrite flat_div by auto.
  unfold bxr, linspace. rewrite Hb.
  assert (E : 1 + INR q * ((INR b - 1) / INR (b - 1)) = 1 + INR q).
  { destruct (Nat.eq_dec b 1) as [->|Hne].
    - assert (q = 0)%nat by lia. subst q. simpl. lra.
    - rewrite minus_INR by lia. simpl INR. assert (2 <= INR b) by (apply (le_INR 2); lia). field. lra. }
  rewrite E. rewrite xr_node, hr_val. unfold node.
  assert (INR (Nr g) <> 0) by (apply not_0_INR; pose proof (Nr_pos g); lia).
  rewrite minus_INR by (pose proof (Nr_pos g); lia). rewrite plus_INR. simpl INR. field. auto.
Qed.
Lemma bXa_val : forall g ia q, (ia < Na g)%nat -> bXa g (ia + Na g * q)%nat = node (Na g) PI ia.
Proof.
  intros g ia q Ha. unfold bXa, flattenF, meshgrid_y. rewrite flat_mod by auto. apply xa_node; auto.
Qed.
Lemma node_outside : forall n len i, (n <= i)%nat -> (0 < n)%nat -> 0 < len -> len < node n len i.
Proof.
  intros n len i Hi Hn Hl. unfold node.
  assert (0 < INR n) by (apply lt_0_INR; lia).
  assert (INR n <= INR i) by (apply le_INR; lia).
  apply Rmult_lt_reg_r with (INR n); auto. unfold Rdiv. rewrite Rmult_assoc, Rinv_l by lra. nra.
Qed.

(** Scale factors are the lengths of the coordinate tangent vectors. *)
Lemma metric_a : forall a m t,
  Derive (fun t => a * cosh m * cos t) t ^ 2 + Derive (fun t => a * sinh m * sin t) t ^ 2
  = a ^ 2 * (sinh m ^ 2 + sin t ^ 2).
Proof.
  intros. rewrite (is_derive_unique _ _ _ (dZt a m t)), (is_derive_unique _ _ _ (dYt a m t)).
  pose proof (cosh2_sinh2 m) as E. pose proof (sin2c t) as E'.
  replace ((- (a * cosh m * sin t)) ^ 2) with (a ^ 2 * cosh m ^ 2 * sin t ^ 2) by ring.
  replace ((a * sinh m * cos t) ^ 2) with (a ^ 2 * sinh m ^ 2 * cos t ^ 2) by ring.
  rewrite E. replace (cos t ^ 2) with (1 - sin t ^ 2) by lra. ring.
Qed.
Lemma metric_r : forall a m t,
  Derive (fun m => a * cosh m * cos t) m ^ 2 + Derive (fun m => a * sinh m * sin t) m ^ 2
  = a ^ 2 * (sinh m ^ 2 + sin t ^ 2).
Proof.
  intros. rewrite (is_derive_unique _ _ _ (dZm a t m)), (is_derive_unique _ _ _ (dYm a t m)).
  pose proof (cosh2_sinh2 m) as E. pose proof (sin2c t) as E'.
  replace ((a * sinh m * cos t) ^ 2) with (a ^ 2 * sinh m ^ 2 * cos t ^ 2) by ring.
  replace ((a * cosh m * sin t) ^ 2) with (a ^ 2 * cosh m ^ 2 * sin t ^ 2) by ring.
  rewrite E. replace (cos t ^ 2) with (1 - sin t ^ 2) by lra. ring.
Qed.
Lemma h_sq : forall g k, grid_ok g -> (k < Nelem g)%nat ->
  h1 g k ^ 2 = ga g ^ 2 * (sinh (Xr g k) ^ 2 + sin (Xa g k) ^ 2).
Proof.
  intros. rewrite h1_val by auto. rewrite Rpow_mult_distr. f_equal.
  rewrite <- Rsqr_pow2. apply Rsqr_sqrt. pose proof (pow2_ge_0 (sinh (Xr g k))). pose proof (pow2_ge_0 (sin (Xa g k))). lra.
Qed.

(** Weights *)
Lemma wi_wrong : gwi g23 (pos g23 1 0) <> wa g23 1%nat * wr g23 0%nat.
Proof.
  destruct g23_w as (A & B & C & D & E).
  unfold gwi, flattenC. change (pos g23 1 0 / Nr g23)%nat with 0%nat. change (pos g23 1 0 mod Nr g23)%nat with 1%nat.
  rewrite A, B, C, D. lra.
Qed.

Definition ideal_integral (g : grid) (f : vec) : R :=
  2 * PI * (gL g / INR (Nr g)) * (PI / INR (Na g))
  * sumR (Nr g) (fun ir => sumR (Na g) (fun ia => wa g ia * wr g ir * gw g (pos g ia ir) * f (pos g ia ir))).
Lemma integrate1_ideal : forall g f, gNMa g = gNMr g -> integrate1 g f = ideal_integral g f.
Proof.
  intros g f E. unfold integrate1, iprefac, ideal_integral. rewrite ha_val, hr_val, sum_points.
  f_equal. apply sumR_ext. intros ir Hr. apply sumR_ext. intros ia Ha.
  rewrite gwi_pos by (auto; split; auto). reflexivity.
Qed.
Lemma iprefac_pos : forall g, grid_ok g -> 0 < iprefac g.
Proof.
  intros g H. unfold iprefac. rewrite ha_val, hr_val.
  assert (0 < INR (Na g)) by (apply lt_0_INR, Na_pos). assert (0 < INR (Nr g)) by (apply lt_0_INR, Nr_pos).
  pose proof PI_RGT_0. assert (0 < gL g) by apply H.
  assert (0 < gL g / INR (Nr g)) by (apply Rdiv_lt_0_compat; auto).
  assert (0 < PI / INR (Na g)) by (apply Rdiv_lt_0_compat; auto).
  apply Rmult_lt_0_compat; [apply Rmult_lt_0_compat|]; auto. lra.
Qed.
Lemma g23_ok : grid_ok g23.
Proof. apply grid_of_ok; try lia; lra. Qed.
Lemma g22_ok : grid_ok g22.
Proof. apply grid_of_ok; try lia; lra. Qed.
Lemma wi_wrong_integral : exists f, integrate1 g23 f <> ideal_integral g23 f.
Proof.
  exists (fun k => if (k =? 1)%nat then 1 else 0). unfold integrate1, ideal_integral.
  replace (2 * PI * (gL g23 / INR (Nr g23)) * (PI / INR (Na g23))) with (iprefac g23)
    by (unfold iprefac; rewrite ha_val, hr_val; reflexivity).
  pose proof (iprefac_pos g23 g23_ok) as HP. intros E.
  apply Rmult_eq_reg_l in E; [|lra].
  rewrite (sumR_single _ 1%nat) in E.
  - rewrite (sumR_single _ 0%nat) in E.
    + rewrite (sumR_single _ 1%nat) in E.
      * change (pos g23 1 0) with 1%nat in E. rewrite Nat.eqb_refl in E.
        pose proof (gw_pos g23 1%nat g23_ok ltac:(compute; lia)) as HW.
        assert (E' : gwi g23 1%nat = wa g23 1%nat * wr g23 0%nat).
        { apply Rmult_eq_reg_r with (gw g23 1%nat); lra. }
        exact (wi_wrong E').
      * compute; lia.
      * intros i Hi Hne. change (Na g23) with 2%nat in Hi. destruct i as [|[|i]]; try lia. simpl. ring.
    + compute; lia.
    + intros i Hi Hne. change (Nr g23) with 3%nat in Hi. apply sumR_zero. intros ia Ha. change (Na g23) with 2%nat in Ha.
      unfold pos. change (Na g23) with 2%nat.
      destruct (Nat.eqb_spec (ia + 2 * i) 1); [lia|ring].
  - compute; lia.
  - intros i Hi Hne. destruct (Nat.eqb_spec i 1); [lia|ring].
Qed.

(** Single-column integral *)
Definition wtot (g : grid) : R := sumR (Nelem g) (fun k => gwi g k * gw g k).
Lemma wtot_g22 : 0 < wtot g22.
Proof.
  unfold wtot. apply sumR_pos.
  - compute; lia.
  - intros k Hk. destruct (pos_surj g22 k Hk) as (ia & ir & Hp & ->).
    rewrite gwi_pos by (auto; reflexivity).
    destruct (g22_w ia) as [A _]; [apply Hp|]. destruct (g22_w ir) as [_ B]; [apply Hp|]. rewrite A, B.
    pose proof (gw_pos g22 _ g22_ok (pos_lt _ _ _ Hp)). lra.
Qed.
Lemma col_const : forall g c, integrate_col g (fun _ => c) = INR (Nelem g) * integrate1 g (fun _ => c).
Proof.
  intros. rewrite integrate_col_val. unfold integrate1. rewrite sumR_const, sumR_scal_r. ring.
Qed.
Lemma col_wrong : forall g, grid_ok g -> wtot g <> 0 -> integrate_col g (fun _ => 1) <> integrate1 g (fun _ => 1).
Proof.
  intros g H HW. rewrite col_const. pose proof (iprefac_pos g H).
  assert (E : integrate1 g (fun _ => 1) = iprefac g * wtot g).
  { unfold integrate1, wtot. f_equal. apply sumR_ext. intros; ring. }
  assert (integrate1 g (fun _ => 1) <> 0) by (rewrite E; apply Rmult_integral_contrapositive; split; auto; lra).
  assert (2 <= INR (Nelem g)).
  { apply (le_INR 2). unfold Nelem. destruct H as (Q1 & Q2 & Q3 & _).
    assert (2 <= Na g)%nat.
    { unfold Na. assert (1 * 1 <= (gNP g - 1) * gNMa g)%nat by (apply Nat.mul_le_mono; lia). lia. }
    pose proof (Nr_pos g). nia. }
  nra.
Qed.
Lemma col_ratio : forall g u v, grid_ok g -> wtot g <> 0 -> sumR (Nelem g) v <> 0 ->
  integrate_col g u / integrate_col g v = sumR (Nelem g) u / sumR (Nelem g) v.
Proof.
  intros g u v H HW Hv. rewrite !integrate_col_val. fold (wtot g). pose proof (iprefac_pos g H).
  field. repeat split; auto; lra.
Qed.

(** sigma *)
Lemma sigma_pol1 : forall g n, exists s, sigma g 1 n = Ok (1%nat, s) /\
  forall k, s k 0%nat = gapply g (grada g) (fun i => n i 0%nat) k ^ 2 + gapply g (gradr g) (fun i => n i 0%nat) k ^ 2
            /\ 0 <= s k 0%nat.
Proof.
  intros. eexists. split; [reflexivity|]. intros k. simpl. split; [reflexivity|].
  apply Rplus_le_le_0_compat; apply (pow2_ge_0 (_)).
Qed.
Lemma sigma_pol2 : forall g n, exists s, sigma g 2 n = Ok (3%nat, s) /\
  forall k,
    s k 0%nat = gapply g (grada g) (fun i => n i 0%nat) k ^ 2 + gapply g (gradr g) (fun i => n i 0%nat) k ^ 2 /\
    s k 2%nat = gapply g (grada g) (fun i => n i 1%nat) k ^ 2 + gapply g (gradr g) (fun i => n i 1%nat) k ^ 2 /\
    s k 1%nat = sumR (Nelem g) (fun j =>
      gapply g (grada g) (fun i => n i 0%nat) j * gapply g (grada g) (fun i => n i 1%nat) j
      + gapply g (gradr g) (fun i => n i 0%nat) j * gapply g (gradr g) (fun i => n i 1%nat) j) /\
    0 <= s k 0%nat /\ 0 <= s k 2%nat.
Proof.
  intros. eexists. split; [reflexivity|]. intros k. cbn [Nat.eqb].
  split; [reflexivity|]. split; [reflexivity|]. split; [|split].
  - rewrite !rowtimes_dot. unfold gdot. rewrite <- sumR_plus. reflexivity.
  - apply Rplus_le_le_0_compat; apply pow2_ge_0.
  - apply Rplus_le_le_0_compat; apply pow2_ge_0.
Qed.
Lemma sigma_other : forall g c n, c <> 1%nat -> c <> 2%nat -> sigma g c n = Err ValueError.
Proof.
  intros. unfold sigma. destruct (Nat.eqb_spec c 1); [congruence|]. destruct (Nat.eqb_spec c 2); [congruence|]. reflexivity.
Qed.

(** An explicit density on the 2x2 grid for which entry 1 is wrong. *)
Definition f22 : vec := fun k => if (k mod 2 =? 1)%nat then 1 else 0.
Lemma g22_fd : fd_ok g22 1.
Proof. apply grid_of_fd; lia. Qed.
Lemma f22_grada : forall ia ir, is_point g22 ia ir ->
  gapply g22 (grada g22) f22 (pos g22 ia ir) <> 0.
Proof.
  intros ia ir Hp. pose proof (h1_pos g22 _ g22_ok (pos_lt _ _ _ Hp)) as Hh.
  rewrite (grada_form g22 1) by (auto using g22_fd; compute; lia).
  destruct (fd1_coef g22 g22_fd) as (A & B & C & _).
  assert (Hh1 : 0 < ha g22) by (rewrite ha_val; apply Rdiv_lt_0_compat; [apply PI_RGT_0|apply lt_0_INR; compute; lia]).
  assert (E : stencil 1 (d1 g22) (reflect (Na g22) 1 (aline g22 f22 ir)) ia = / 2).
  { unfold stencil. change (2 * 1 + 1)%nat with 3%nat. cbn [sumR]. rewrite A, B, C.
    assert (F0 : aline g22 f22 ir 0%nat = 0).
    { unfold aline, f22, pos. change (Na g22) with 2%nat. rewrite Nat.mul_comm, Nat.add_0_l, Nat.mod_mul by lia. reflexivity. }
    assert (F1 : aline g22 f22 ir 1%nat = 1).
    { unfold aline, f22, pos. change (Na g22) with 2%nat. rewrite Nat.mul_comm, Nat.mod_add by lia. reflexivity. }
    destruct Hp as [Ha _]. change (Na g22) with 2%nat in *.
    destruct ia as [|[|ia]]; [| |lia]; unfold reflect; simpl.
    - change (Pos.to_nat 1) with 1%nat. rewrite F0, F1. lra.
    - change (Pos.to_nat 1) with 1%nat. rewrite F0, F1. lra. }
  rewrite E. intros H. assert (0 < 1 / h1 g22 (pos g22 ia ir) * (/ 2 / ha g22)); [|lra].
  apply Rmult_lt_0_compat; apply Rdiv_lt_0_compat; lra.
Qed.
Lemma sigma_cross_wrong : exists s, sigma g22 2 (fun k _ => f22 k) = Ok (3%nat, s) /\
  s 0%nat 1%nat <> gapply g22 (grada g22) f22 0%nat * gapply g22 (grada g22) f22 0%nat
                   + gapply g22 (gradr g22) f22 0%nat * gapply g22 (gradr g22) f22 0%nat.
Proof.
  destruct (sigma_pol2 g22 (fun k _ => f22 k)) as (s & E & H). exists s. split; [exact E|].
  destruct (H 0%nat) as (_ & _ & -> & _).
  change (Nelem g22) with 4%nat. cbn [sumR].
  pose proof (f22_grada 1 0 ltac:(split; compute; lia)) as N. change (pos g22 1 0) with 1%nat in N.
  set (A := gapply g22 (grada g22) (fun i => f22 i)) in *. set (B := gapply g22 (gradr g22) (fun i => f22 i)).
  change (gapply g22 (grada g22) f22) with A in *. change (gapply g22 (gradr g22) f22) with B in *.
  assert (0 < A 1%nat * A 1%nat) by nra.
  pose proof (Rle_0_sqr (B 1%nat)). pose proof (Rle_0_sqr (A 2%nat)). pose proof (Rle_0_sqr (B 2%nat)).
  pose proof (Rle_0_sqr (A 3%nat)). pose proof (Rle_0_sqr (B 3%nat)). unfold Rsqr in *. lra.
Qed.

(** sigma inherits mirror symmetry *)
Lemma mirror1_eq_of_sym : forall g (f : vec), (forall k, (k < Nelem g)%nat -> mirror1 g f k = f k) ->
  forall M k, gapply g M (mirror1 g f) k = gapply g M f k.
Proof. intros. apply gapply_ext. auto. Qed.
Lemma sigma_mirror : forall g b n c s s', fd_ok g b -> (b <= Na g)%nat ->
  sigma g c n = Ok s -> sigma g c (mirror2 g n) = Ok s' ->
  fst s' = fst s /\ forall k j, (k < Nelem g)%nat -> (j < fst s)%nat -> snd s' k j = mirror1 g (fun i => snd s i j) k.
Proof.
  intros g b n c s s' H Hn E E'.
  assert (Ma : forall q k, (k < Nelem g)%nat -> gapply g (grada g) (fun i => mirror2 g n i q) k
                 = - mirror1 g (gapply g (grada g) (fun i => n i q)) k).
  { intros q k Hk. rewrite <- (grada_mirror g b) by auto. apply gapply_ext. intros; apply mirror2_mirror1; auto. }
  assert (Mr : forall q k, (k < Nelem g)%nat -> gapply g (gradr g) (fun i => mirror2 g n i q) k
                 = mirror1 g (gapply g (gradr g) (fun i => n i q)) k).
  { intros q k Hk. rewrite <- gradr_mirror by auto. apply gapply_ext. intros; apply mirror2_mirror1; auto. }
  assert (SQ : forall q k, (k < Nelem g)%nat ->
     gapply g (grada g) (fun i => mirror2 g n i q) k ^ 2 + gapply g (gradr g) (fun i => mirror2 g n i q) k ^ 2
     = mirror1 g (fun i => gapply g (grada g) (fun i => n i q) i ^ 2 + gapply g (gradr g) (fun i => n i q) i ^ 2) k).
  { intros q k Hk. rewrite Ma, Mr by auto.
    rewrite (mirror1_map2 _ _ _ g (fun x y => x ^ 2 + y ^ 2)) by auto. ring. }
  destruct (Nat.eq_dec c 1) as [->|N1].
  - inversion E; inversion E'; subst; simpl. split; auto. intros k j Hk Hj. apply SQ; auto.
  - destruct (Nat.eq_dec c 2) as [->|N2].
    + inversion E; inversion E'; subst; simpl. split; auto. intros k j Hk Hj.
      destruct (Nat.eqb_spec j 2); [apply SQ; auto|]. destruct (Nat.eqb_spec j 0); [apply SQ; auto|].
      rewrite !rowtimes_dot. unfold gdot.
      destruct (mirror1_index g k Hk) as (k' & _ & Ek & _). rewrite (Ek R). clear Ek.
      assert (R2 : forall F, sumR (Nelem g) (mirror1 g F) = sumR (Nelem g) F).
      { intros F. rewrite !sum_points. apply sumR_ext. intros ir Hir. rewrite <- (sumR_rev (Na g)).
        apply sumR_ext. intros ia Hia. rewrite mirror1_pos by (split; [lia|auto]). f_equal. f_equal. lia. }
      f_equal.
      * rewrite <- (R2 (fun k0 => gapply g (grada g) (fun k1 => n k1 0%nat) k0 * gapply g (grada g) (fun k1 => n k1 1%nat) k0)).
        apply sumR_ext. intros i Hi. rewrite (mirror1_map2 _ _ _ g Rmult) by auto. rewrite !Ma by auto. ring.
      * rewrite <- (R2 (fun k0 => gapply g (gradr g) (fun k1 => n k1 0%nat) k0 * gapply g (gradr g) (fun k1 => n k1 1%nat) k0)).
        apply sumR_ext. intros i Hi. rewrite (mirror1_map2 _ _ _ g Rmult) by auto. rewrite !Mr by auto. ring.
    + rewrite sigma_other in E by auto. discriminate.
Qed.

(** spinflip *)
Lemma spinflip_shape : forall A (x : arr A), shape (spinflip x) = shape x.
Proof. intros A [f|c f]; reflexivity. Qed.
Lemma spinflip_2 : forall A (f : nat -> nat -> A) k,
  entry (spinflip (A2 2 f)) k 0 = f k 1%nat /\ entry (spinflip (A2 2 f)) k 1 = f k 0%nat.
Proof. intros; split; reflexivity. Qed.
Lemma spinflip_one : forall A (x : arr A) k s, (shape x = None \/ (shape x = Some 1%nat /\ s = 0%nat)) ->
  entry (spinflip x) k s = entry x k s.
Proof.
  intros A [f|c f] k s H; [reflexivity|]. simpl in *. destruct H as [H|[H ->]]; [discriminate|].
  injection H as ->. reflexivity.
Qed.
Definition in_cols {A} (x : arr A) (s : nat) : Prop := match shape x with None => True | Some c => (s < c)%nat end.
Lemma spinflip_invol : forall A (x : arr A) k s, in_cols x s -> entry (spinflip (spinflip x)) k s = entry x k s.
Proof.
  intros A [f|c f] k s H; [reflexivity|]. unfold in_cols in H. simpl in *. f_equal. lia.
Qed.
Lemma spinflip_mirror : forall A g (x : arr A) k s, (k < Nelem g)%nat -> in_cols x s ->
  entry (spinflip (mirror g x)) k s = entry (mirror g (spinflip x)) k s.
Proof.
  intros A g x k s Hk H. destruct (pos_surj g k Hk) as (ia & ir & Hp & ->).
  rewrite mirror_entry by auto. destruct x as [f|c f].
  - simpl. pose proof (mirror1_pos A g f ia ir Hp) as E. unfold mirror1 in E. exact E.
  - simpl. pose proof (mirror2_pos A g f ia ir (c - 1 - s) Hp) as E. unfold mirror2 in E. exact E.
Qed.
Lemma spinflip_integrate : forall g n c k s, (2 <= c)%nat ->
  exists F F', integrate g (A2 c n) = IArr c F /\ integrate g (spinflip (A2 c n)) = IArr c F' /\
    F' k s = F k (c - 1 - s)%nat.
Proof.
  intros g n c k s Hc. unfold integrate, spinflip. destruct (Nat.eqb_spec c 1); [lia|].
  eexists _, _. split; [reflexivity|]. split; reflexivity.
Qed.
Lemma spinflip_all : forall (A : Type) (g : grid) (x : arr A) k s, (k < Nelem g)%nat -> in_cols x s ->
  shape (spinflip x) = shape x /\
  entry (spinflip (spinflip x)) k s = entry x k s /\
  entry (spinflip (mirror g x)) k s = entry (mirror g (spinflip x)) k s /\
  ((shape x = None \/ shape x = Some 1%nat) -> entry (spinflip x) k s = entry x k s) /\
  (shape x = Some 2%nat -> entry (spinflip x) k s = entry x k (1 - s)).
Proof.
  intros A g x k s Hk H. split; [apply spinflip_shape|]. split; [apply spinflip_invol; auto|].
  split; [apply spinflip_mirror; auto|]. split.
  - intros Hs. apply spinflip_one. destruct Hs as [Hs|Hs]; [left; auto|right; split; auto].
    unfold in_cols in H. rewrite Hs in H. lia.
  - destruct x as [f|c f]; simpl; [discriminate|]. intros E. injection E as ->. f_equal.
Qed.
Lemma d1_centre : forall g b, fd_ok g b -> d1 g b = 0.
Proof.
  intros g b H. pose proof (d1_parity g b H b ltac:(lia)) as E.
  replace (2 * b + 1 - 1 - b)%nat with b in E by lia. lra.
Qed.
Lemma fd_band_sym : forall g b p q, fd_ok g b ->
  D1 g p q = fd_band (gloc g) (d1 g) p q /\ fd_band (gloc g) (d1 g) q p = - fd_band (gloc g) (d1 g) p q /\
  fd_band (gloc g) (d2 g) q p = fd_band (gloc g) (d2 g) p q.
Proof.
  intros g b p q H. rewrite (D1_val g b) by auto. rewrite (proj1 H), !band_val.
  replace (Z.of_nat p - Z.of_nat q)%Z with (- (Z.of_nat q - Z.of_nat p))%Z by ring.
  rewrite (coefZ_opp b (d1 g) (-1) (d1_parity g b H)), (coefZ_opp b (d2 g) 1 (d2_parity g b H)).
  repeat split; lra.
Qed.
Lemma fd_coef_parity : forall loc d raw,
  (forall i j, (i < length loc)%nat -> (j < length loc)%nat -> i <> j -> IZR (nth i loc 0%Z) <> IZR (nth j loc 0%Z)) ->
  (forall j, (j < length loc)%nat -> IZR (nth (length loc - 1 - j) loc 0%Z) = - IZR (nth j loc 0%Z)) ->
  solves (length loc) (transp (fd_table loc)) (fd_rhs d) raw ->
  forall j, (j < length loc)%nat -> fd_coef raw (length loc - 1 - j)%nat = (-1) ^ d * fd_coef raw j.
Proof.
  intros loc d raw HD HR Hs j Hj. unfold fd_coef.
  rewrite (fd_parity loc d raw HD HR Hs j Hj).
  destruct (Nat.Even_or_Odd d) as [[m ->]|[m ->]].
  - rewrite pow_mult. replace ((-1) ^ 2) with 1 by ring. rewrite pow1, !Rmult_1_l. reflexivity.
  - rewrite pow_add, pow_mult. replace ((-1) ^ 2) with 1 by ring. rewrite pow1.
    replace (1 * (-1) ^ 1 * raw j) with (- raw j) by ring. rewrite fd_flush_opp. ring.
Qed.
Lemma lap_parity : forall g b f s, fd_ok g b -> (b <= Na g)%nat ->
  (forall k, (k < Nelem g)%nat -> mirror1 g f k = s * f k) ->
  forall k, (k < Nelem g)%nat ->
  mirror1 g (gapply g (elap g) f) k = s * gapply g (elap g) f k /\
  mirror1 g (gapply g (olap g) f) k = s * gapply g (olap g) f k.
Proof.
  intros g b f s H Hb Hf k Hk. rewrite <- (elap_mirror g b), <- (olap_mirror g b) by auto.
  split; rewrite (gapply_ext g _ (mirror1 g f) (fun i => s * f i)) by auto;
  unfold gapply, matvec; rewrite <- sumR_scal; apply sumR_ext; intros; ring.
Qed.
Lemma twice_diff_zy : twice_diff (fun z y => z * y) (fun _ y => y) (fun z _ => z) (fun _ _ => 0) (fun _ _ => 1) (fun _ _ => 0).
Proof.
  assert (P1 : forall z y, differentiable_pt_lim (fun z _ : R => z) z y 1 0).
  { intros z y eps. exists eps. intros u v Hu Hv. replace (u - z - (1 * (u - z) + 0 * (v - y))) with 0 by ring.
    rewrite Rabs_R0. apply Rmult_le_pos; [left; apply cond_pos|]. apply Rle_trans with (2 := Rmax_l _ _). apply Rabs_pos. }
  assert (P2 : forall z y, differentiable_pt_lim (fun _ y : R => y) z y 0 1).
  { intros z y eps. exists eps. intros u v Hu Hv. replace (v - y - (0 * (u - z) + 1 * (v - y))) with 0 by ring.
    rewrite Rabs_R0. apply Rmult_le_pos; [left; apply cond_pos|]. apply Rle_trans with (2 := Rmax_l _ _). apply Rabs_pos. }
  intros z y. split; [|split; auto].
  intros eps. exists eps. intros u v Hu Hv.
  replace (u * v - z * y - (y * (u - z) + z * (v - y))) with ((u - z) * (v - y)) by ring.
  rewrite Rabs_mult. apply Rmult_le_compat; try apply Rabs_pos; [left; auto|apply Rmax_r].
Qed.
