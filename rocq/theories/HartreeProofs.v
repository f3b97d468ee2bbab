From Coq Require Import Reals List Arith Lia Lra ZArith Bool FunctionalExtensionality.
From Verif Require Import Base BaseLemmas GridModel Poly GridSpec GridProofs NCProofs FDProofs OpProofs GridWitness GridMore
  HartreeModel HartreeSpec.
Import ListNotations.
Local Open Scope R_scope.
Local Opaque sinh cosh legendre.

(** ** Solvers *)
Lemma solver_unique : forall n M x y b, nonsing n M -> solves n M b x -> solves n M b y ->
  forall i, (i < n)%nat -> x i = y i.
Proof.
  intros n M x y b HM Hx Hy i Hi.
  enough (x i - y i = 0) by lra. apply (HM (fun j => x j - y j)); auto.
  intros k Hk. rewrite (sumR_ext _ _ (fun j => M k j * x j - M k j * y j)) by (intros; ring).
  rewrite sumR_minus, Hx, Hy by auto. ring.
Qed.
Lemma solver_ext : forall n M sp b b', nonsing n M -> solver_for n M sp ->
  (forall i, (i < n)%nat -> b i = b' i) -> forall i, (i < n)%nat -> sp b i = sp b' i.
Proof.
  intros n M sp b b' HM HS H. apply (solver_unique n M _ _ b'); auto.
  intros i Hi. rewrite <- H by auto. apply HS; auto.
Qed.
Lemma solver_lin : forall n M sp b b' c, nonsing n M -> solver_for n M sp ->
  forall i, (i < n)%nat -> sp (fun k => c * b k + b' k) i = c * sp b i + sp b' i.
Proof.
  intros n M sp b b' c HM HS i Hi.
  apply (solver_unique n M (sp (fun k => c * b k + b' k)) (fun k => c * sp b k + sp b' k) (fun k => c * b k + b' k)); auto.
  intros k Hk. rewrite (sumR_ext _ _ (fun j => c * (M k j * sp b j) + M k j * sp b' j)) by (intros; ring).
  rewrite sumR_plus, sumR_scal. rewrite (HS b k Hk), (HS b' k Hk). reflexivity.
Qed.
Lemma solver_two : forall n L U sp sp' b, solver_for n L sp -> solver_for n U sp' ->
  solves n (matmul n L U) b (sp' (sp b)).
Proof.
  intros n L U sp sp' b HL HU i Hi.
  transitivity (sumR n (fun k => L i k * sp b k)); [|apply HL; auto].
  unfold matmul.
  rewrite (sumR_ext _ _ (fun j => sumR n (fun k => L i k * (U k j * sp' (sp b) j)))).
  2:{ intros. rewrite <- sumR_scal_r. apply sumR_ext. intros; ring. }
  rewrite sumR_swap. apply sumR_ext. intros k Hk. rewrite sumR_scal. rewrite HU by auto. reflexivity.
Qed.

(** ** Right-hand side *)
Lemma ht_Q_lin : forall g n m c k, ht_Q g (fun i => c * n i + m i) k = c * ht_Q g n k + ht_Q g m k.
Proof.
  intros. unfold ht_Q. rewrite <- integrate1_lin. apply integrate1_ext. intros; ring.
Qed.
Lemma ht_Q0_lin : forall g n m c, ht_Q0 g (fun i => c * n i + m i) = c * ht_Q0 g n + ht_Q0 g m.
Proof. intros. unfold ht_Q0. rewrite <- integrate1_lin. apply integrate1_ext. intros; ring. Qed.
Lemma ht_bVh_lin : forall g n m c k j,
  ht_bVh g (fun i => c * n i + m i) k j = c * ht_bVh g n k j + ht_bVh g m k j.
Proof.
  induction k; intros; cbn [ht_bVh].
  - rewrite ht_Q0_lin. ring.
  - rewrite IHk, ht_Q_lin. ring.
Qed.
Lemma ht_rhs_lin : forall g n m c k,
  ht_rhs g (fun i => c * n i + m i) k = c * ht_rhs g n k + ht_rhs g m k.
Proof.
  intros. unfold ht_rhs.
  destruct (Nr g - bcN g <=? k / Na g)%nat; [|ring].
  set (p := (_ + _)%nat). unfold matvec.
  rewrite (sumR_ext _ (fun j => blap g p j * ht_bVh g (fun i => c * n i + m i) n_multipole j)
    (fun j => c * (blap g p j * ht_bVh g n n_multipole j) + blap g p j * ht_bVh g m n_multipole j)).
  2:{ intros. rewrite ht_bVh_lin. ring. }
  rewrite sumR_plus, sumR_scal. ring.
Qed.
Lemma ht_Q_ext : forall g n m k, (forall i, (i < Nelem g)%nat -> n i = m i) -> ht_Q g n k = ht_Q g m k.
Proof. intros. unfold ht_Q. apply integrate1_ext. intros. rewrite H by auto. ring. Qed.
Lemma ht_Q0_Q : forall g n, ht_Q0 g n = ht_Q g n 0.
Proof. intros. unfold ht_Q0, ht_Q. apply integrate1_ext. intros. simpl. ring. Qed.
Lemma ht_bVh_sum : forall g n k j,
  ht_bVh g n k j = sumR (k + 1) (fun l => ht_Q g n l / ht_brho g j ^ (l + 1) * legendre l (ht_bZ g j / ht_brho g j)).
Proof.
  induction k; intros; cbn [ht_bVh].
  - rewrite ht_Q0_Q. simpl. unfold Rdiv. rewrite !Rmult_1_r, Rmult_1_l. ring.
  - rewrite IHk. replace (S k + 1)%nat with (S (k + 1)) by lia. cbn [sumR].
    replace (k + 1)%nat with (S k) by lia. replace (S k + 1)%nat with (S (S k)) by lia. unfold Rdiv. ring.
Qed.
Lemma ht_bVh_ext : forall g n m k j, (forall i, (i < Nelem g)%nat -> n i = m i) -> ht_bVh g n k j = ht_bVh g m k j.
Proof. intros. rewrite !ht_bVh_sum. apply sumR_ext. intros. rewrite (ht_Q_ext g n m) by auto. reflexivity. Qed.
Lemma ht_rhs_ext : forall g n m k, (k < Nelem g)%nat -> (forall i, (i < Nelem g)%nat -> n i = m i) ->
  ht_rhs g n k = ht_rhs g m k.
Proof.
  intros g n m k Hk H. unfold ht_rhs. rewrite H by auto.
  destruct (_ <=? _)%nat; auto. f_equal. unfold matvec. apply sumR_ext. intros.
  rewrite (ht_bVh_ext g n m) by auto. reflexivity.
Qed.

(** ** Geometry of the mesh (C22) *)
Lemma rho_rad : forall a t m, 0 < a ->
  a * sqrt (cosh m ^ 2 + cos t ^ 2 - 1) = rad (a * cosh m * cos t) (a * sinh m * sin t).
Proof.
  intros a t m Ha. unfold rad. pose proof (cosh2_sinh2 m) as E. pose proof (sin2c t) as E'.
  assert (P : 0 <= cosh m ^ 2 + cos t ^ 2 - 1).
  { pose proof (pow2_ge_0 (sinh m)). pose proof (pow2_ge_0 (cos t)). lra. }
  transitivity (sqrt (a * a * (cosh m ^ 2 + cos t ^ 2 - 1))).
  { rewrite sqrt_mult_alt by nra. rewrite sqrt_square by lra. reflexivity. }
  f_equal. replace (a * cosh m * cos t * (a * cosh m * cos t) + a * sinh m * sin t * (a * sinh m * sin t))
    with (a * a * (cosh m ^ 2 * cos t ^ 2 + sinh m ^ 2 * sin t ^ 2)) by ring.
  replace (sinh m ^ 2) with (cosh m ^ 2 - 1) by lra. replace (sin t ^ 2) with (1 - cos t ^ 2) by lra. ring.
Qed.
Lemma rad_pos : forall z y, 0 < y -> 0 < rad z y.
Proof. intros. unfold rad. apply sqrt_lt_R0. nra. Qed.
Lemma rad_ratio : forall z y, 0 < y -> Rabs (z / rad z y) <= 1.
Proof.
  intros z y H. pose proof (rad_pos z y H) as P. unfold Rdiv. rewrite Rabs_mult, Rabs_inv, (Rabs_pos_eq (rad z y)) by lra.
  apply (Rmult_le_reg_r (rad z y)); auto. rewrite Rmult_assoc, Rinv_l, Rmult_1_r, Rmult_1_l by lra.
  rewrite <- sqrt_Rsqr_abs. unfold rad. apply sqrt_le_1_alt. unfold Rsqr. nra.
Qed.
Lemma gY_pos : forall g k, grid_ok g -> (k < Nelem g)%nat -> 0 < gY g k.
Proof.
  intros g k Hg Hk. pose proof (h3_pos g k Hg Hk) as P. rewrite h3_val in P by auto. rewrite gY_val by auto. exact P.
Qed.
Lemma ht_Z_val : forall g k, (k < Nelem g)%nat -> ht_Z g k = gZ g k.
Proof. intros. rewrite gZ_val by auto. reflexivity. Qed.
Lemma ht_rho_val : forall g k, grid_ok g -> (k < Nelem g)%nat -> ht_rho g k = rad (gZ g k) (gY g k).
Proof. intros g k Hg Hk. rewrite gZ_val, gY_val by auto. apply rho_rad. apply Hg. Qed.
Lemma sinh_pos : forall x, 0 < x -> 0 < sinh x.
Proof. intros. rewrite <- sinh_0. apply sinh_lt. auto. Qed.
Lemma ghostY_pos : forall g i q, grid_ok g -> (i < Na g)%nat -> 0 < ghostY g i q.
Proof.
  intros g i q Hg Hi. unfold ghostY. destruct Hg as (_ & _ & _ & Ha & HL).
  assert (N1 : 0 < INR (Nr g)) by (apply lt_0_INR, Nr_pos).
  apply Rmult_lt_0_compat; [apply Rmult_lt_0_compat; auto|].
  - apply sinh_pos. unfold node. apply Rdiv_lt_0_compat; auto. apply Rmult_lt_0_compat; auto.
    pose proof (pos_INR (Nr g + q)). lra.
  - pose proof (node_range (Na g) PI i Hi PI_RGT_0). apply sin_gt_0; lra.
Qed.
Lemma ht_bZ_val : forall g b i q, bcN g = b -> (i < Na g)%nat -> (q < b)%nat ->
  ht_bZ g (i + Na g * q)%nat = ghostZ g i q.
Proof. intros. unfold ht_bZ. rewrite (bXr_val g b), bXa_val by auto. reflexivity. Qed.
Lemma ht_brho_val : forall g b i q, grid_ok g -> bcN g = b -> (i < Na g)%nat -> (q < b)%nat ->
  ht_brho g (i + Na g * q)%nat = rad (ghostZ g i q) (ghostY g i q).
Proof.
  intros g b i q Hg E Hi Hq. unfold ht_brho. rewrite (bXr_val g b), bXa_val by auto. apply rho_rad. apply Hg.
Qed.
Lemma ht_Q_val : forall g n l, grid_ok g -> ht_Q g n l =
  integrate1 g (fun i => rad (gZ g i) (gY g i) ^ l * legendre l (gZ g i / rad (gZ g i) (gY g i)) * n i).
Proof.
  intros. unfold ht_Q. apply integrate1_ext. intros k Hk. rewrite ht_rho_val, ht_Z_val by auto. reflexivity.
Qed.
Lemma ht_bVh_multipole : forall g n b i q, grid_ok g -> bcN g = b -> (i < Na g)%nat -> (q < b)%nat ->
  ht_bVh g n n_multipole (i + Na g * q)%nat = multipole g n (ghostZ g i q) (ghostY g i q).
Proof.
  intros g n b i q Hg E Hi Hq. rewrite ht_bVh_sum. unfold multipole. apply sumR_ext. intros l Hl.
  rewrite ht_Q_val, (ht_brho_val g b), (ht_bZ_val g b) by auto. reflexivity.
Qed.
Lemma ht_rhs_pos : forall g n b ia ir, grid_ok g -> bcN g = b -> is_point g ia ir ->
  ht_rhs g n (pos g ia ir) =
  - 4 * PI * gw g (pos g ia ir) * n (pos g ia ir)
  - (if (Nr g - b <=? ir)%nat
     then matvec (Na g * b) (blap g) (fun j => multipole g n (ghostZ g (j mod Na g) (j / Na g)) (ghostY g (j mod Na g) (j / Na g)))
            (ia + Na g * (ir - (Nr g - b)))%nat else 0).
Proof.
  intros g n b ia ir Hg E [Ha Hr]. unfold ht_rhs, pos. rewrite !flat_div, !flat_mod by auto. rewrite E.
  destruct (Nr g - b <=? ir)%nat; [|ring]. f_equal. unfold matvec. apply sumR_ext.
  intros j Hj. f_equal.
  assert (HN : (0 < Na g)%nat) by apply Na_pos.
  assert (Hm : (j mod Na g < Na g)%nat) by (apply Nat.mod_upper_bound; lia).
  assert (Hd : (j / Na g < b)%nat) by (apply Nat.div_lt_upper_bound; lia).
  rewrite <- (ht_bVh_multipole g n b) by auto. f_equal. rewrite Nat.add_comm. apply Nat.div_mod. lia.
Qed.

(** ** Poisson equation (C21) *)
Lemma solves_gapply : forall g M b x k, solves (Nelem g) M b x -> (k < Nelem g)%nat -> gapply g M x k = b k.
Proof. intros. unfold gapply, matvec. apply H; auto. Qed.

Lemma v_hartree_ok : forall g spL spU n b, fd_ok g b -> (b <= Nr g)%nat ->
  forall r, v_hartree g spL spU n = Ok r ->
  exists c v, r = A2 c v /\ (forall k, v k 0%nat = spU (spL (ht_rhs g (match n with A1 f => f | A2 c f => sum_cols c f end))) k).
Proof.
  intros g spL spU n b H Hb r E. unfold v_hartree in E. destruct (_ || _)%bool; [discriminate|].
  destruct (_ =? 0)%nat; [discriminate|]. injection E as <-. eexists; eexists. split; [reflexivity|]. reflexivity.
Qed.
Lemma fd_ok_b1 : forall g b, fd_ok g b -> (1 <= b)%nat.
Proof. intros g b (_ & H & _). exact H. Qed.

Lemma hartree_value : forall g spL spU b, fd_ok g b -> (b <= Nr g)%nat ->
  (forall f, v_hartree g spL spU (A1 f) = Ok (A2 1 (fun k s => if (s =? 0)%nat then spU (spL (ht_rhs g f)) k else 0))) /\
  (forall c f, (c = 1 \/ c = 2)%nat -> exists v, v_hartree g spL spU (A2 c f) = Ok (A2 c v) /\
     forall k s, (s < c)%nat -> v k s = spU (spL (ht_rhs g (sum_cols c f))) k).
Proof.
  intros g spL spU b H Hb. pose proof (fd_ok_b1 g b H). pose proof (fd_ok_bcN g b H) as E.
  unfold v_hartree. rewrite E.
  assert (F : ((b =? 0)%nat || (Nr g <? b)%nat)%bool = false).
  { destruct (Nat.eqb_spec b 0); [lia|]. destruct (Nat.ltb_spec (Nr g) b); [lia|]. reflexivity. }
  rewrite F. split.
  - intros f. cbn [Nat.eqb]. f_equal. f_equal.
    apply functional_extensionality. intros k. apply functional_extensionality. intros [|[|s]]; reflexivity.
  - intros c f [->| ->]; cbn [Nat.eqb]; eexists; (split; [reflexivity|]); intros k [|[|s]] Hs; try lia; reflexivity.
Qed.

Lemma poisson : forall g spL spU L U b n, grid_ok g -> fd_ok g b -> (b <= Na g)%nat -> (b <= Nr g)%nat ->
  solver_for (Nelem g) L spL -> solver_for (Nelem g) U spU ->
  (forall i j, (i < Nelem g)%nat -> (j < Nelem g)%nat -> matmul (Nelem g) L U i j = elap g i j) ->
  forall ia ir, is_point g ia ir ->
  lap_form g b 1 (spU (spL (ht_rhs g n))) (fun i q => multipole g n (ghostZ g i q) (ghostY g i q)) ia ir
  = - 4 * PI * gw g (pos g ia ir) * n (pos g ia ir).
Proof.
  intros g spL spU L U b n Hg H Ha Hr HL HU HLU ia ir Hp.
  set (out := fun j => multipole g n (ghostZ g (j mod Na g) (j / Na g)) (ghostY g (j mod Na g) (j / Na g))).
  assert (E : forall x, lap_form g b 1 x (fun i q => multipole g n (ghostZ g i q) (ghostY g i q)) ia ir
            = lap_form g b 1 x (fun i q => out (i + Na g * q)%nat) ia ir).
  { intros x. unfold lap_form. destruct Hp as [Hia Hir].
    assert (X : forall c, stencil b c (reflect_inner (Nr g) 1 (rline g x ia) (fun q => multipole g n (ghostZ g ia q) (ghostY g ia q))) ir
      = stencil b c (reflect_inner (Nr g) 1 (rline g x ia) (fun q => out (ia + Na g * q)%nat)) ir).
    { intros c. unfold stencil. apply sumR_ext. intros j Hj. f_equal. unfold reflect_inner, out.
      destruct (_ <? 0)%Z; auto. destruct (_ <? _)%Z; auto. rewrite flat_mod, flat_div by auto. reflexivity. }
    rewrite !X. reflexivity. }
  rewrite E, <- elap_blap by auto.
  assert (S : solves (Nelem g) (elap g) (ht_rhs g n) (spU (spL (ht_rhs g n)))).
  { intros i Hi. rewrite (sumR_ext _ _ (fun j => matmul (Nelem g) L U i j * spU (spL (ht_rhs g n)) j)).
    2:{ intros. rewrite HLU by auto. reflexivity. } apply solver_two; auto. }
  rewrite (solves_gapply g _ _ _ _ S) by (apply pos_lt; auto).
  rewrite (ht_rhs_pos g n b) by (auto; apply fd_ok_bcN; auto). fold out.
  destruct (Nr g - b <=? ir)%nat; ring.
Qed.

(** With row pivoting: the system actually solved. *)
Lemma permuted_system : forall g spL spU r n, splu_ok (Nelem g) (elap g) r ->
  solver_for (Nelem g) (lu_L r) spL -> solver_for (Nelem g) (lu_U r) spU ->
  forall i, (i < Nelem g)%nat ->
  gapply g (elap g) (spU (spL (ht_rhs g n))) (lu_pr r i) = ht_rhs g n i.
Proof.
  intros g spL spU r n (HP & _ & _) HL HU i Hi.
  unfold gapply, matvec. rewrite <- (solver_two (Nelem g) (lu_L r) (lu_U r) spL spU (ht_rhs g n) HL HU i Hi).
  apply sumR_ext. intros j Hj. rewrite HP by auto. reflexivity.
Qed.
Lemma permuted_iff : forall g spL spU r n, splu_ok (Nelem g) (elap g) r ->
  solver_for (Nelem g) (lu_L r) spL -> solver_for (Nelem g) (lu_U r) spU ->
  (solves (Nelem g) (elap g) (ht_rhs g n) (spU (spL (ht_rhs g n)))
   <-> forall i, (i < Nelem g)%nat -> ht_rhs g n (lu_pr r i) = ht_rhs g n i).
Proof.
  intros g spL spU r n HP HL HU. pose proof (permuted_system g spL spU r n HP HL HU) as Q.
  destruct HP as (HP & HR & HI). split.
  - intros S i Hi. rewrite <- (Q i Hi). symmetry. apply solves_gapply; auto.
  - intros S i Hi.
    assert (X : exists j, (j < Nelem g)%nat /\ lu_pr r j = i).
    { destruct (in_dec Nat.eq_dec i (map (lu_pr r) (seq 0 (Nelem g)))) as [I|NI].
      - apply in_map_iff in I. destruct I as (j & E & Hj). apply in_seq in Hj. exists j. split; [lia|auto].
      - exfalso.
        assert (ND : NoDup (map (lu_pr r) (seq 0 (Nelem g)))).
        { clear - HI. assert (forall l, NoDup l -> (forall x, In x l -> (x < Nelem g)%nat) -> NoDup (map (lu_pr r) l)).
          { induction l; intros N B; simpl; constructor; inversion N; subst.
            - intros I. apply in_map_iff in I. destruct I as (x & E & Hx).
              apply HI in E; [subst; contradiction|apply B; simpl; auto|apply B; simpl; auto].
            - apply IHl; auto. intros; apply B; simpl; auto. }
          apply H; [apply seq_NoDup|]. intros x Hx. apply in_seq in Hx. lia. }
        assert (LE : incl (i :: map (lu_pr r) (seq 0 (Nelem g))) (seq 0 (Nelem g))).
        { intros x [<-|I]; [apply in_seq; lia|]. apply in_map_iff in I. destruct I as (j & <- & Hj).
          apply in_seq in Hj. apply in_seq. split; [lia|]. apply HR. lia. }
        apply NoDup_incl_length in LE; [|constructor; auto].
        simpl in LE. rewrite map_length, seq_length in LE. lia. }
    destruct X as (j & Hj & <-). rewrite S by auto. apply Q; auto.
Qed.

(** ** Legendre *)
Lemma legendre_SS : forall n x, legendre (S (S n)) x
  = ((2 * INR (S n) + 1) * x * legendre (S n) x - INR (S n) * legendre n x) / (INR (S n) + 1).
Proof. reflexivity. Qed.
Lemma legendre_at_1 : forall n, legendre n 1 = 1 /\ legendre (S n) 1 = 1.
Proof.
  induction n; [split; reflexivity|]. destruct IHn as [A B]. split; auto.
  rewrite legendre_SS, A, B. pose proof (pos_INR (S n)). field. lra.
Qed.
Lemma legendre_parity : forall n x, legendre n (- x) = (-1) ^ n * legendre n x /\ legendre (S n) (- x) = (-1) ^ S n * legendre (S n) x.
Proof.
  induction n; intros x; [split; [change (1 = 1 * 1); ring|change (- x = -1 * 1 * x); ring]|].
  destruct (IHn x) as [A B]. split; auto. rewrite !legendre_SS, A, B. pose proof (pos_INR (S n)).
  replace ((-1) ^ S (S n)) with ((-1) ^ n) by (simpl; ring). simpl pow. unfold Rdiv. ring.
Qed.

(** ** Mirror (C70) *)
Definition refl_idx (g : grid) (k : nat) : nat := (Na g - 1 - k mod Na g + Na g * (k / Na g))%nat.

Lemma rad_opp : forall z y, rad (- z) y = rad z y.
Proof. intros. unfold rad. f_equal. ring. Qed.
Lemma ht_Q_mirror : forall g n l, grid_ok g -> lstsq_ok g -> gNMa g = gNMr g -> (2 <= gNMa g)%nat ->
  ht_Q g (mirror1 g n) l = (-1) ^ l * ht_Q g n l.
Proof.
  intros g n l Hg (HN & _) E H2. rewrite !ht_Q_val by auto.
  set (F := fun i => rad (gZ g i) (gY g i) ^ l * legendre l (gZ g i / rad (gZ g i) (gY g i)) * n i).
  rewrite (integrate1_ext g _ (fun i => (-1) ^ l * mirror1 g F i)).
  2:{ intros k Hk.
      assert (X : mirror1 g F k = rad (mirror1 g (gZ g) k) (mirror1 g (gY g) k) ^ l
          * legendre l (mirror1 g (gZ g) k / rad (mirror1 g (gZ g) k) (mirror1 g (gY g) k)) * mirror1 g n k) by reflexivity.
      rewrite X. rewrite gZ_mirror, gY_mirror by auto. rewrite rad_opp.
      replace (- gZ g k / rad (gZ g k) (gY g k)) with (- (gZ g k / rad (gZ g k) (gY g k))) by (unfold Rdiv; ring).
      rewrite (proj1 (legendre_parity l _)).
      replace (((-1) ^ l) * (rad (gZ g k) (gY g k) ^ l * ((-1) ^ l * legendre l (gZ g k / rad (gZ g k) (gY g k))) * mirror1 g n k))
        with (((-1) ^ l * (-1) ^ l) * (rad (gZ g k) (gY g k) ^ l * legendre l (gZ g k / rad (gZ g k) (gY g k)) * mirror1 g n k)) by ring.
      rewrite <- Rpow_mult_distr. replace (-1 * -1) with 1 by ring. rewrite pow1. ring. }
  rewrite integrate1_scal. f_equal. apply (integrate1_mirror g F E).
  intros i Hi. unfold wa. apply (nc_palin (gNP g) (gNMa g)); auto; try apply Hg.
  apply nc_NP_ge; auto. apply Hg.
Qed.
Lemma cos_node_mirror : forall N i, (i < N)%nat -> cos (node N PI (N - 1 - i)) = - cos (node N PI i).
Proof.
  intros N i H. unfold node. rewrite !minus_INR by lia.
  replace ((INR N - INR 1 - INR i + 1 / 2) * PI / INR N) with (PI - (INR i + 1 / 2) * PI / INR N).
  2:{ simpl INR. field. apply not_0_INR. lia. }
  apply Rtrigo_facts.cos_pi_minus.
Qed.
Lemma sin_node_mirror : forall N i, (i < N)%nat -> sin (node N PI (N - 1 - i)) = sin (node N PI i).
Proof.
  intros N i H. unfold node. rewrite !minus_INR by lia.
  replace ((INR N - INR 1 - INR i + 1 / 2) * PI / INR N) with (PI - (INR i + 1 / 2) * PI / INR N).
  2:{ simpl INR. field. apply not_0_INR. lia. }
  apply Rtrigo_facts.sin_pi_minus.
Qed.
Lemma multipole_mirror : forall g n z y, grid_ok g -> lstsq_ok g -> gNMa g = gNMr g -> (2 <= gNMa g)%nat ->
  multipole g (mirror1 g n) z y = multipole g n (- z) y.
Proof.
  intros g n z y Hg HN E H2. unfold multipole. apply sumR_ext. intros l Hl.
  rewrite <- !ht_Q_val by auto. rewrite ht_Q_mirror by auto. rewrite rad_opp.
  replace (- z / rad z y) with (- (z / rad z y)) by (unfold Rdiv; ring).
  rewrite (proj1 (legendre_parity l _)). unfold Rdiv. ring.
Qed.
Lemma ghost_mirror : forall g i q, (i < Na g)%nat ->
  ghostZ g (Na g - 1 - i) q = - ghostZ g i q /\ ghostY g (Na g - 1 - i) q = ghostY g i q.
Proof.
  intros. unfold ghostZ, ghostY. rewrite cos_node_mirror, sin_node_mirror by auto. split; ring.
Qed.
Lemma blap_mirror : forall g b out ia p, fd_ok g b -> (b <= Nr g)%nat -> (ia < Na g)%nat -> (p < b)%nat ->
  matvec (Na g * b) (blap g) out (Na g - 1 - ia + Na g * p)%nat
  = matvec (Na g * b) (blap g) (fun j => out (refl_idx g j)) (ia + Na g * p)%nat.
Proof.
  intros g b out ia p H Hb Hi Hp. rewrite !(blap_apply g b) by (auto; lia).
  rewrite !xa_node by lia. rewrite sin_node_mirror by auto. f_equal.
  assert (X : forall M, matvec b M (fun q => out (Na g - 1 - ia + Na g * q)%nat) p
              = matvec b M (fun q => out (refl_idx g (ia + Na g * q)%nat)) p).
  { intros M. unfold matvec. apply sumR_ext. intros q Hq. unfold refl_idx. rewrite flat_mod, flat_div by auto. reflexivity. }
  rewrite !X. reflexivity.
Qed.
Lemma ht_rhs_mirror : forall g b n k, grid_ok g -> lstsq_ok g -> gNMa g = gNMr g -> (2 <= gNMa g)%nat ->
  fd_ok g b -> (b <= Nr g)%nat -> (k < Nelem g)%nat ->
  ht_rhs g (mirror1 g n) k = mirror1 g (ht_rhs g n) k.
Proof.
  intros g b n k Hg HN E H2 H Hb Hk. destruct (pos_surj g k Hk) as (ia & ir & Hp & ->).
  pose proof (fd_ok_bcN g b H) as EB.
  rewrite (mirror1_pos _ g (ht_rhs g n)) by auto.
  rewrite !(ht_rhs_pos g _ b) by (auto using mirror_point). rewrite mirror1_pos by auto.
  assert (W : gw g (pos g (Na g - 1 - ia) ir) = gw g (pos g ia ir)).
  { rewrite <- mirror1_pos by auto. apply gw_mirror. apply pos_lt; auto. }
  rewrite W. f_equal. destruct (Nat.leb_spec (Nr g - b) ir); auto.
  destruct Hp as [Ha Hr]. rewrite (blap_mirror g b) by (auto; lia).
  unfold matvec. apply sumR_ext. intros j Hj. f_equal. rewrite multipole_mirror by auto.
  assert (HN0 : (0 < Na g)%nat) by apply Na_pos.
  assert (Hm : (j mod Na g < Na g)%nat) by (apply Nat.mod_upper_bound; lia).
  unfold refl_idx. rewrite flat_mod, flat_div by lia.
  destruct (ghost_mirror g (j mod Na g) (j / Na g) Hm) as [-> ->]. reflexivity.
Qed.
Lemma hartree_mirror : forall g b spL spU L U n, grid_ok g -> lstsq_ok g -> gNMa g = gNMr g -> (2 <= gNMa g)%nat ->
  fd_ok g b -> (b <= Na g)%nat -> (b <= Nr g)%nat ->
  solver_for (Nelem g) L spL -> solver_for (Nelem g) U spU ->
  (forall i j, (i < Nelem g)%nat -> (j < Nelem g)%nat -> matmul (Nelem g) L U i j = elap g i j) ->
  nonsing (Nelem g) (elap g) ->
  forall k, (k < Nelem g)%nat ->
  spU (spL (ht_rhs g (mirror1 g n))) k = mirror1 g (spU (spL (ht_rhs g n))) k.
Proof.
  intros g b spL spU L U n Hg HN E H2 H Ha Hb HL HU HLU NS.
  assert (S : forall m, solves (Nelem g) (elap g) (ht_rhs g m) (spU (spL (ht_rhs g m)))).
  { intros m i Hi. rewrite (sumR_ext _ _ (fun j => matmul (Nelem g) L U i j * spU (spL (ht_rhs g m)) j)).
    2:{ intros. rewrite HLU by auto. reflexivity. } apply solver_two; auto. }
  apply (solver_unique _ (elap g) _ _ (ht_rhs g (mirror1 g n))); auto.
  intros i Hi. rewrite (ht_rhs_mirror g b) by auto.
  change (gapply g (elap g) (mirror1 g (spU (spL (ht_rhs g n)))) i = mirror1 g (ht_rhs g n) i).
  rewrite (elap_mirror g b) by auto.
  destruct (pos_surj g i Hi) as (ia & ir & Hp & ->). rewrite !mirror1_pos by auto.
  apply solves_gapply; auto. apply pos_lt, mirror_point; auto.
Qed.
