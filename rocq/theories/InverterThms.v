(** What the inversion methods deliver. *)
From Coq Require Import Reals List Arith Lia Lra ZArith Bool String.
From Verif Require Import Base BaseLemmas GridModel GridSpec GridProofs FDProofs OpProofs SolverModel SolverSpec SolverProofs SolverThms
  OptionsModel KSModel KSSpec KSProofs InverterModel InverterSpec InverterOrb InverterLoop InverterRun.
Import ListNotations.
Local Open Scope R_scope.
Local Opaque sinh cosh.

Lemma filling_M : forall s M i, s_N s = INR M * shell_size (s_m s) (s_pol s) -> filling s i = if (i <? M)%nat then 1 else 0.
Proof.
  intros s M i H. pose proof (shell_size_pos (s_m s) (s_pol s)) as P. unfold filling, aufbau. rewrite H.
  replace (INR M * shell_size (s_m s) (s_pol s) / shell_size (s_m s) (s_pol s)) with (INR M) by (field; lra).
  destruct (Nat.ltb_spec i M) as [L|L].
  - apply le_INR in L. rewrite S_INR in L. destruct (s_frac s); [|destruct (Rle_dec (INR i + 1) (INR M)); lra].
    unfold Rmin, Rmax. destruct (Rle_dec 0 (INR M - INR i)); [|lra]. destruct (Rle_dec 1 (INR M - INR i)); lra.
  - apply le_INR in L. destruct (s_frac s); [|destruct (Rle_dec (INR i + 1) (INR M)); lra].
    unfold Rmin, Rmax. destruct (Rle_dec 0 (INR M - INR i)); [|destruct (Rle_dec 1 0); lra]. destruct (Rle_dec 1 (INR M - INR i)); lra.
Qed.

(** A run that reports success. *)
Theorem orbital_success : forall g E n0 phi0 e0 vs0 sp iv iv' out,
  orbitalinvert g E n0 phi0 e0 vs0 sp iv = Ok (iv', true, out) ->
  io_tol (i_opt iv) <= 100 ->
  let s := i_sol iv 0%nat sp in let s' := i_sol iv' 0%nat sp in let M := s_Nmo s in
  s_N s = INR M * shell_size 0 (s_pol s) ->
  exists p e n, s_phi s' = Some (M, p) /\ s_eig s' = Some (M, e) /\ calc_density g s' = Ok n /\
    (forall i k, (i < M)%nat -> (k < Nelem g)%nat ->
       Rabs (2 * PI * hr g * ha g * gwi g k * schroed g (hamiltonian g 0) (s_veff s') (e i) (p i) k) <= io_tol (i_opt iv)) /\
    (forall i, (i < M)%nat -> integrate1 g (fun k => p i k ^ 2) = 2) /\
    (forall k, (k < Nelem g)%nat -> Rabs (weight g k * ((if (s_pol s =? 1)%nat then n k else 2 * n k) - n0 k)) <= 2 * io_tol (i_opt iv)) /\
    ((1 <= M)%nat -> e (M - 1)%nat = 0 /\ get_homo s' = Ok 0).
Proof.
  intros g E n0 phi0 e0 vs0 sp iv iv' out H Htol s s' M HN.
  destruct (orbitalinvert_inv _ _ _ _ _ _ _ _ _ _ _ H) as (x & s1 & it & r & h & vs & us & _ & _ & Hm & _ & Hss & (x0 & Hp) & Hs' & Hf & _ & _ & _ & Hr & _).
  fold s in Hm, Hss, Hp, Hs', Hr. fold M in Hp, Hs', Hr. fold s' in Hs'.
  assert (Hrt : r <= io_tol (i_opt iv)) by (apply Hf; auto).
  destruct Hr as [(Hr & _)|(Hr & _)]; [|lra].
  exists (x_phi (Nelem g) x), (x_ev (Nelem g) M x).
  destruct Hss as (S1 & S2 & S3 & S4 & S5 & S6).
  assert (F : s_m s' = 0%Z /\ s_pol s' = s_pol s /\ s_N s' = s_N s) by (rewrite Hs'; simpl; rewrite S1, S2, S3; auto).
  destruct F as (F1 & F2 & F3).
  assert (FN : s_N s' = INR M * shell_size (s_m s') (s_pol s')) by (rewrite F1, F2, F3; auto).
  assert (N0 : 0 <= s_N s') by (rewrite FN; apply Rmult_le_pos; [apply pos_INR|pose proof (shell_size_pos (s_m s') (s_pol s')); lra]).
  assert (PH : s_phi s' = Some (M, x_phi (Nelem g) x)) by (rewrite Hs'; reflexivity).
  assert (EI : s_eig s' = Some (M, x_ev (Nelem g) M x)) by (rewrite Hs'; reflexivity).
  assert (VE : forall k, s_veff s' k = pot (Nelem g) M x k) by (intros; rewrite Hs'; reflexivity).
  assert (EN : enough s' M).
  { intros i Hi. rewrite (filling_M s' M i FN) in Hi. destruct (Nat.ltb_spec i M); auto. lra. }
  destruct (calc_density_ok g s' M _ N0 PH EN) as (n & Hn & Hk).
  destruct (polish_spec _ _ _ _ _ _ Hp) as [Hnorm _].
  assert (Q1 : forall i k, (i < M)%nat -> (k < Nelem g)%nat -> Rabs (o_eqn g M (hamiltonian g 0) n0 (fun _ => 2) x (ks_row (Nelem g) i k)) <= r).
  { intros i k Hi Hk'. rewrite Hr. unfold resid. eapply Rle_trans; [|apply Rmax_l]. unfold o_res_ks.
    apply (maxabs_ge (M * Nelem g) (o_eqn g M (hamiltonian g 0) n0 (fun _ => 2) x)). apply row_lt; auto. }
  assert (Q2 : forall k, (k < Nelem g)%nat -> Rabs (o_eqn g M (hamiltonian g 0) n0 (fun _ => 2) x (dens_row (Nelem g) M k)) <= r).
  { intros k Hk'. rewrite Hr. unfold resid. eapply Rle_trans; [|apply Rmax_r]. unfold o_res_ncon.
    apply (maxabs_ge (Nelem g) (fun k => o_eqn g M (hamiltonian g 0) n0 (fun _ => 2) x (M * Nelem g + (M - 1) + k)%nat)); auto. }
  exists n. split; [auto|]. split; [auto|]. split; [auto|]. split; [|split; [|split]].
  - intros i k Hi Hk'. specialize (Q1 i k Hi Hk'). rewrite eqn_ks_schroed in Q1 by auto.
    eapply Rle_trans; [|exact Hrt]. eapply Rle_trans; [|exact Q1]. right. f_equal. f_equal.
    unfold schroed. rewrite <- eigv_x. rewrite VE.
    rewrite (sumR_ext _ _ (fun l => hamiltonian g 0 k l * orb (Nelem g) x i l)); [rewrite <- orb_x; reflexivity|].
    intros. rewrite <- orb_x. reflexivity.
  - intros i Hi. rewrite <- (Hnorm i Hi) by lra. apply integrate1_ext. intros. rewrite <- orb_x. reflexivity.
  - intros k Hk'. specialize (Q2 k Hk'). rewrite eqn_dens in Q2. rewrite Hk.
    assert (D : textbook_density g s' M (x_phi (Nelem g) x) k = shell_size 0 (s_pol s) / 2 * sumR M (fun i => orb (Nelem g) x i k ^ 2)).
    { unfold textbook_density. rewrite <- sumR_scal. apply sumR_ext. intros i Hi.
      rewrite (filling_M s' M i FN). destruct (Nat.ltb_spec i M); [|lia].
      rewrite (integrate1_ext g (fun k => x_phi (Nelem g) x i k ^ 2) (fun k => orb (Nelem g) x i k ^ 2)).
      2: { intros. rewrite <- orb_x. reflexivity. }
      rewrite (Hnorm i Hi) by lra. rewrite F1, F2, <- orb_x. field. }
    rewrite D.
    assert (D2 : (if (s_pol s =? 1)%nat then shell_size 0 (s_pol s) / 2 * sumR M (fun i => orb (Nelem g) x i k ^ 2)
                  else 2 * (shell_size 0 (s_pol s) / 2 * sumR M (fun i => orb (Nelem g) x i k ^ 2))) = sumR M (fun i => orb (Nelem g) x i k ^ 2)).
    { unfold shell_size. destruct (s_pol s =? 1)%nat; simpl; field. }
    rewrite D2.
    replace (weight g k * (sumR M (fun i => orb (Nelem g) x i k ^ 2) - n0 k))
      with (2 * (weight g k * (sumR M (fun i => orb (Nelem g) x i k ^ 2) - n0 k) / 2)) by field.
    rewrite Rabs_mult, (Rabs_right 2) by lra. lra.
  - intros HM. assert (Z0 : x_ev (Nelem g) M x (M - 1) = 0).
    { unfold x_ev. destruct (Nat.ltb_spec (M - 1) (M - 1)); [lia|auto]. }
    split; auto. rewrite get_homo_form by auto.
    assert (FS : full_shells s') by (exists M; auto). apply full_shells_iff in FS; auto.
    assert (NF : nfull s' = M).
    { apply INR_eq. rewrite <- FS. unfold shx. rewrite FN. pose proof (shell_size_pos (s_m s') (s_pol s')). field. lra. }
    rewrite FS, NF. replace (INR M - INR M) with 0 by ring.
    assert (NZ : nonzero 0 = false). { destruct (nonzero 0) eqn:B; auto. apply nonzero_spec in B. lra. }
    rewrite NZ, Nat.add_0_r. cbv zeta. destruct (Nat.eqb_spec M 0); [lia|].
    rewrite (eig_at_ok s' M (x_ev (Nelem g) M x)) by (auto; lia). rewrite Z0. reflexivity.
Qed.

(** * The loop when the residual is not a number *)
Lemma loop_nan : forall (X : Type) o (kres : X -> num * num) update x0 st, (forall x, fst (kres x) = NaN) ->
  o_loop o kres update (o_fuel o) (o_start x0) = Ok (Some st) ->
  gtb (ol_res st) (Fin (io_tol o)) = false /\ (io_maxit o <= Z.of_nat (ol_iter st))%Z.
Proof.
  intros X o kres update x0 st Hn H.
  destruct (loop_result X o kres update x0 (fun _ => True) Logic.I (fun _ _ _ _ _ => Logic.I)) as [_ L].
  destruct (L st H) as (_ & _ & x & _ & R & C). rewrite Hn in R.
  assert (Q : ol_res st = NaN) by (rewrite R; destruct (snd (kres x)); reflexivity).
  rewrite Q in C |- *. split; [reflexivity|]. destruct C as [(_ & [C|C])|(C & _)]; [discriminate|auto|discriminate].
Qed.
Lemma loop_nan_density : forall (X : Type) o (kres : X -> num * num) update x0 st, (forall x, snd (kres x) = NaN) ->
  o_loop o kres update (o_fuel o) (o_start x0) = Ok (Some st) -> exists x, ol_res st = fst (kres x).
Proof.
  intros X o kres update x0 st Hn H.
  destruct (loop_result X o kres update x0 (fun _ => True) Logic.I (fun _ _ _ _ _ => Logic.I)) as [_ L].
  destruct (L st H) as (_ & _ & x & _ & R & _). rewrite Hn in R. exists x. rewrite R. destruct (fst (kres x)); reflexivity.
Qed.

(** * An exact guess is recognised *)
Lemma floorZ_IZR : forall z, floorZ (IZR z) = z.
Proof. intros. unfold floorZ. symmetry. destruct (base_Int_part (IZR z)) as [A B]. apply le_IZR in A.
  assert (IZR z < IZR (Int_part (IZR z) + 1)) by (rewrite plus_IZR; lra). apply lt_IZR in H. lia. Qed.
Lemma full_weight : forall g k, full_quadrature g -> (k < Nelem g)%nat -> 0 < weight g k /\ gw g k <> 0.
Proof.
  intros g k H Hk. split; [apply H; auto|]. intro Z. specialize (H k Hk). unfold weight in H. rewrite Z in H. lra.
Qed.
Lemma maxabs_zero : forall n f, (forall i, (i < n)%nat -> f i = 0) -> maxabs n f = 0.
Proof.
  induction n; intros f H; simpl; auto. rewrite IHn by auto. rewrite H by auto. rewrite Rabs_R0. unfold Rmax. destruct Rle_dec; auto.
Qed.
Lemma schroed_scale : forall g H0 v e p q c d k, (k < Nelem g)%nat -> (forall l, (l < Nelem g)%nat -> q l = c * p l) ->
  schroed g H0 (fun l => v l - d) (e - d) q k = c * schroed g H0 v e p k.
Proof.
  intros g H0 v e p q c d k Hk Hq. unfold schroed. rewrite (sumR_ext _ _ (fun l => c * (H0 k l * p l))).
  - rewrite sumR_scal, Hq by auto. ring.
  - intros. rewrite Hq by auto. ring.
Qed.
Lemma o_store_homo : forall g M x s, s_N s = INR M * shell_size (s_m s) (s_pol s) -> (1 <= M)%nat ->
  get_homo (o_store g M x s) = Ok 0 /\ is_ok (calc_density g (o_store g M x s)).
Proof.
  intros g M x s FN HM. set (s' := o_store g M x s).
  assert (FN' : s_N s' = INR M * shell_size (s_m s') (s_pol s')) by exact FN.
  assert (N0 : 0 <= s_N s') by (rewrite FN'; apply Rmult_le_pos; [apply pos_INR|pose proof (shell_size_pos (s_m s') (s_pol s')); lra]).
  assert (Z0 : x_ev (Nelem g) M x (M - 1) = 0).
  { unfold x_ev. destruct (Nat.ltb_spec (M - 1) (M - 1)); [lia|auto]. }
  split.
  - rewrite get_homo_form by auto.
    assert (FS : full_shells s') by (exists M; auto). apply full_shells_iff in FS; auto.
    assert (NF : nfull s' = M).
    { apply INR_eq. rewrite <- FS. unfold shx. rewrite FN'. pose proof (shell_size_pos (s_m s') (s_pol s')). field. lra. }
    rewrite FS, NF. replace (INR M - INR M) with 0 by ring.
    assert (NZ : nonzero 0 = false). { destruct (nonzero 0) eqn:B; auto. apply nonzero_spec in B. lra. }
    rewrite NZ, Nat.add_0_r. cbv zeta. destruct (Nat.eqb_spec M 0); [lia|].
    rewrite (eig_at_ok s' M (x_ev (Nelem g) M x)) by (auto; lia). rewrite Z0. reflexivity.
  - assert (EN : enough s' M).
    { intros i Hi. rewrite (filling_M s' M i FN') in Hi. destruct (Nat.ltb_spec i M); auto. lra. }
    destruct (calc_density_ok g s' M _ N0 eq_refl EN) as (n & Hn & _). exists n. exact Hn.
Qed.

Theorem orbital_exact : forall g E iv sp p e v n0,
  let s := i_sol iv 0%nat sp in let M := s_Nmo s in
  (i_lv iv <= 1)%nat -> (sp < i_cols iv)%nat -> (sp < Nelem g)%nat -> i_vs iv = None -> i_us iv = None -> s_phi s = None ->
  io_ab (i_opt iv) = false -> 0 < io_tol (i_opt iv) -> (1 <= M)%nat ->
  s_m s = 0%Z -> s_pol s = 1%nat -> s_N s = 2 * INR M ->
  (forall i k, (i < M)%nat -> (k < Nelem g)%nat -> schroed g (hamiltonian g 0) v (e i) (p i) k = 0) ->
  (forall i, (i < M)%nat -> 0 < integrate1 g (fun k => p i k ^ 2)) ->
  (forall k, (k < Nelem g)%nat -> n0 k = sumR M (fun i => 2 * (p i k ^ 2 / integrate1 g (fun k => p i k ^ 2)))) ->
  exists iv', orbitalinvert g E n0 (fun r => p (r / Nelem g)%nat (r mod Nelem g)%nat) (M, e) (Some (A1 v)) sp iv
      = Ok (iv', true, OArr 1 1 (fun _ _ => Some (mkInfo 1 (Fin 0)))) /\
    forall k, s_veff (i_sol iv' 0%nat sp) k = v k - e (M - 1)%nat.
Proof.
  intros g E iv sp p e v n0 s M Hlv Hc Hsn Hvs Hus Hph Hab Htol HM Hm Hpol HN Hks Hint Hn0.
  set (N := Nelem g). set (phi0 := fun r => p (r / N)%nat (r mod N)%nat).
  set (x0 := x_pack N M (fun i k => phi0 (k + i * N)%nat) (fun i => e i - e (M - 1)%nat) (fun k => v k - e (M - 1)%nat)).
  assert (O0 : forall i k, (i < M)%nat -> (k < N)%nat -> orb N x0 i k = p i k).
  { intros i k Hi Hk. unfold x0. rewrite pack_phi by auto. unfold phi0. rewrite (Nat.add_comm k), row_mod, row_div by auto. reflexivity. }
  assert (E0 : forall i, (i < M)%nat -> eigv N M x0 i = e i - e (M - 1)%nat).
  { intros i Hi. destruct (Nat.eq_dec i (M - 1)) as [->|].
    - unfold eigv. destruct (Nat.ltb_spec (S (M - 1)) M); [lia|]. ring.
    - unfold x0. rewrite pack_ev by lia. reflexivity. }
  assert (P0 : forall k, pot N M x0 k = v k - e (M - 1)%nat) by (intros; unfold x0; apply pack_v).
  assert (I0 : forall i, (i < M)%nat -> integrate1 g (fun k => orb N x0 i k ^ 2) = integrate1 g (fun k => p i k ^ 2)).
  { intros i Hi. apply integrate1_ext. intros. rewrite O0 by auto. reflexivity. }
  assert (G : is_ok (normalize g M (fun _ => 2) x0)).
  { apply normalize_ok_iff. intros i Hi. fold N. rewrite I0 by auto. auto. }
  destruct G as [x Gx]. destruct (normalize_spec _ _ _ _ _ Gx) as (A1' & A2' & A3 & A4). fold N in A1', A2', A3, A4.
  assert (C : forall i, (i < M)%nat -> exists c, c ^ 2 * integrate1 g (fun k => p i k ^ 2) = 2 /\ forall k, (k < N)%nat -> orb N x i k = c * p i k).
  { intros i Hi. destruct (A2' i Hi) as (c & _ & _ & F). exists c. split.
    - rewrite <- (A1' i Hi) by lra. rewrite <- (I0 i Hi). rewrite <- integrate1_scal. apply integrate1_ext. intros k Hk. cbv beta. rewrite F by auto. ring.
    - intros k Hk. rewrite F, O0 by auto. reflexivity. }
  assert (R0 : resid g M n0 x = 0).
  { unfold resid, o_res_ks, o_res_ncon. rewrite !maxabs_zero.
    - unfold Rmax. destruct Rle_dec; auto.
    - intros k Hk. change (M * Nelem g + (M - 1) + k)%nat with (dens_row (Nelem g) M k). rewrite eqn_dens. fold N. rewrite Hn0 by auto.
      rewrite (sumR_ext M (fun i => orb N x i k ^ 2) (fun i => 2 * (p i k ^ 2 / integrate1 g (fun k => p i k ^ 2)))); [field|].
      intros i Hi. destruct (C i Hi) as (c & C1 & C2). rewrite C2 by auto. specialize (Hint i Hi).
      set (II := integrate1 g (fun k => p i k ^ 2)) in *. assert (C3 : c ^ 2 = 2 / II) by (rewrite <- C1; field; lra).
      rewrite Rpow_mult_distr, C3. unfold Rdiv. ring.
    - intros r Hr. assert (HNp : (0 < Nelem g)%nat) by lia.
      assert (Hd : (r / N < M)%nat) by (apply Nat.div_lt_upper_bound; [unfold N; lia|]; unfold N; lia).
      assert (Hk : (r mod N < N)%nat) by (apply Nat.mod_upper_bound; unfold N; lia).
      replace r with (ks_row (Nelem g) (r / N) (r mod N)).
      2: { unfold ks_row. fold N. rewrite (Nat.div_mod r N) at 3 by (unfold N; lia). lia. }
      rewrite eqn_ks_schroed by auto. fold N.
      destruct (C (r / N)%nat Hd) as (c & _ & C2).
      replace (schroed g (hamiltonian g 0) (pot N M x) (eigv N M x (r / N)) (orb N x (r / N)) (r mod N))
        with (schroed g (hamiltonian g 0) (fun l => v l - e (M - 1)%nat) (e (r / N)%nat - e (M - 1)%nat) (orb N x (r / N)) (r mod N)).
      + rewrite (schroed_scale g _ v (e (r / N)%nat) (p (r / N)%nat) _ c) by auto. rewrite Hks by auto. ring.
      + unfold schroed. rewrite A3, A4, P0, E0 by auto. reflexivity. }
  assert (HNf : s_N s = INR M * shell_size (s_m s) (s_pol s)) by (rewrite Hm, Hpol, HN; unfold shell_size; simpl; ring).
  destruct (o_store_homo g M x s HNf HM) as (Hh & nn & Hd).
  unfold orbitalinvert. rewrite Hvs, Hus. destruct (Nat.ltb_spec sp (i_cols iv)); [|lia]. cbn [negb i_sol inv_us inv_vs].
  fold s. fold M. unfold o_setup. rewrite Hm, Hpol. cbn [Z.eqb Nat.eqb andb].
  assert (OD : Z.odd (floorZ (s_N s)) = false).
  { rewrite HN. replace (2 * INR M) with (IZR (2 * Z.of_nat M)) by (rewrite mult_IZR, <- INR_IZR_INZ; reflexivity).
    rewrite floorZ_IZR. rewrite Z.odd_mul. reflexivity. }
  rewrite OD. cbn [bind]. destruct (Nat.ltb_spec 1 (i_lv iv)); [lia|].
  unfold o_guess. rewrite Hph. fold M. destruct (Nat.ltb_spec M M); [lia|]. destruct (Nat.eqb_spec M 0); [lia|]. cbn [Datatypes.orb need bind arr_fun].
  match goal with |- context [o_polish _ _ _ _ ?X] => change X with x0 end.
  unfold o_polish. rewrite Hab. cbn [bind]. rewrite Gx. cbn [bind].
  assert (L : o_loop (i_opt iv) (o_kres g M n0 (fun _ => 2)) (o_update g E (i_opt iv) M n0 (fun _ => 2)) (o_fuel (i_opt iv)) (o_start (x, s))
    = Ok (Some (mkOL (x, s) 1 (Fin 0) false (fst (o_kres g M n0 (fun _ => 2) (x, s))) (snd (o_kres g M n0 (fun _ => 2) (x, s))) (Fin 0) (Fin 0)))).
  { unfold o_fuel. cbn [o_loop]. unfold o_step. cbn [o_start ol_x ol_iter ol_ks ol_n ol_oks ol_on ol_force].
    pose proof (kres_resid g M n0 x s Hm) as K. rewrite R0 in K.
    destruct (o_kres g M n0 (fun _ => 2) (x, s)) as [ks nn']. cbn [fst snd] in *. rewrite K.
    cbn [Nat.ltb Nat.leb]. rewrite !andb_false_r.
    assert (T : gtb (Fin (io_tol (i_opt iv))) (Fin 0) = true) by (apply gtb_fin; auto). rewrite T. reflexivity. }
  rewrite L. cbn [bind ol_x ol_res ol_iter i_vs inv_us inv_vs i_us].
  unfold set_vcol. destruct (Nat.ltb_spec sp (i_cols iv)); [|lia]. cbn [bind]. rewrite Hh. cbn [bind].
  unfold set_urow. destruct (Nat.ltb_spec sp (Nelem g)); [|lia]. cbn [bind]. rewrite Hd. cbn [bind].
  eexists. split.
  - f_equal. f_equal. f_equal. assert (T : gtb (Fin 0) (Fin (io_tol (i_opt iv))) = false).
    { destruct (gtb (Fin 0) (Fin (io_tol (i_opt iv)))) eqn:T; auto. apply gtb_fin in T. lra. }
    rewrite T. reflexivity.
  - intros k. cbn [i_sol inv_setveff inv_solver inv_us inv_vs]. rewrite !upd2_same. cbn [s_veff set_veff].
    change (x_v (Nelem g) M x k) with (pot N M x k). rewrite A4, P0. reflexivity.
Qed.
