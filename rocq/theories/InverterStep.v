(** orbitalinvert: what one update achieves, restarts from stored orbitals and unusable guesses. *)
From Coq Require Import Reals List Arith Lia Lra ZArith Bool String.
From Verif Require Import Base BaseLemmas GridModel GridSpec GridProofs FDProofs OpProofs SolverModel SolverSpec SolverProofs SolverThms SolverResp
  LibxcModel OptionsModel KSModel KSSpec KSProofs InverterModel InverterSpec InverterOrb InverterLoop InverterRun InverterThms GridWitness SolverWitness SolverCases InverterWit.
Import ListNotations.
Local Open Scope R_scope.

(** * Specification *)
(** numpy.linalg.solve returns solutions. *)
Definition linear_solver (E : invenv) : Prop := forall n A b d, v_lin E n A b = Ok d -> forall r, (r < n)%nat -> sumR n (fun c => A r c * d c) = b r.
(** calc_orbitals finds Nmo eigenpairs in the potential of the solver. *)
Definition orbital_solver (g : grid) (E : invenv) : Prop := forall s c e ph, v_orb E s = Ok ((c, e), ph) -> c = s_Nmo s /\
  forall p, ph = Some p -> forall i, (i < s_Nmo s)%nat -> eigenpair g (hamiltonian g (s_m s)) (s_veff s) (e i) (snd p i).
(** x' is y with the orbitals scaled to the norms occ. *)
Definition rescaled (g : grid) (M : nat) (occ y x' : vec) : Prop :=
  (forall i, (i < M)%nat -> 0 < occ i -> integrate1 g (fun k => orb (Nelem g) x' i k ^ 2) = occ i /\ exists c, 0 < c /\ forall k, (k < Nelem g)%nat -> orb (Nelem g) x' i k = c * orb (Nelem g) y i k) /\
  (forall i, eigv (Nelem g) M x' i = eigv (Nelem g) M y i) /\ (forall k, pot (Nelem g) M x' k = pot (Nelem g) M y k).

Lemma polish_rescaled : forall g M occ y x', o_polish g false M occ y = Ok x' -> rescaled g M occ y x'.
Proof.
  intros g M occ y x' H. unfold o_polish in H. cbn [bind] in H. apply normalize_spec in H. destruct H as (A & B & C & D). split; [|auto].
  intros i Hi Ho. split; [apply A; auto; lra|]. destruct (B i Hi) as (c & _ & C1 & C2). exists c. auto.
Qed.

(** * Newton step *)
Theorem newton_step : forall g E o M n0 occ x s x' s', o_update g E o M n0 occ true (x, s) = Ok (x', s') -> io_ab o = false -> linear_solver E ->
  s' = s /\ exists y, rescaled g M occ y x' /\ forall r, (r < x_len (Nelem g) M)%nat -> (forall i, (0 < i < M - 1)%nat -> r <> norm_row (Nelem g) M i) ->
    exists q, forall t, o_eqn g M (hamiltonian g (s_m s)) n0 occ (fun c => x c + t * (y c - x c)) r = (1 - t) * o_eqn g M (hamiltonian g (s_m s)) n0 occ x r + t ^ 2 * q.
Proof.
  intros g E o M n0 occ x s x' s' H AB LS. unfold o_update in H. destruct (io_iter o); [discriminate|]. destruct (v_lin _ _ _ _) as [d|] eqn:V; [|discriminate]. cbn [bind] in H. rewrite AB in H.
  destruct (o_polish _ _ _ _ _) as [z|] eqn:P; [|discriminate]. cbn [bind] in H. injection H as <- <-. split; [reflexivity|]. exists (fun r => x r + - 1 * d r). split; [apply polish_rescaled, P|].
  intros r Hr Hn. destruct (jacobian_exact g M (hamiltonian g (s_m s)) n0 occ x (fun c => - 1 * d c) r Hr Hn) as (q & Q). exists q. intros t.
  assert (J : jrow g M (hamiltonian g (s_m s)) x (fun c => - 1 * d c) r = - o_eqn g M (hamiltonian g (s_m s)) n0 occ x r).
  { rewrite <- (LS _ _ _ _ V r Hr). unfold jrow. rewrite <- sumR_opp. apply sumR_ext. intros. ring. }
  rewrite J in Q. transitivity (o_eqn g M (hamiltonian g (s_m s)) n0 occ (along x (fun c => - 1 * d c) t) r).
  - f_equal. unfold along. apply FunctionalExtensionality.functional_extensionality. intros c. ring.
  - rewrite Q. replace (o_eqn g M (hamiltonian g (s_m s)) n0 occ (along x (fun c => - 1 * d c) 0) r) with (o_eqn g M (hamiltonian g (s_m s)) n0 occ x r); [ring|].
    f_equal. unfold along. apply FunctionalExtensionality.functional_extensionality. intros c. ring.
Qed.

(** * Recomputed orbitals *)
Theorem recomputed_step : forall g E o M n0 occ x s x' s', o_update g E o M n0 occ false (x, s) = Ok (x', s') -> io_ab o = false -> orbital_solver g E -> s_Nmo s = M -> (1 <= M)%nat -> (forall i, (i < M)%nat -> 0 < occ i) ->
  exists e p, s_eig s' = Some (M, e) /\ s_phi s' = Some p /\ (forall k, s_veff s' k = pot (Nelem g) M x k) /\ (forall k, pot (Nelem g) M x' k = pot (Nelem g) M x k - e (M - 1)%nat) /\
    forall i, (i < M)%nat -> eigv (Nelem g) M x' i = e i - e (M - 1)%nat /\ integrate1 g (fun k => orb (Nelem g) x' i k ^ 2) = occ i /\ eigenpair g (hamiltonian g (s_m s)) (pot (Nelem g) M x') (eigv (Nelem g) M x' i) (orb (Nelem g) x' i) /\
      forall k, (k < Nelem g)%nat -> o_eqn g M (hamiltonian g (s_m s)) n0 occ x' (ks_row (Nelem g) i k) = 0.
Proof.
  intros g E o M n0 occ x s x' s' H AB OS HM M1 HO. unfold o_update in H. set (s1 := set_veff (o_store g M x s) (x_v (Nelem g) M x)) in *. destruct (v_orb E s1) as [[[c e] ph]|] eqn:V; [|discriminate]. cbn [bind] in H.
  destruct ph as [p|]; [|discriminate]. cbn [need bind] in H. rewrite AB in H. destruct (o_polish _ _ _ _ _) as [z|] eqn:P; [|discriminate]. cbn [bind] in H. injection H as <- <-.
  destruct (OS _ _ _ _ V) as (C & EP). assert (CM : c = M) by (rewrite C; exact HM). clear C. subst c. specialize (EP p eq_refl). assert (EP' : forall i, (i < M)%nat -> eigenpair g (hamiltonian g (s_m s)) (pot (Nelem g) M x) (e i) (snd p i)) by (intros i Hi; apply (EP i); exact (eq_ind_r (fun m => (i < m)%nat) Hi HM)).
  clear EP. apply polish_rescaled in P. destruct P as (P1 & P2 & P3). exists e, p. split; [reflexivity|]. split; [reflexivity|]. split; [reflexivity|].
  assert (PV : forall k, pot (Nelem g) M z k = pot (Nelem g) M x k - e (M - 1)%nat) by (intros k; rewrite P3, pack_v; reflexivity). split; [exact PV|].
  intros i Hi. assert (EV : eigv (Nelem g) M z i = e i - e (M - 1)%nat). { rewrite P2. destruct (Nat.eq_dec i (M - 1)) as [->|NE]; [unfold eigv; destruct (Nat.ltb_spec (S (M - 1)) M); [lia|ring]|rewrite pack_ev by lia; reflexivity]. }
  destruct (P1 i Hi (HO i Hi)) as (I1 & cc & C1 & C2). split; [exact EV|]. split; [exact I1|].
  assert (EG : eigenpair g (hamiltonian g (s_m s)) (pot (Nelem g) M z) (eigv (Nelem g) M z i) (orb (Nelem g) z i)).
  { intros k Hk. rewrite EV, PV. rewrite (sumR_ext _ _ (fun j => cc * (hamiltonian g (s_m s) k j * snd p i j))).
    - rewrite sumR_scal. rewrite C2 by exact Hk. rewrite pack_phi by auto. pose proof (EP' i Hi k Hk) as Q.
      transitivity (cc * (sumR (Nelem g) (fun j => hamiltonian g (s_m s) k j * snd p i j) + gw g k * pot (Nelem g) M x k * snd p i k) - cc * (e (M - 1)%nat * gw g k * snd p i k)); [ring|]. rewrite Q. ring.
    - intros j Hj. rewrite C2 by exact Hj. rewrite pack_phi by auto. ring. }
  split; [exact EG|]. intros k Hk. rewrite eqn_ks_schroed by auto. unfold schroed. specialize (EG k Hk).
  match goal with |- _ * ?X = 0 => replace X with 0; [ring|] end. lra.
Qed.

(** * Restarts *)
(** The arrays vs and us of the inverter are both unset, or can take the results for the spin sp. *)
Definition storable (g : grid) (iv : inverter) (sp : nat) : Prop :=
  (i_vs iv = None /\ i_us iv = None /\ (sp < Nelem g)%nat) \/
  (exists c f rows c' u, i_vs iv = Some (A2 c f) /\ i_us iv = Some (U2 rows c' u) /\ (sp < c)%nat /\ (sp < rows)%nat).

Lemma exact_core : forall g E iv sp p e v n0 phi0 e0 vs0 x0,
  let s := i_sol iv 0%nat sp in let M := s_Nmo s in let N := Nelem g in
  (i_lv iv <= 1)%nat -> (sp < i_cols iv)%nat -> storable g iv sp ->
  io_ab (i_opt iv) = false -> 0 < io_tol (i_opt iv) -> (1 <= M)%nat ->
  s_m s = 0%Z -> s_pol s = 1%nat -> s_N s = 2 * INR M ->
  (forall i k, (i < M)%nat -> (k < Nelem g)%nat -> schroed g (hamiltonian g 0) v (e i) (p i) k = 0) ->
  (forall i, (i < M)%nat -> 0 < integrate1 g (fun k => p i k ^ 2)) ->
  (forall k, (k < Nelem g)%nat -> n0 k = sumR M (fun i => 2 * (p i k ^ 2 / integrate1 g (fun k => p i k ^ 2)))) ->
  o_guess g s phi0 e0 vs0 = Ok x0 ->
  (forall i k, (i < M)%nat -> (k < N)%nat -> orb N x0 i k = p i k) -> (forall i, (i < M)%nat -> eigv N M x0 i = e i - e (M - 1)%nat) -> (forall k, pot N M x0 k = v k - e (M - 1)%nat) ->
  exists iv' q, orbitalinvert g E n0 phi0 e0 vs0 sp iv = Ok (iv', true, OArr 1 1 (fun _ _ => Some (mkInfo 1 (Fin 0)))) /\
    (forall k, s_veff (i_sol iv' 0%nat sp) k = v k - e (M - 1)%nat) /\ s_phi (i_sol iv' 0%nat sp) = Some (M, q) /\
    forall i, (i < M)%nat -> exists c, 0 < c /\ c ^ 2 * integrate1 g (fun k => p i k ^ 2) = 2 /\ forall k, (k < N)%nat -> q i k = c * p i k.
Proof.
  intros g E iv sp p e v n0 phi0 e0 vs0 x0 s M N Hlv Hc Hst Hab Htol HM Hm Hpol HN Hks Hint Hn0 HG O0 E0 P0.
  assert (I0 : forall i, (i < M)%nat -> integrate1 g (fun k => orb N x0 i k ^ 2) = integrate1 g (fun k => p i k ^ 2)).
  { intros i Hi. apply integrate1_ext. intros. rewrite O0 by auto. reflexivity. }
  assert (G : is_ok (normalize g M (fun _ => 2) x0)).
  { apply normalize_ok_iff. intros i Hi. fold N. rewrite I0 by auto. auto. }
  destruct G as [x Gx]. destruct (normalize_spec _ _ _ _ _ Gx) as (A1' & A2' & A3 & A4). fold N in A1', A2', A3, A4.
  assert (C : forall i, (i < M)%nat -> exists c, c ^ 2 * integrate1 g (fun k => p i k ^ 2) = 2 /\ (forall k, (k < N)%nat -> orb N x i k = c * p i k) /\ 0 < c).
  { intros i Hi. destruct (A2' i Hi) as (c & _ & CP & F). exists c. split; [|split].
    - rewrite <- (A1' i Hi) by lra. rewrite <- (I0 i Hi). rewrite <- integrate1_scal. apply integrate1_ext. intros k Hk. cbv beta. rewrite F by auto. ring.
    - intros k Hk. rewrite F, O0 by auto. reflexivity.
    - apply CP. lra. }
  assert (R0 : resid g M n0 x = 0).
  { unfold resid, o_res_ks, o_res_ncon. rewrite !maxabs_zero.
    - unfold Rmax. destruct Rle_dec; auto.
    - intros k Hk. change (M * Nelem g + (M - 1) + k)%nat with (dens_row (Nelem g) M k). rewrite eqn_dens. fold N. rewrite Hn0 by auto.
      rewrite (sumR_ext M (fun i => orb N x i k ^ 2) (fun i => 2 * (p i k ^ 2 / integrate1 g (fun k => p i k ^ 2)))); [field|].
      intros i Hi. destruct (C i Hi) as (c & C1 & C2 & _). rewrite C2 by auto. specialize (Hint i Hi).
      set (II := integrate1 g (fun k => p i k ^ 2)) in *. assert (C3 : c ^ 2 = 2 / II) by (rewrite <- C1; field; lra).
      rewrite Rpow_mult_distr, C3. unfold Rdiv. ring.
    - intros r Hr. assert (HNp : (0 < Nelem g)%nat) by lia.
      assert (Hd : (r / N < M)%nat) by (apply Nat.div_lt_upper_bound; [unfold N; lia|]; unfold N; lia).
      assert (Hk : (r mod N < N)%nat) by (apply Nat.mod_upper_bound; unfold N; lia).
      replace r with (ks_row (Nelem g) (r / N) (r mod N)).
      2: { unfold ks_row. fold N. rewrite (Nat.div_mod r N) at 3 by (unfold N; lia). lia. }
      rewrite eqn_ks_schroed by auto. fold N.
      destruct (C (r / N)%nat Hd) as (c & _ & C2 & _).
      replace (schroed g (hamiltonian g 0) (pot N M x) (eigv N M x (r / N)) (orb N x (r / N)) (r mod N))
        with (schroed g (hamiltonian g 0) (fun l => v l - e (M - 1)%nat) (e (r / N)%nat - e (M - 1)%nat) (orb N x (r / N)) (r mod N)).
      + rewrite (schroed_scale g _ v (e (r / N)%nat) (p (r / N)%nat) _ c) by auto. rewrite Hks by auto. ring.
      + unfold schroed. rewrite A3, A4, P0, E0 by auto. reflexivity. }
  assert (HNf : s_N s = INR M * shell_size (s_m s) (s_pol s)) by (rewrite Hm, Hpol, HN; unfold shell_size; simpl; ring).
  destruct (o_store_homo g M x s HNf HM) as (Hh & nn & Hd).
  unfold orbitalinvert. match goal with |- context [o_setup (i_sol ?X _ _)] => set (iv0 := X) end.
  assert (S0 : i_sol iv0 = i_sol iv) by (unfold iv0; destruct (i_vs iv), (i_us iv); reflexivity).
  assert (VC : forall x1 h, exists w u, set_vcol (i_vs iv0) sp x1 = Ok w /\ set_urow (i_us iv0) sp h = Ok u).
  { intros x1 h. destruct Hst as [(V1 & V2 & V3)|(c & f & rows & c' & u & V1 & V2 & V3 & V4)]; unfold iv0; rewrite V1, V2; cbn [i_vs i_us inv_us inv_vs]; rewrite ?V1, ?V2; unfold set_vcol, set_urow.
    - destruct (Nat.ltb_spec sp (i_cols iv)); [|lia]. destruct (Nat.ltb_spec sp (Nelem g)); [|lia]. eexists _, _. split; reflexivity.
    - destruct (Nat.ltb_spec sp c); [|lia]. destruct (Nat.ltb_spec sp rows); [|lia]. eexists _, _. split; reflexivity. }
  clearbody iv0. destruct (Nat.ltb_spec sp (i_cols iv)); [|lia]. cbn [negb]. rewrite S0.
  fold s. fold M. unfold o_setup. rewrite Hm, Hpol. cbn [Z.eqb Nat.eqb andb].
  assert (OD : Z.odd (floorZ (s_N s)) = false).
  { rewrite HN. replace (2 * INR M) with (IZR (2 * Z.of_nat M)) by (rewrite mult_IZR, <- INR_IZR_INZ; reflexivity).
    rewrite floorZ_IZR. rewrite Z.odd_mul. reflexivity. }
  rewrite OD. cbn [bind]. destruct (Nat.ltb_spec 1 (i_lv iv)); [lia|]. rewrite HG. cbn [bind].
  unfold o_polish. rewrite Hab. cbn [bind]. rewrite Gx. cbn [bind].
  assert (L : o_loop (i_opt iv) (o_kres g M n0 (fun _ => 2)) (o_update g E (i_opt iv) M n0 (fun _ => 2)) (o_fuel (i_opt iv)) (o_start (x, s))
    = Ok (Some (mkOL (x, s) 1 (Fin 0) false (fst (o_kres g M n0 (fun _ => 2) (x, s))) (snd (o_kres g M n0 (fun _ => 2) (x, s))) (Fin 0) (Fin 0)))).
  { unfold o_fuel. cbn [o_loop]. unfold o_step. cbn [o_start ol_x ol_iter ol_ks ol_n ol_oks ol_on ol_force].
    pose proof (kres_resid g M n0 x s Hm) as K. rewrite R0 in K.
    destruct (o_kres g M n0 (fun _ => 2) (x, s)) as [ks nn']. cbn [fst snd] in *. rewrite K.
    cbn [Nat.ltb Nat.leb]. rewrite !andb_false_r.
    assert (T : gtb (Fin (io_tol (i_opt iv))) (Fin 0) = true) by (apply gtb_fin; auto). rewrite T. reflexivity. }
  rewrite L. cbn [bind ol_x ol_res ol_iter].
  match goal with |- context [set_vcol _ _ ?x1] => match type of Hh with _ = Ok ?h => destruct (VC x1 h) as (w & u & W1 & W2) end end.
  rewrite W1. cbn [bind]. rewrite Hh. cbn [bind]. rewrite W2. cbn [bind]. rewrite Hd. cbn [bind].
  eexists _, _. split; [|split; [|split]].
  - f_equal. f_equal. f_equal. assert (T : gtb (Fin 0) (Fin (io_tol (i_opt iv))) = false).
    { destruct (gtb (Fin 0) (Fin (io_tol (i_opt iv)))) eqn:T; auto. apply gtb_fin in T. lra. }
    rewrite T. reflexivity.
  - intros k. cbn [i_sol inv_setveff inv_solver inv_us inv_vs]. rewrite !upd2_same. cbn [s_veff set_veff].
    change (x_v (Nelem g) M x k) with (pot N M x k). rewrite A4, P0. reflexivity.
  - cbn [i_sol inv_setveff inv_solver inv_us inv_vs]. rewrite !upd2_same. reflexivity.
  - intros i Hi. destruct (C i Hi) as (c & C1 & C2 & C3). exists c. split; [exact C3|]. split; [exact C1|]. intros k Hk. rewrite <- C2 by exact Hk. unfold x_phi, orb. f_equal. unfold N. lia.
Qed.

Theorem restart : forall g E iv sp p e v n0 phi0 e0 vs0,
  let s := i_sol iv 0%nat sp in let M := s_Nmo s in
  (i_lv iv <= 1)%nat -> (sp < i_cols iv)%nat -> storable g iv sp ->
  s_phi s = Some (M, p) -> s_eig s = Some (M, e) -> (forall k, s_veff s k = v k) ->
  io_ab (i_opt iv) = false -> 0 < io_tol (i_opt iv) -> (1 <= M)%nat ->
  s_m s = 0%Z -> s_pol s = 1%nat -> s_N s = 2 * INR M ->
  (forall i, (i < M)%nat -> eigenpair g (hamiltonian g 0) v (e i) (p i)) ->
  (forall i, (i < M)%nat -> 0 < integrate1 g (fun k => p i k ^ 2)) ->
  (forall k, (k < Nelem g)%nat -> n0 k = sumR M (fun i => 2 * (p i k ^ 2 / integrate1 g (fun k => p i k ^ 2)))) ->
  exists iv' q, orbitalinvert g E n0 phi0 e0 vs0 sp iv = Ok (iv', true, OArr 1 1 (fun _ _ => Some (mkInfo 1 (Fin 0)))) /\
    (forall k, s_veff (i_sol iv' 0%nat sp) k = v k - e (M - 1)%nat) /\ s_phi (i_sol iv' 0%nat sp) = Some (M, q) /\
    forall i, (i < M)%nat -> exists c, 0 < c /\ c ^ 2 * integrate1 g (fun k => p i k ^ 2) = 2 /\ forall k, (k < Nelem g)%nat -> q i k = - (c * p i k).
Proof.
  intros g E iv sp p e v n0 phi0 e0 vs0 s M Hlv Hc Hst Hph Hei Hve Hab Htol HM Hm Hpol HN Hks Hint Hn0.
  assert (SQ : forall i, (fun k => (fun i k => - 1 * p i k) i k ^ 2) = (fun k => p i k ^ 2)) by (intros; apply FunctionalExtensionality.functional_extensionality; intros; ring).
  assert (EA : eig_at s (-1) = Ok (e (M - 1)%nat)). { unfold eig_at. rewrite Hei. unfold pyidx. cbn [Z.leb Z.compare andb Z.ltb]. destruct (Z.leb_spec (- Z.of_nat M) (-1)); [|lia]. cbn [bind]. do 2 f_equal. lia. }
  destruct (exact_core g E iv sp (fun i k => - 1 * p i k) e v n0 phi0 e0 vs0 (x_pack (Nelem g) M (fun i k => - 1 * p i k) (fun i => e i - e (M - 1)%nat) (fun k => s_veff s k - e (M - 1)%nat))) as (iv' & q & R1 & R2 & R3 & R4); auto.
  - intros i k Hi Hk. unfold schroed. rewrite (sumR_ext _ _ (fun j => - 1 * (hamiltonian g 0 k j * p i j))) by (intros; ring). rewrite sumR_scal. pose proof (Hks i Hi k Hk) as Q. fold s M. lra.
  - intros i Hi. rewrite SQ. auto.
  - intros k Hk. rewrite Hn0 by exact Hk. apply sumR_ext. intros i Hi. rewrite SQ. replace ((- 1 * p i k) ^ 2) with (p i k ^ 2) by ring. reflexivity.
  - unfold o_guess. fold s M. rewrite Hph, EA. cbn [bind]. rewrite Hei. reflexivity.
  - intros i k Hi Hk. rewrite pack_phi by auto. reflexivity.
  - intros i Hi. fold s M. destruct (Nat.eq_dec i (M - 1)) as [->|NE]; [unfold eigv; destruct (Nat.ltb_spec (S (M - 1)) M); [lia|ring]|rewrite pack_ev by (unfold M, s in *; lia); reflexivity].
  - intros k. fold s M. rewrite pack_v, Hve. reflexivity.
  - exists iv', q. split; [exact R1|]. split; [exact R2|]. split; [exact R3|]. intros i Hi. destruct (R4 i Hi) as (c & C1 & C2 & C3). exists c. split; [exact C1|]. rewrite SQ in C2. split; [exact C2|]. intros k Hk. rewrite C3 by exact Hk. ring.
Qed.

(** * Unusable guesses *)
Theorem short_guess : forall g E iv sp n0 phi0 L e vs0, let s := i_sol iv 0%nat sp in (i_lv iv <= 1)%nat -> (sp < i_cols iv)%nat -> s_phi s = None -> s_m s = 0%Z -> (s_pol s = 1%nat -> Z.odd (floorZ (s_N s)) = false) ->
  ((L < s_Nmo s)%nat \/ L = 0%nat -> orbitalinvert g E n0 phi0 (L, e) vs0 sp iv = Err IndexError) /\
  ((s_Nmo s <= L)%nat -> (0 < L)%nat -> vs0 = None -> orbitalinvert g E n0 phi0 (L, e) vs0 sp iv = Err TypeError).
Proof.
  intros g E iv sp n0 phi0 L e vs0 s Hlv Hc Hph Hm Hod. unfold orbitalinvert. match goal with |- context [o_setup (i_sol ?X _ _)] => set (iv0 := X) end.
  assert (S0 : i_sol iv0 = i_sol iv) by (unfold iv0; destruct (i_vs iv), (i_us iv); reflexivity). clearbody iv0. destruct (Nat.ltb_spec sp (i_cols iv)); [|lia]. cbn [negb]. rewrite S0. fold s.
  assert (SU : o_setup s = Ok tt). { unfold o_setup. rewrite Hm. cbn [Z.eqb]. destruct (Nat.eqb_spec (s_pol s) 1) as [Q|Q]; [rewrite Hod by exact Q|]; reflexivity. }
  rewrite SU. cbn [bind]. destruct (Nat.ltb_spec 1 (i_lv iv)); [lia|]. unfold o_guess. rewrite Hph. split.
  - intros Q. destruct (Nat.ltb_spec L (s_Nmo s)), (Nat.eqb_spec L 0); cbn [Datatypes.orb bind]; try reflexivity; lia.
  - intros Q1 Q2 ->. destruct (Nat.ltb_spec L (s_Nmo s)); [lia|]. destruct (Nat.eqb_spec L 0); [lia|]. reflexivity.
Qed.

(** * Concrete cases *)
(** Is f zero below n? *)
Definition vanishes (n : nat) (f : vec) : bool := forallb (fun k => if Req_EM_T (f k) 0 then true else false) (seq 0 n).
Lemma vanishes_spec : forall n f, vanishes n f = true <-> forall k, (k < n)%nat -> f k = 0.
Proof.
  intros n f. unfold vanishes. rewrite forallb_forall. split.
  - intros H k Hk. specialize (H k). rewrite in_seq in H. destruct (Req_EM_T (f k) 0); auto. discriminate H. lia.
  - intros H k Hk. rewrite in_seq in Hk. destruct (Req_EM_T (f k) 0) as [|Q]; auto. contradiction Q. apply H. lia.
Qed.
(** Solvers that answer only when a candidate fits: the constant orbital with eigenvalue e, and the correction w of the potential. *)
Definition fit_env (e : R) (w : vec) : invenv :=
  mkIE (fun s => if (s_Nmo s =? 1)%nat && vanishes (Nelem g22) (fun k => schroed g22 (hamiltonian g22 (s_m s)) (s_veff s) e (fun _ => 1) k) then Ok (one_eig e, Some one_phi) else Err NotFinite)
    (fun _ _ _ => 0) (fun _ _ _ => ([], fun _ => 0, mkInfo 0 (Fin 0)))
    (fun n A b => let d := fun c => if (c <? Nelem g22)%nat then 0 else w (c - Nelem g22)%nat in if vanishes n (fun r => sumR n (fun c => A r c * d c) - b r) then Ok d else Err NotFinite).
Lemma fit_lin : forall e w, linear_solver (fit_env e w).
Proof.
  intros e w n A b d H r Hr. cbn [fit_env v_lin] in H. destruct (vanishes _ _) eqn:V in H; [|discriminate]. injection H as <-. apply (proj1 (vanishes_spec _ _)) with (k := r) in V; [|exact Hr]. cbv beta in V. lra.
Qed.
Lemma fit_orb : forall e w, orbital_solver g22 (fit_env e w).
Proof.
  intros e w s c f ph H. cbn [fit_env v_orb] in H. destruct (Nat.eqb_spec (s_Nmo s) 1) as [Q|Q]; cbn [andb] in H; [|discriminate]. destruct (vanishes _ _) eqn:V; [|discriminate]. injection H as <- <- <-. split; [auto|]. intros p P i Hi. injection P as <-.
  intros k Hk. apply (proj1 (vanishes_spec _ _)) with (k := k) in V; [|exact Hk]. unfold schroed in V. cbn [one_phi snd]. lra.
Qed.
Definition fit_x (v : vec) : vec := x_pack (Nelem g22) 1 (fun _ _ => 1) (fun _ => 0) v.
Lemma fit_orbital : forall v k, (k < Nelem g22)%nat -> orb (Nelem g22) (fit_x v) 0 k = 1.
Proof. intros. unfold fit_x. rewrite pack_phi by (auto; lia). reflexivity. Qed.
Lemma fit_norm : forall v, 0 < integrate1 g22 (fun k => orb (Nelem g22) (fit_x v) 0 k ^ 2).
Proof. intros. rewrite (integrate1_ext _ _ (fun _ => 1 ^ 2)); [apply const_norm; lra|]. intros k Hk. rewrite fit_orbital by exact Hk. reflexivity. Qed.
(** A potential that is off by w is corrected by one Newton step. *)
Lemma newton_case : forall w, linear_solver (fit_env 0 w) /\ exists x', o_update g22 (fit_env 0 w) (one_opt "orbitalinvert" false false 50) 1 (fun _ => 1) (fun _ => 2) true (fit_x (fun k => one_pot 0 k + w k), one_solver (fun _ => 0) None None) = Ok (x', one_solver (fun _ => 0) None None) /\
  forall k, (k < Nelem g22)%nat -> pot (Nelem g22) 1 x' k = one_pot 0 k.
Proof.
  intros w. split; [apply fit_lin|]. set (x := fit_x (fun k => one_pot 0 k + w k)). set (d := fun c => if (c <? Nelem g22)%nat then 0 else w (c - Nelem g22)%nat). set (n := x_len (Nelem g22) 1).
  assert (V : v_lin (fit_env 0 w) n (o_jac g22 1 (hamiltonian g22 0) x) (o_eqn g22 1 (hamiltonian g22 0) (fun _ => 1) (fun _ => 2) x) = Ok d).
  { cbn [fit_env v_lin]. fold d. match goal with |- (if ?b then _ else _) = _ => assert (B : b = true) end; [|rewrite B; reflexivity]. apply vanishes_spec. intros r Hr. cbv beta.
    enough (Q : jrow g22 1 (hamiltonian g22 0) x d r - o_eqn g22 1 (hamiltonian g22 0) (fun _ => 1) (fun _ => 2) x r = 0) by exact Q.
    assert (D0 : forall i k, (i < 1)%nat -> (k < Nelem g22)%nat -> orb (Nelem g22) d i k = 0). { intros i k Hi Hk. unfold orb, d. replace i with 0%nat by lia. cbn [Nat.mul Nat.add]. destruct (Nat.ltb_spec k (Nelem g22)); [reflexivity|lia]. }
    assert (X0 : forall k, pot (Nelem g22) 1 x k = one_pot 0 k + w k) by (intros k; unfold x, fit_x; apply pack_v).
    assert (D1 : forall k, pot (Nelem g22) 1 d k = w k). { intros k. unfold pot, d. destruct (Nat.ltb_spec (1 * Nelem g22 + (1 - 1) + k) (Nelem g22)); [lia|]. f_equal. lia. }
    unfold n, x_len in Hr. destruct (Nat.lt_ge_cases r (Nelem g22)) as [L|L].
    - replace r with (ks_row (Nelem g22) 0 r) by (unfold ks_row; lia). rewrite jrow_ks, eqn_ks by (auto; lia). rewrite X0, D0, D1 by (auto; lia). change (eigv (Nelem g22) 1 x 0) with 0. change (eigv (Nelem g22) 1 d 0) with 0. rewrite (fit_orbital _ r L : orb (Nelem g22) x 0 r = 1).
      rewrite sumR_zero by (intros l Hl; rewrite D0 by (auto; lia); ring). pose proof (one_schroed 0 r L) as S. unfold schroed in S.
      rewrite (sumR_ext _ (fun l => hamiltonian g22 0 r l * orb (Nelem g22) x 0 l) (fun l => hamiltonian g22 0 r l * 1)) by (intros l Hl; unfold x; rewrite fit_orbital by exact Hl; reflexivity). 
      unfold oWWi, oWi in *. replace (sumR (Nelem g22) (fun l => hamiltonian g22 0 r l * 1)) with (- (gw g22 r * one_pot 0 r)) by lra. ring.
    - replace r with (dens_row (Nelem g22) 1 (r - Nelem g22)) by (unfold dens_row; lia). assert (Hk : (r - Nelem g22 < Nelem g22)%nat) by lia. rewrite jrow_dens, eqn_dens by exact Hk. cbn [sumR]. rewrite D0 by (auto; lia). rewrite (fit_orbital _ _ Hk : orb (Nelem g22) x 0 (r - Nelem g22)%nat = 1). field. }
  unfold o_update. cbn [io_iter one_opt io_ab]. cbn [s_m one_solver]. fold n. rewrite V. cbn [bind].
  set (y := fun r => x r + - 1 * d r). assert (G : is_ok (o_polish g22 false 1 (fun _ => 2) y)).
  { unfold o_polish. cbn [bind]. apply normalize_ok_iff. intros i Hi. replace i with 0%nat by lia. rewrite (integrate1_ext _ _ (fun k => orb (Nelem g22) x 0 k ^ 2)); [apply fit_norm|]. intros k Hk. f_equal. unfold orb, y, d. cbn [Nat.mul Nat.add]. destruct (Nat.ltb_spec k (Nelem g22)); [ring|lia]. }
  destruct G as (x' & G). exists x'. rewrite G. split; [reflexivity|]. intros k Hk. destruct (polish_rescaled _ _ _ _ _ G) as (_ & _ & P). rewrite P.
  unfold y, pot, d. change (x (1 * Nelem g22 + (1 - 1) + k)%nat) with (pot (Nelem g22) 1 x k). unfold x, fit_x. rewrite pack_v. destruct (Nat.ltb_spec (1 * Nelem g22 + (1 - 1) + k) (Nelem g22)); [lia|]. replace (1 * Nelem g22 + (1 - 1) + k - Nelem g22)%nat with k by lia. ring.
Qed.
(** Orbitals recomputed in a potential of which the constant is the orbital with eigenvalue e. *)
Lemma recomputed_case : forall e, orbital_solver g22 (fit_env e (fun _ => 0)) /\ exists x' s', o_update g22 (fit_env e (fun _ => 0)) (one_opt "orbitalinvert" false false 50) 1 (fun _ => 1) (fun _ => 2) false (fit_x (one_pot e), one_solver (fun _ => 0) None None) = Ok (x', s') /\
  forall k, pot (Nelem g22) 1 x' k = one_pot e k - e.
Proof.
  intros e. split; [apply fit_orb|]. unfold o_update. set (s1 := set_veff _ _). assert (V : v_orb (fit_env e (fun _ => 0)) s1 = Ok (one_eig e, Some one_phi)).
  { cbn [fit_env v_orb]. change (s_Nmo s1) with 1%nat. cbn [Nat.eqb andb]. match goal with |- (if ?b then _ else _) = _ => assert (B : b = true) end; [|rewrite B; reflexivity]. apply vanishes_spec. intros k Hk. rewrite <- (one_schroed e k Hk). unfold schroed. change (s_m s1) with 0%Z. f_equal. f_equal. f_equal. f_equal. apply pack_v. }
  rewrite V. cbn [bind one_eig need]. change (io_ab (one_opt "orbitalinvert" false false 50)) with false. set (y := x_pack _ _ _ _ _). assert (G : is_ok (o_polish g22 false 1 (fun _ => 2) y)).
  { unfold o_polish. cbn [bind]. apply normalize_ok_iff. intros i Hi. replace i with 0%nat by lia. rewrite (integrate1_ext _ _ (fun k => 1 ^ 2)); [apply const_norm; lra|]. intros k Hk. f_equal. unfold y. rewrite pack_phi by (auto; lia). reflexivity. }
  destruct G as (x' & G). rewrite G. cbn [bind]. eexists _, _. split; [reflexivity|]. intros k. destruct (polish_rescaled _ _ _ _ _ G) as (_ & _ & P). rewrite P. unfold y. rewrite pack_v. f_equal. apply pack_v.
Qed.
(** A second inversion of the same density. *)
Lemma restart_case : forall e, exists iv' q, orbitalinvert g22 (one_env 0) one_n0 (fun _ => 0) (0%nat, fun _ => 0) None 0 (one_inv (one_opt "orbitalinvert" false false 50) 1 1 (one_pot e) (Some one_phi) (Some (one_eig e)) true) = Ok (iv', true, OArr 1 1 (fun _ _ => Some (mkInfo 1 (Fin 0)))) /\
  (forall k, s_veff (i_sol iv' 0%nat 0%nat) k = one_pot e k - e) /\ s_phi (i_sol iv' 0%nat 0%nat) = Some (1%nat, q) /\ forall k, (k < Nelem g22)%nat -> q 0%nat k < 0.
Proof.
  intros e. destruct (restart g22 (one_env 0) (one_inv (one_opt "orbitalinvert" false false 50) 1 1 (one_pot e) (Some one_phi) (Some (one_eig e)) true) 0 (fun _ _ => 1) (fun _ => e) (one_pot e) one_n0 (fun _ => 0) (0%nat, fun _ => 0) None) as (iv' & q & H1 & H2 & H3 & H4); simpl; auto; try lra; try lia; try reflexivity.
  - left. repeat split. rewrite g22_n; lia.
  - intros i _. apply one_eigen.
  - intros i _. apply (const_norm 1). lra.
  - intros. unfold one_n0. simpl. ring.
  - exists iv', q. split; [exact H1|]. split; [exact H2|]. split; [exact H3|]. intros k Hk. destruct (H4 0%nat) as (c & C1 & _ & C3); [cbn; lia|]. rewrite C3 by exact Hk. lra.
Qed.
Lemma short_case : orbitalinvert g22 (one_env 0) one_n0 (fun _ => 1) (1%nat, fun _ => 0) None 0 (one_inv (one_opt "orbitalinvert" false false 50) 1 1 (fun _ => 0) None None false) = Err TypeError /\
  orbitalinvert g22 (one_env 0) one_n0 (fun _ => 1) (0%nat, fun _ => 0) (Some (A1 (one_pot 0))) 0 (one_inv (one_opt "orbitalinvert" false false 50) 1 1 (fun _ => 0) None None false) = Err IndexError.
Proof.
  split; apply short_guess; simpl; auto; intros _; change 2 with (IZR 2); rewrite floorZ_IZR; reflexivity.
Qed.
