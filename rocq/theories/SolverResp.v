(** Response function, iterative orbital update, base Hamiltonian. *)
From Coq Require Import Reals List Arith Lia Lra ZArith Bool FunctionalExtensionality.
From Verif Require Import Base BaseLemmas GridModel GridSpec GridProofs FDProofs OpProofs GridMore HartreeSpec LinAlg SolverModel SolverSpec SolverProofs SolverThms.
Import ListNotations.
Local Open Scope R_scope.

(** * Response *)
Lemma sumR_S_last : forall n f, sumR (S n) f = sumR n f + f n.
Proof. reflexivity. Qed.
Lemma ltb_true : forall i n, (i < n)%nat -> (i <? n)%nat = true.
Proof. intros. apply Nat.ltb_lt; auto. Qed.
Lemma ltb_refl : forall n, (n <? n)%nat = false.
Proof. intros. apply Nat.ltb_irrefl. Qed.

(** The bordered system, written out: first-order perturbation theory for one orbital. *)
Lemma resp_rows : forall g H e p c x, solves (S (Nelem g)) (resp_A g H e p) (resp_rhs g p c) x ->
  sumR (Nelem g) (fun j => gw g j * p j * x j) = 0 /\
  forall i, (i < Nelem g)%nat ->
    gapply g H x i - e * gw g i * x i - gw g i * p i * x (Nelem g) = - (if (i =? c)%nat then gw g i * p i else 0).
Proof.
  intros g H e p c x Hx. split.
  - specialize (Hx (Nelem g) ltac:(lia)). rewrite sumR_S_last in Hx. unfold resp_A, resp_rhs in Hx.
    rewrite ltb_refl in Hx.
    rewrite (sumR_ext _ _ (fun j => gw g j * p j * x j)) in Hx by (intros; rewrite ltb_true by auto; reflexivity). lra.
  - intros i Hi. specialize (Hx i ltac:(lia)). rewrite sumR_S_last in Hx. unfold resp_A, resp_rhs in Hx.
    rewrite ltb_refl, ltb_true in Hx by auto.
    rewrite (sumR_ext _ _ (fun j => (-1) * (H i j * x j) + (if (i =? j)%nat then e * gw g i * x i else 0))) in Hx.
    2: { intros j Hj. rewrite ltb_true by auto. unfold diagflat. destruct (Nat.eqb_spec i j); [subst|]; ring. }
    rewrite sumR_plus, sumR_scal, (sumR_single (Nelem g) i (fun j => if (i =? j)%nat then e * gw g i * x i else 0)) in Hx; auto.
    2: { intros j Hj Hne. destruct (Nat.eqb_spec i j); [congruence|auto]. }
    rewrite Nat.eqb_refl in Hx. unfold gapply, matvec. destruct (i =? c)%nat; lra.
Qed.
Lemma resp_sum_zero : forall g H e p (x : nat -> vec), nonsing (S (Nelem g)) (resp_A g H e p) ->
  (forall c, (c < Nelem g)%nat -> solves (S (Nelem g)) (resp_A g H e p) (resp_rhs g p c) (x c)) ->
  forall r, (r < Nelem g)%nat -> sumR (Nelem g) (fun c => x c r) = 0.
Proof.
  intros g H e p x HN HS r Hr.
  set (n := Nelem g) in *. set (A := resp_A g H e p) in *.
  assert (Y := HN (fun r => sumR n (fun c => x c r) - (if (r =? n)%nat then 1 else 0))).
  cbv beta in Y. specialize (fun E => Y E r ltac:(lia)).
  destruct (Nat.eqb_spec r n); [lia|]. rewrite Rminus_0_r in Y. apply Y. clear Y.
  intros i Hi.
  rewrite (sumR_ext _ _ (fun j => sumR n (fun c => A i j * x c j) - (if (j =? n)%nat then A i j else 0))).
  2: { intros. rewrite sumR_scal. destruct (i0 =? n)%nat; ring. }
  rewrite sumR_minus, sumR_swap.
  rewrite (sumR_ext n _ (fun c => resp_rhs g p c i)) by (intros c Hc; apply HS; auto).
  rewrite (sumR_single (S n) n (fun j => if (j =? n)%nat then A i j else 0)); [|lia|].
  2: { intros j Hj Hne. destruct (Nat.eqb_spec j n); [congruence|auto]. }
  rewrite Nat.eqb_refl. unfold A, resp_A, resp_rhs. fold n. rewrite ltb_refl.
  destruct (Nat.ltb_spec i n).
  - rewrite (sumR_single n i); auto.
    + rewrite Nat.eqb_refl. ring.
    + intros c Hc Hne. destruct (Nat.eqb_spec i c); [congruence|auto].
  - rewrite sumR_zero; [ring|auto].
Qed.

(** Orbital j normalised to one, as used by the response. *)
Definition unit_orb (g : grid) (p : vec) : vec := fun x => p x / sqrt (norm2 g p).
Lemma resp_loop_ok : forall g sp H s c p e k, s_phi s = Some (c, p) -> s_eig s = Some (c, e) -> (k <= c)%nat ->
  exists chi, resp_loop g sp H s k = Ok chi /\ forall r q, chi r q = sumR k (fun j =>
    2 * (unit_orb g (p j) r * sp (resp_A g H (e j) (unit_orb g (p j))) (resp_rhs g (unit_orb g (p j)) q) r)).
Proof.
  intros g sp H s c p e k Hp He. induction k; intros Hk.
  - exists (fun _ _ => 0). auto.
  - destruct IHk as (chi & E & F); [lia|]. cbn [resp_loop]. rewrite E. cbn [bind].
    rewrite (phi_col_ok s c p) by (auto; lia). cbn [bind]. rewrite (eig_at_ok s c e) by (auto; lia). cbn [bind].
    eexists; split; [reflexivity|]. intros r q. cbv beta. rewrite F, sumR_S_last. reflexivity.
Qed.
Definition full_ham (g : grid) (s : solver) : mat :=
  fun i j => hamiltonian g (s_m s) i j + diagflat (fun k => gw g k * s_veff s k) i j.
Lemma extra_false : forall s, 0 <= s_N s -> (s_frac s = false \/ full_shells s) -> extra s = false.
Proof.
  intros s H Hf. unfold extra. destruct Hf as [->|Hf]; auto. apply full_shells_iff in Hf; auto.
  destruct (nfull_bounds s H) as (Q & _). rewrite Q, <- INR_IZR_INZ.
  replace (nonzero _) with false; [apply andb_false_r|]. symmetry; apply nonzero_false; lra.
Qed.
Definition spin_factor (s : solver) : R := if (s_pol s =? 1)%nat then 2 else 1.
Lemma response_ok : forall g sp s c p e, 0 <= s_N s -> s_phi s = Some (c, p) -> s_eig s = Some (c, e) -> enough s c ->
  (s_frac s = false \/ full_shells s) ->
  exists chi, calc_response g sp s = Ok chi /\ forall r q, chi r q = spin_factor s * sumR (nfull s) (fun j =>
    2 * (unit_orb g (p j) r * sp (resp_A g (full_ham g s) (e j) (unit_orb g (p j))) (resp_rhs g (unit_orb g (p j)) q) r)).
Proof.
  intros g sp s c p e H Hp He En Hf. pose proof (extra_false s H Hf) as X.
  pose proof (proj1 (enough_iff s c H) En) as Hc. unfold nneed in Hc. rewrite X in Hc.
  unfold calc_response. rewrite nocc_form. fold (nfull s) (extra s). fold (full_ham g s).
  destruct (resp_loop_ok g sp (full_ham g s) s c p e (nfull s) Hp He) as (chi & E & F); [lia|].
  rewrite E. cbn [bind]. rewrite X. eexists; split; [reflexivity|].
  intros r q. cbv beta. rewrite F. unfold spin_factor. destruct (s_pol s =? 1)%nat; ring.
Qed.
Lemma sternheimer : forall g H e p (x : nat -> vec) v,
  (forall c, (c < Nelem g)%nat -> solves (S (Nelem g)) (resp_A g H e p) (resp_rhs g p c) (x c)) ->
  let u := fun r => sumR (Nelem g) (fun c => v c * x c r) in
  sumR (Nelem g) (fun j => gw g j * p j * u j) = 0 /\
  forall i, (i < Nelem g)%nat -> gapply g H u i - e * gw g i * u i = - gw g i * (v i - u (Nelem g)) * p i.
Proof.
  intros g H e p x v HS u. split.
  - unfold u. rewrite (sumR_ext _ _ (fun j => sumR (Nelem g) (fun c => v c * (gw g j * p j * x c j)))).
    2: { intros. rewrite <- sumR_scal. apply sumR_ext. intros. ring. }
    rewrite sumR_swap. apply sumR_zero. intros c Hc. rewrite sumR_scal.
    rewrite (proj1 (resp_rows _ _ _ _ _ _ (HS c Hc))). ring.
  - intros i Hi.
    assert (E : gapply g H u i = sumR (Nelem g) (fun c => v c * gapply g H (x c) i)).
    { unfold gapply, matvec, u.
      rewrite (sumR_ext _ _ (fun j => sumR (Nelem g) (fun c => v c * (H i j * x c j)))).
      2: { intros. rewrite <- sumR_scal. apply sumR_ext. intros. ring. }
      rewrite sumR_swap. apply sumR_ext. intros. rewrite sumR_scal. reflexivity. }
    rewrite E.
    assert (Q : sumR (Nelem g) (fun c => v c * (gapply g H (x c) i - e * gw g i * x c i - gw g i * p i * x c (Nelem g)))
       = - (gw g i * p i * v i)).
    { rewrite (sumR_ext _ _ (fun c => (if (c =? i)%nat then 1 else 0) * (- (gw g i * p i * v c)))).
      - rewrite sumR_delta by auto. reflexivity.
      - intros c Hc. rewrite (proj2 (resp_rows _ _ _ _ _ _ (HS c Hc)) i Hi). rewrite (Nat.eqb_sym c i). destruct (i =? c)%nat; ring. }
    rewrite (sumR_ext _ _ (fun c => v c * gapply g H (x c) i - (e * gw g i * (v c * x c i) + gw g i * p i * (v c * x c (Nelem g))))) in Q by (intros; ring).
    rewrite sumR_minus, sumR_plus, !sumR_scal in Q. fold (u i) (u (Nelem g)) in Q.
    change (sumR (Nelem g) (fun i0 => v i0 * x i0 i)) with (u i) in Q.
    change (sumR (Nelem g) (fun i0 => v i0 * x i0 (Nelem g))) with (u (Nelem g)) in Q. lra.
Qed.

(** * Hamiltonian *)
Lemma gapply_diag : forall g d f k, (k < Nelem g)%nat -> gapply g (diagflat d) f k = d k * f k.
Proof.
  intros. unfold gapply, matvec, diagflat. rewrite (sumR_single (Nelem g) k); auto.
  - rewrite Nat.eqb_refl. reflexivity.
  - intros. destruct (Nat.eqb_spec k i); [congruence|ring].
Qed.
Lemma gapply_lin2 : forall g A B f k a b, gapply g (fun i j => a * A i j + b * B i j) f k = a * gapply g A f k + b * gapply g B f k.
Proof.
  intros. unfold gapply, matvec. rewrite <- !sumR_scal, <- sumR_plus. apply sumR_ext. intros; ring.
Qed.
Lemma hamiltonian_apply : forall g m f k, grid_ok g -> (k < Nelem g)%nat ->
  gapply g (hamiltonian g m) f k =
  - (1 / 2) * gapply g (if Z.even m then elap g else olap g) f k + gw g k * (IZR m ^ 2 / (2 * gY g k ^ 2)) * f k.
Proof.
  intros g m f k Hg Hk. unfold hamiltonian.
  assert (E : (m mod 2 =? 0)%Z = Z.even m) by (rewrite Zmod_even; destruct (Z.even m); reflexivity).
  rewrite E.
  set (L := if Z.even m then elap g else olap g). set (D := diagflat (fun k0 => IZR m ^ 2 * gw g k0 * gf g k0)).
  transitivity (gapply g (fun i j => - (1/2) * L i j + 1 * D i j) f k).
  - unfold gapply. apply matvec_ext; intros; ring.
  - rewrite gapply_lin2. unfold D. rewrite gapply_diag by auto. rewrite gf_val by auto. unfold Rdiv; ring.
Qed.
Lemma hamiltonian_sign : forall g m i j, hamiltonian g (- m) i j = hamiltonian g m i j.
Proof.
  intros. unfold hamiltonian.
  assert (E : forall z, (z mod 2 =? 0)%Z = Z.even z) by (intros; rewrite Zmod_even; destruct (Z.even z); reflexivity).
  rewrite !E, Z.even_opp. unfold diagflat. destruct (i =? j)%nat; auto. rewrite opp_IZR. f_equal. ring.
Qed.
Lemma hamiltonian_mirror : forall g b m f k, grid_ok g -> fd_ok g b -> (b <= Na g)%nat -> (k < Nelem g)%nat ->
  gapply g (hamiltonian g m) (mirror1 g f) k = mirror1 g (gapply g (hamiltonian g m) f) k.
Proof.
  intros g b m f k Hg Hb Hn Hk. rewrite hamiltonian_apply by auto.
  rewrite (mirror1_ext _ g (gapply g (hamiltonian g m) f)
    (fun k => - (1 / 2) * gapply g (if Z.even m then elap g else olap g) f k + gw g k * (IZR m ^ 2 / (2 * gY g k ^ 2)) * f k))
    by (auto; intros; apply hamiltonian_apply; auto).
  rewrite (mirror1_map2 _ _ _ g Rplus (fun k => - (1 / 2) * gapply g (if Z.even m then elap g else olap g) f k)
    (fun k => gw g k * (IZR m ^ 2 / (2 * gY g k ^ 2)) * f k)) by auto.
  f_equal.
  - rewrite (mirror1_map _ _ g (fun t => - (1 / 2) * t)) by auto. f_equal.
    destruct (Z.even m); [apply (elap_mirror g b)|apply (olap_mirror g b)]; auto.
  - rewrite (mirror1_map2 _ _ _ g Rmult (fun k => gw g k * (IZR m ^ 2 / (2 * gY g k ^ 2))) f) by auto. f_equal.
    rewrite (mirror1_ext _ g (fun k => gw g k * (IZR m ^ 2 / (2 * gY g k ^ 2))) (fun k => IZR m ^ 2 * (gw g k * gf g k))).
    2: auto.
    2: { intros. rewrite gf_val by auto. unfold Rdiv. ring. }
    rewrite (mirror1_map _ _ g (fun t => IZR m ^ 2 * t)) by auto.
    rewrite (mirror1_map2 _ _ _ g Rmult (gw g) (gf g)) by auto. rewrite gw_mirror, gf_mirror by auto.
    rewrite gf_val by auto. unfold Rdiv; ring.
Qed.

(** * Iterative update *)
Section Iter.
Variables (g : grid) (s : solver) (H : mat) (lin : mat -> vec -> vec) (tol : R) (phi0 : nat -> vec) (eig0 : vec).
Let rv := fun j => res_col g H (eig0 j) (phi0 j).
Definition above (j : nat) : Prop := tol < maxabs (Nelem g) (rv j).
Let nc (p : vec) := normalize_col g (norm_occ s) p.
(** Orbital j when the loop reaches it. *)
Definition entering (j : nat) : vec := if (j =? 0)%nat then phi0 j else nc (phi0 j).
Definition newton (q : nat) : vec :=
  lin (newton_C g H (eig0 q) (entering q)) (newton_rhs g (rv q)).
(** x in force after pass j. *)
Fixpoint cur (j : nat) : option vec :=
  if Rlt_dec tol (maxabs (Nelem g) (rv j)) then Some (newton j)
  else match j with O => None | S i => cur i end.
Definition corrected (x : vec) (j : nat) : vec := nc (fun k => entering j k - x k).

Hypothesis norm_in : forall j, (j < s_Nmo s)%nat -> 0 < norm2 g (phi0 j).
Hypothesis norm_out : forall j x, (j < s_Nmo s)%nat -> cur j = Some x -> 0 < norm2 g (fun k => entering j k - x k).

Lemma nc_idem : forall p, 0 < norm2 g p -> nc (nc p) = nc p.
Proof.
  intros p Hp. unfold nc. extensionality k. apply normalize_idem; auto. pose proof (norm_occ_pos s). lra.
Qed.
Lemma iter_loop_err : cur 0 = None -> forall k, (1 <= k)%nat ->
  iter_loop g s H lin tol rv k (mkIt phi0 eig0 None) = Err UnboundLocalError.
Proof.
  intros Hc. induction k; intros Hk; [lia|]. cbn [iter_loop]. destruct k.
  - cbn [iter_loop bind]. unfold iter_step. simpl in Hc.
    destruct (Rlt_dec tol (maxabs (Nelem g) (rv 0))); [discriminate|]. reflexivity.
  - rewrite IHk by lia. reflexivity.
Qed.
Lemma cur_some : above 0 -> forall j, exists x, cur j = Some x.
Proof.
  intros H0 j. unfold above in H0. induction j; cbn [cur].
  - destruct Rlt_dec; [eexists; reflexivity|contradiction].
  - destruct Rlt_dec; [eexists; reflexivity|auto].
Qed.
Lemma cur_last : forall j q, (q <= j)%nat -> above q -> (forall i, (q < i)%nat -> (i <= j)%nat -> ~ above i) ->
  cur j = Some (newton q).
Proof.
  induction j; intros q Hq Ha Hn; unfold above in Ha.
  - replace q with O in * by lia. simpl. destruct Rlt_dec; [reflexivity|contradiction].
  - cbn [cur]. destruct (Rlt_dec tol (maxabs (Nelem g) (rv (S j)))) as [L|L].
    + destruct (Nat.eq_dec q (S j)); [subst; auto|]. exfalso. apply (Hn (S j)); [lia|lia|exact L].
    + assert (q <> S j) by (intros ->; contradiction). apply IHj; [lia|exact Ha|]. intros. apply Hn; lia.
Qed.
Lemma iter_loop_inv : above 0 -> forall k, (k <= s_Nmo s)%nat ->
  exists st, iter_loop g s H lin tol rv k (mkIt phi0 eig0 None) = Ok st /\
    it_x st = match k with O => None | S i => cur i end /\
    (forall i, (i < s_Nmo s)%nat -> it_phi st i =
       if (i <? k)%nat then match cur i with Some x => corrected x i | None => fun _ => 0 end
       else if (k =? 0)%nat then phi0 i else nc (phi0 i)) /\
    (forall i, it_eig st i = if (i <? k)%nat then match cur i with Some x => eig0 i - x (Nelem g) | None => 0 end else eig0 i).
Proof.
  intros H0. induction k; intros Hk.
  - exists (mkIt phi0 eig0 None). repeat split; auto.
  - destruct IHk as (st & E & EX & EP & EE); [lia|]. cbn [iter_loop]. rewrite E. cbn [bind].
    destruct (cur_some H0 k) as (x & Hx).
    assert (PK : it_phi st k = entering k).
    { rewrite EP by lia. rewrite ltb_refl. reflexivity. }
    assert (EK : it_eig st k = eig0 k) by (rewrite EE, ltb_refl; reflexivity).
    assert (X : (if Rlt_dec tol (maxabs (Nelem g) (rv k))
           then Some (lin (newton_C g H (it_eig st k) (it_phi st k)) (newton_rhs g (rv k)))
           else it_x st) = Some x).
    { rewrite PK, EK, EX. rewrite <- Hx. destruct k; cbn [cur]; destruct Rlt_dec; reflexivity. }
    unfold iter_step. rewrite X. eexists; split; [reflexivity|]. cbn [it_x it_phi it_eig]. repeat split.
    + auto.
    + intros i Hi. unfold normalize_orbitals, upd. rewrite (ltb_true i (s_Nmo s)) by auto. fold (nc).
      destruct (Nat.eqb_spec i k) as [->|Hne].
      * rewrite (ltb_true k (S k)) by lia. rewrite Hx, PK. reflexivity.
      * change (normalize_col g (norm_occ s) (it_phi st i)) with (nc (it_phi st i)). rewrite EP by auto.
        destruct (Nat.ltb_spec i k).
        -- rewrite (ltb_true i (S k)) by lia. destruct (cur_some H0 i) as (y & Hy). rewrite Hy.
           unfold corrected. apply nc_idem. apply norm_out; auto.
        -- destruct (Nat.ltb_spec i (S k)); [lia|]. change (S k =? 0)%nat with false. cbv iota.
           destruct (Nat.eqb_spec k 0); [reflexivity|]. apply nc_idem. auto.
    + intros i. unfold upd. destruct (Nat.eqb_spec i k) as [->|Hne].
      * rewrite (ltb_true k (S k)) by lia. rewrite Hx, EK. reflexivity.
      * rewrite EE. destruct (Nat.ltb_spec i k); destruct (Nat.ltb_spec i (S k)); try lia; auto.
Qed.
End Iter.

Lemma iter_orbitals_err : forall g s lin tol phi eig, (1 <= s_Nmo s)%nat ->
  ~ above g (full_ham g s) tol phi eig 0 -> iter_orbitals g s lin tol phi eig = Err UnboundLocalError.
Proof.
  intros g s lin tol phi eig Hn Ha. unfold iter_orbitals. fold (full_ham g s).
  apply iter_loop_err; auto. simpl. destruct Rlt_dec; [contradiction|reflexivity].
Qed.
Lemma iter_orbitals_ok : forall g s lin tol phi eig,
  let H := full_ham g s in
  above g H tol phi eig 0 ->
  (forall j, (j < s_Nmo s)%nat -> 0 < norm2 g (phi j)) ->
  (forall j q, (j < s_Nmo s)%nat -> (q <= j)%nat -> above g H tol phi eig q ->
     0 < norm2 g (fun k => entering g s phi j k - newton g s H lin phi eig q k)) ->
  exists st, iter_orbitals g s lin tol phi eig = Ok st /\
    forall j q, (j < s_Nmo s)%nat -> (q <= j)%nat -> above g H tol phi eig q ->
      (forall i, (q < i)%nat -> (i <= j)%nat -> ~ above g H tol phi eig i) ->
      (forall k, it_phi st j k = normalize_col g (norm_occ s) (fun k => entering g s phi j k - newton g s H lin phi eig q k) k)
      /\ it_eig st j = eig j - newton g s H lin phi eig q (Nelem g).
Proof.
  intros g s lin tol phi eig H H0 Hin Hout. unfold iter_orbitals. fold (full_ham g s). fold H.
  destruct (iter_loop_inv g s H lin tol phi eig Hin) with (k := s_Nmo s) as (st & E & _ & EP & EE); auto.
  { intros j x Hj Hx.
    assert (Q : exists q, (q <= j)%nat /\ above g H tol phi eig q /\ x = newton g s H lin phi eig q).
    { clear - Hx. revert Hx. induction j; cbn [cur]; destruct Rlt_dec as [L|L]; intros E; try discriminate.
      - exists O. inversion E. auto.
      - exists (S j). inversion E. auto.
      - destruct (IHj E) as (q & A & B & C). exists q. split; [lia|auto]. }
    destruct Q as (q & A & B & ->). apply Hout; auto. }
  exists st. split; [exact E|]. intros j q Hj Hq Ha Hn.
  rewrite EP, EE, ltb_true by auto.
  rewrite (cur_last g s H lin tol phi eig j q) by auto. split; auto.
Qed.
(** The Newton system solved for one orbital, written out. *)
Lemma newton_rows : forall g H e p r x, solves (S (Nelem g)) (newton_C g H e p) (newton_rhs g r) x ->
  sumR (Nelem g) (fun j => gw g j * p j * x j) = - (/ 10 ^ 12) * x (Nelem g) /\
  forall i, (i < Nelem g)%nat ->
    gapply g H x i - e * gw g i * x i - gw g i * p i * x (Nelem g) = r i.
Proof.
  intros g H e p r x Hx. split.
  - specialize (Hx (Nelem g) ltac:(lia)). rewrite sumR_S_last in Hx. unfold newton_C, newton_rhs in Hx.
    rewrite ltb_refl in Hx.
    rewrite (sumR_ext _ _ (fun j => (-1) * (gw g j * p j * x j))) in Hx by (intros; rewrite ltb_true by auto; ring).
    rewrite sumR_scal in Hx. lra.
  - intros i Hi. specialize (Hx i ltac:(lia)). rewrite sumR_S_last in Hx. unfold newton_C, newton_rhs in Hx.
    rewrite ltb_refl, ltb_true in Hx by auto.
    rewrite (sumR_ext _ _ (fun j => (H i j * x j) + (if (i =? j)%nat then - (e * gw g i * x i) else 0))) in Hx.
    2: { intros j Hj. rewrite ltb_true by auto. unfold diagflat. destruct (Nat.eqb_spec i j); [subst|]; ring. }
    rewrite sumR_plus, (sumR_single (Nelem g) i (fun j => if (i =? j)%nat then - (e * gw g i * x i) else 0)) in Hx; auto.
    2: { intros j Hj Hne. destruct (Nat.eqb_spec i j); [congruence|auto]. }
    rewrite Nat.eqb_refl in Hx. unfold gapply, matvec. lra.
Qed.
