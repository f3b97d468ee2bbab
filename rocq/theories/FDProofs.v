(** Finite difference coefficients and derivative matrices. *)
From Coq Require Import Reals List Arith Lia Lra ZArith Bool.
From Coquelicot Require Import Coquelicot.
From Verif Require Import Base BaseLemmas GridModel Poly GridSpec GridProofs.
Import ListNotations.
Local Open Scope R_scope.

(** Moments of the raw coefficients. *)
Lemma fd_moments : forall loc d raw,
  solves (length loc) (transp (fd_table loc)) (fd_rhs d) raw ->
  forall p, (p < length loc)%nat ->
  sumR (length loc) (fun j => fd_x loc j ^ p * raw j) = if (p =? d)%nat then INR (fact p) else 0.
Proof.
  intros loc d raw H p Hp. specialize (H p Hp). unfold transp, fd_table, fd_rhs in H.
  pose proof (INR_fact_neq_0 p) as Hf.
  rewrite (sumR_ext _ _ (fun j => (-1 / INR (fact p)) * (fd_x loc j ^ p * raw j))) in H
    by (intros; ring).
  rewrite sumR_scal in H.
  set (S := sumR (length loc) (fun j => fd_x loc j ^ p * raw j)) in *.
  assert (S = - INR (fact p) * (if (p =? d)%nat then -1 else 0)) as ->.
  { rewrite <- H. field. auto. }
  destruct (p =? d)%nat; ring.
Qed.

Lemma fd_raw_exact : forall loc d raw,
  solves (length loc) (transp (fd_table loc)) (fd_rhs d) raw -> (d < length loc)%nat ->
  forall p, (length p <= length loc)%nat ->
  sumR (length loc) (fun j => raw j * peval p (fd_x loc j)) = Derive_n (peval p) d 0.
Proof.
  intros loc d raw H Hd p Hp.
  rewrite (moments_poly _ raw (fd_x loc) _ (fd_moments loc d raw H) p Hp).
  rewrite Derive_n_peval0, (sumR_single _ d); auto.
  - rewrite Nat.eqb_refl. ring.
  - intros i Hi Hne. apply Nat.eqb_neq in Hne. rewrite Hne. ring.
Qed.

Lemma fd_flush_id : forall x, x = 0 \/ / 10 ^ 10 <= Rabs x -> fd_flush x = x.
Proof.
  intros x [->|H]; unfold fd_flush; destruct (Rlt_dec _ _); auto. lra.
Qed.
Lemma fd_flush_err : forall x, Rabs (fd_flush x - x) <= / 10 ^ 10.
Proof.
  intros x. unfold fd_flush. destruct (Rlt_dec _ _) as [H|H].
  - rewrite Rminus_0_l, Rabs_Ropp. lra.
  - rewrite Rminus_diag_eq, Rabs_R0 by auto. left. apply Rinv_0_lt_compat. apply pow_lt. lra.
Qed.
Lemma fd_flush_opp : forall x, fd_flush (- x) = - fd_flush x.
Proof.
  intros x. unfold fd_flush. rewrite Rabs_Ropp. destruct (Rlt_dec _ _); ring.
Qed.

Lemma fd_coef_exact : forall loc d raw,
  solves (length loc) (transp (fd_table loc)) (fd_rhs d) raw -> (d < length loc)%nat ->
  (forall j, (j < length loc)%nat -> raw j = 0 \/ / 10 ^ 10 <= Rabs (raw j)) ->
  forall p, (length p <= length loc)%nat ->
  sumR (length loc) (fun j => fd_coef raw j * peval p (fd_x loc j)) = Derive_n (peval p) d 0.
Proof.
  intros loc d raw H Hd Hbig p Hp. rewrite <- (fd_raw_exact loc d raw) by auto.
  apply sumR_ext. intros. unfold fd_coef. rewrite fd_flush_id; auto.
Qed.

Lemma fd_coef_error : forall loc d raw,
  solves (length loc) (transp (fd_table loc)) (fd_rhs d) raw -> (d < length loc)%nat ->
  forall p, (length p <= length loc)%nat ->
  Rabs (sumR (length loc) (fun j => fd_coef raw j * peval p (fd_x loc j)) - Derive_n (peval p) d 0)
  <= / 10 ^ 10 * sumR (length loc) (fun j => Rabs (peval p (fd_x loc j))).
Proof.
  intros loc d raw H Hd p Hp. rewrite <- (fd_raw_exact loc d raw) by auto.
  rewrite <- sumR_minus, <- sumR_scal.
  eapply Rle_trans; [apply sumR_abs_le|]. apply sumR_le. intros j Hj.
  rewrite <- Rmult_minus_distr_r, Rabs_mult.
  apply Rmult_le_compat_r; [apply Rabs_pos|apply fd_flush_err].
Qed.

(** Symmetric stencils. *)
Lemma sym_stencil_length : forall b, length (sym_stencil b) = (2 * b + 1)%nat.
Proof. intros. unfold sym_stencil. rewrite map_length, seq_length. reflexivity. Qed.
Lemma sym_stencil_nth : forall b j d, (j < 2 * b + 1)%nat ->
  nth j (sym_stencil b) d = (Z.of_nat j - Z.of_nat b)%Z.
Proof.
  intros. unfold sym_stencil.
  rewrite (nth_indep _ d ((fun i => (Z.of_nat i - Z.of_nat b)%Z) 0%nat))
    by (rewrite map_length, seq_length; auto).
  rewrite (map_nth (fun i => (Z.of_nat i - Z.of_nat b)%Z)). rewrite seq_nth by auto. reflexivity.
Qed.

Lemma fd_parity : forall loc d raw,
  distinct (length loc) (fd_x loc) ->
  (forall j, (j < length loc)%nat -> fd_x loc (length loc - 1 - j)%nat = - fd_x loc j) ->
  solves (length loc) (transp (fd_table loc)) (fd_rhs d) raw ->
  forall j, (j < length loc)%nat -> raw (length loc - 1 - j)%nat = (-1) ^ d * raw j.
Proof.
  intros loc d raw Hd Hsym H j Hj.
  set (n := length loc) in *.
  assert (Hp1 : (-1) ^ d * (-1) ^ d = 1).
  { rewrite <- Rpow_mult_distr. replace (-1 * -1) with 1 by ring. apply pow1. }
  assert (E : forall i, (i < n)%nat -> raw i = (-1) ^ d * raw (n - 1 - i)%nat).
  { apply (vander_unique n raw (fun i => (-1) ^ d * raw (n - 1 - i)%nat) (fd_x loc) _ Hd
             (fd_moments loc d raw H)).
    intros p Hp. rewrite <- (sumR_rev n).
    rewrite (sumR_ext n _ (fun i => (-1) ^ p * (-1) ^ d * (fd_x loc i ^ p * raw i))).
    2:{ intros i Hi. replace (n - 1 - (n - 1 - i))%nat with i by lia.
        rewrite Hsym by auto. replace (- fd_x loc i) with (-1 * fd_x loc i) by ring.
        rewrite Rpow_mult_distr. ring. }
    rewrite sumR_scal. unfold n. rewrite (fd_moments loc d raw H p Hp).
    destruct (Nat.eqb_spec p d); [subst; rewrite Hp1; ring|ring]. }
  rewrite (E j Hj), <- Rmult_assoc, Hp1. ring.
Qed.

Lemma sym_fd_x : forall b j, (j < 2 * b + 1)%nat -> fd_x (sym_stencil b) j = INR j - INR b.
Proof.
  intros. unfold fd_x. rewrite sym_stencil_nth by auto.
  rewrite minus_IZR, <- !INR_IZR_INZ. reflexivity.
Qed.
Lemma sym_distinct : forall b, distinct (length (sym_stencil b)) (fd_x (sym_stencil b)).
Proof.
  intros b i j Hi Hj Hij. rewrite sym_stencil_length in Hi, Hj.
  rewrite !sym_fd_x by auto. intros E. apply Hij, INR_eq. lra.
Qed.
Lemma sym_reflect : forall b j, (j < length (sym_stencil b))%nat ->
  fd_x (sym_stencil b) (length (sym_stencil b) - 1 - j)%nat = - fd_x (sym_stencil b) j.
Proof.
  intros b j Hj. rewrite sym_stencil_length in *. rewrite !sym_fd_x by lia.
  rewrite !minus_INR by lia. rewrite plus_INR, mult_INR. simpl INR. lra.
Qed.

(** Coefficient at integer offset z. *)
Definition coefZ (b : nat) (ds : vec) (z : Z) : R :=
  sumR (2 * b + 1) (fun j => ds j * (if (z =? Z.of_nat j - Z.of_nat b)%Z then 1 else 0)).

Lemma coefZ_in : forall b ds z, (- Z.of_nat b <= z <= Z.of_nat b)%Z ->
  coefZ b ds z = ds (Z.to_nat (z + Z.of_nat b)).
Proof.
  intros. unfold coefZ. rewrite (sumR_single _ (Z.to_nat (z + Z.of_nat b))); try lia.
  - rewrite Z2Nat.id by lia. replace (z + Z.of_nat b - Z.of_nat b)%Z with z by lia.
    rewrite Z.eqb_refl. ring.
  - intros i Hi Hne. destruct (Z.eqb_spec z (Z.of_nat i - Z.of_nat b)); [lia|ring].
Qed.
Lemma coefZ_out : forall b ds z, (z < - Z.of_nat b \/ Z.of_nat b < z)%Z -> coefZ b ds z = 0.
Proof.
  intros. unfold coefZ. apply sumR_zero. intros i Hi.
  destruct (Z.eqb_spec z (Z.of_nat i - Z.of_nat b)); [lia|ring].
Qed.

Lemma coefZ_opp : forall b ds eps,
  (forall j, (j < 2 * b + 1)%nat -> ds (2 * b + 1 - 1 - j)%nat = eps * ds j) ->
  forall z, coefZ b ds (- z) = eps * coefZ b ds z.
Proof.
  intros b ds eps H z.
  destruct (Z_le_dec (- Z.of_nat b) z); destruct (Z_le_dec z (Z.of_nat b));
    try (rewrite !coefZ_out by lia; ring).
  rewrite !coefZ_in by lia. rewrite <- H by lia. f_equal. lia.
Qed.

Section Matrices.
Variable b n : nat.
Variable ds : vec.
Variable eps : R.
Hypothesis Hb : (1 <= b)%nat.
Hypothesis Hn : (b <= n)%nat.
Hypothesis Hpar : forall j, (j < 2 * b + 1)%nat -> ds (2 * b + 1 - 1 - j)%nat = eps * ds j.

Notation c := (coefZ b ds).
Notation bc := (fd_bc b (2 * b + 1) ds).

Lemma band_val : forall p q,
  fd_band (sym_stencil b) ds p q = c (Z.of_nat q - Z.of_nat p).
Proof.
  intros. unfold fd_band, coefZ. rewrite sym_stencil_length. apply sumR_ext. intros i Hi.
  unfold diagk. rewrite sym_stencil_nth by auto. reflexivity.
Qed.

Lemma bc_val : forall p q, (p < b)%nat -> (q < b)%nat ->
  bc p q = c (Z.of_nat b + Z.of_nat q - Z.of_nat p).
Proof using Type.
  clear Hb Hn Hpar.
  intros p q Hp Hq. unfold fd_bc. destruct (le_lt_dec q p).
  - rewrite coefZ_in by lia. rewrite (sumR_single b (p - q)); try lia.
    + unfold diagk. destruct (Z.eqb_spec (Z.of_nat q - Z.of_nat p) (- Z.of_nat (p - q))); [|lia].
      rewrite Rmult_1_r. f_equal. lia.
    + intros i Hi Hne. unfold diagk.
      destruct (Z.eqb_spec (Z.of_nat q - Z.of_nat p) (- Z.of_nat i)); [lia|ring].
  - rewrite coefZ_out by lia. apply sumR_zero. intros i Hi. unfold diagk.
    destruct (Z.eqb_spec (Z.of_nat q - Z.of_nat p) (- Z.of_nat i)); [lia|ring].
Qed.

Lemma corner_last : forall (M : mat) s p q, (p < n)%nat -> (q < n)%nat ->
  add_last n b s (fliplr b bc) M p q = M p q + s * c (2 * Z.of_nat n - 1 - Z.of_nat q - Z.of_nat p).
Proof using Hn.
  clear Hb Hpar.
  intros M s p q Hp Hq. unfold add_last, fliplr.
  destruct (Nat.leb_spec (n - b) p); destruct (Nat.leb_spec (n - b) q); cbn [andb];
    try (rewrite coefZ_out by lia; ring).
  rewrite bc_val by lia. do 3 f_equal. lia.
Qed.

Lemma corner_first : forall (M : mat) s p q,
  add_first b s (fliplr b (transp bc)) M p q = M p q + s * c (Z.of_nat q + Z.of_nat p + 1).
Proof using Type.
  clear Hb Hn Hpar.
  intros M s p q. unfold add_first, fliplr, transp.
  destruct (Nat.ltb_spec p b); destruct (Nat.ltb_spec q b); cbn [andb];
    try (rewrite coefZ_out by lia; ring).
  rewrite bc_val by lia. do 3 f_equal. lia.
Qed.

Lemma c_low : forall q p, c (- 1 - Z.of_nat q - Z.of_nat p) = eps * c (Z.of_nat q + Z.of_nat p + 1).
Proof using Hpar.
  clear Hb Hn.
  intros. rewrite <- (coefZ_opp b ds eps Hpar). f_equal. lia.
Qed.

(** matrix entries: reflected on both ends / on the inner end *)
Definition both_entry (sg : R) (p q : nat) : R :=
  c (Z.of_nat q - Z.of_nat p) + sg * c (- 1 - Z.of_nat q - Z.of_nat p)
  + sg * c (2 * Z.of_nat n - 1 - Z.of_nat q - Z.of_nat p).
Definition inner_entry (sg : R) (p q : nat) : R :=
  c (Z.of_nat q - Z.of_nat p) + sg * c (- 1 - Z.of_nat q - Z.of_nat p).

Lemma sum_ind : forall (v : vec) (z : Z),
  sumR n (fun q => (if (Z.of_nat q =? z)%Z then 1 else 0) * v q)
  = if ((0 <=? z)%Z && (z <? Z.of_nat n)%Z) then v (Z.to_nat z) else 0.
Proof using Type.
  clear Hb Hn Hpar.
  intros v z. destruct (Z.leb_spec 0 z); destruct (Z.ltb_spec z (Z.of_nat n)); cbn [andb].
  - rewrite (sumR_single n (Z.to_nat z)); try lia.
    + rewrite Z2Nat.id, Z.eqb_refl by lia. ring.
    + intros i Hi Hne. destruct (Z.eqb_spec (Z.of_nat i) z); [lia|ring].
  - apply sumR_zero. intros i Hi. destruct (Z.eqb_spec (Z.of_nat i) z); [lia|ring].
  - apply sumR_zero. intros i Hi. destruct (Z.eqb_spec (Z.of_nat i) z); [lia|ring].
  - apply sumR_zero. intros i Hi. destruct (Z.eqb_spec (Z.of_nat i) z); [lia|ring].
Qed.

(** sum over columns of c at an affine image of q *)
Lemma sum_c_shift : forall (v : vec) p (h : nat -> Z) (hinv : Z -> Z),
  (forall q z, (h q = z <-> Z.of_nat q = hinv z)%Z) ->
  sumR n (fun q => c (h q) * v q)
  = sumR (2 * b + 1) (fun j => ds j *
      (let z := hinv (Z.of_nat j - Z.of_nat b)%Z in
       if ((0 <=? z)%Z && (z <? Z.of_nat n)%Z) then v (Z.to_nat z) else 0)) + 0 * INR p.
Proof using Type.
  clear Hb Hn Hpar.
  intros v p h hinv Hh. rewrite Rmult_0_l, Rplus_0_r. unfold coefZ.
  rewrite (sumR_ext n _ (fun q => sumR (2 * b + 1) (fun j =>
     ds j * (if (h q =? Z.of_nat j - Z.of_nat b)%Z then 1 else 0) * v q))).
  2:{ intros. rewrite <- sumR_scal_r. reflexivity. }
  rewrite sumR_swap. apply sumR_ext. intros j Hj. cbv zeta. rewrite <- sum_ind.
  rewrite <- sumR_scal. apply sumR_ext. intros q Hq. rewrite Rmult_assoc. f_equal. f_equal.
  destruct (Z.eqb_spec (h q) (Z.of_nat j - Z.of_nat b)) as [e|e];
  destruct (Z.eqb_spec (Z.of_nat q) (hinv (Z.of_nat j - Z.of_nat b)%Z)) as [e'|e']; auto;
  exfalso; [apply e'; apply Hh; auto|apply e; apply Hh; auto].
Qed.

Lemma both_matvec : forall sg v p, (p < n)%nat ->
  sumR n (fun q => both_entry sg p q * v q) = stencil b ds (reflect n sg v) p.
Proof using Hn.
  clear Hb Hpar.
  intros sg v p Hp. unfold both_entry.
  rewrite (sumR_ext n _ (fun q => c (Z.of_nat q - Z.of_nat p) * v q
     + sg * (c (- 1 - Z.of_nat q - Z.of_nat p) * v q)
     + sg * (c (2 * Z.of_nat n - 1 - Z.of_nat q - Z.of_nat p) * v q))) by (intros; ring).
  rewrite !sumR_plus, !sumR_scal.
  rewrite (sum_c_shift v 0 _ (fun z => z + Z.of_nat p)%Z) by (intros; lia).
  rewrite (sum_c_shift v 0 _ (fun z => - 1 - (z + Z.of_nat p))%Z) by (intros; lia).
  rewrite (sum_c_shift v 0 _ (fun z => 2 * Z.of_nat n - 1 - (z + Z.of_nat p))%Z) by (intros; lia).
  rewrite !Rmult_0_l, !Rplus_0_r.
  rewrite <- !sumR_scal, <- !sumR_plus. unfold stencil. apply sumR_ext. intros j Hj. cbv zeta.
  unfold reflect.
  replace (Z.of_nat j - Z.of_nat b + Z.of_nat p)%Z with (Z.of_nat p + (Z.of_nat j - Z.of_nat b))%Z by ring.
  set (z := (Z.of_nat p + (Z.of_nat j - Z.of_nat b))%Z).
  destruct (Z.leb_spec 0 z); destruct (Z.ltb_spec z (Z.of_nat n));
  destruct (Z.leb_spec 0 (- 1 - z)); destruct (Z.ltb_spec (- 1 - z) (Z.of_nat n));
  destruct (Z.leb_spec 0 (2 * Z.of_nat n - 1 - z)); destruct (Z.ltb_spec (2 * Z.of_nat n - 1 - z) (Z.of_nat n));
  destruct (Z.ltb_spec z 0); cbn [andb]; try lia; ring.
Qed.

Lemma inner_matvec : forall sg v p, (p < n)%nat ->
  sumR n (fun q => inner_entry sg p q * v q) = stencil b ds (reflect_inner n sg v (fun _ => 0)) p.
Proof using Hn.
  clear Hb Hpar.
  intros sg v p Hp. unfold inner_entry.
  rewrite (sumR_ext n _ (fun q => c (Z.of_nat q - Z.of_nat p) * v q
     + sg * (c (- 1 - Z.of_nat q - Z.of_nat p) * v q))) by (intros; ring).
  rewrite !sumR_plus, !sumR_scal.
  rewrite (sum_c_shift v 0 _ (fun z => z + Z.of_nat p)%Z) by (intros; lia).
  rewrite (sum_c_shift v 0 _ (fun z => - 1 - (z + Z.of_nat p))%Z) by (intros; lia).
  rewrite !Rmult_0_l, !Rplus_0_r.
  rewrite <- !sumR_scal, <- !sumR_plus. unfold stencil. apply sumR_ext. intros j Hj. cbv zeta.
  unfold reflect_inner.
  replace (Z.of_nat j - Z.of_nat b + Z.of_nat p)%Z with (Z.of_nat p + (Z.of_nat j - Z.of_nat b))%Z by ring.
  set (z := (Z.of_nat p + (Z.of_nat j - Z.of_nat b))%Z).
  destruct (Z.leb_spec 0 z); destruct (Z.ltb_spec z (Z.of_nat n));
  destruct (Z.leb_spec 0 (- 1 - z)); destruct (Z.ltb_spec (- 1 - z) (Z.of_nat n));
  destruct (Z.ltb_spec z 0); cbn [andb]; try lia; ring.
Qed.

(** ghost values beyond the outer end *)
Lemma outer_split : forall sg v out p, (p < n)%nat ->
  stencil b ds (reflect_inner n sg v out) p
  = stencil b ds (reflect_inner n sg v (fun _ => 0)) p
    + (if (n - b <=? p)%nat then sumR b (fun q => bc (p - (n - b))%nat q * out q) else 0).
Proof using Hn.
  clear Hb Hpar.
  intros sg v out p Hp.
  assert (E : stencil b ds (reflect_inner n sg v out) p
    = stencil b ds (reflect_inner n sg v (fun _ => 0)) p
      + sumR (2 * b + 1) (fun j => ds j * (let z := (Z.of_nat p + (Z.of_nat j - Z.of_nat b))%Z in
          if (Z.of_nat n <=? z)%Z then out (Z.to_nat (z - Z.of_nat n)) else 0))).
  { unfold stencil. rewrite <- sumR_plus. apply sumR_ext. intros j Hj. cbv zeta. unfold reflect_inner.
    set (z := (Z.of_nat p + (Z.of_nat j - Z.of_nat b))%Z).
    destruct (Z.ltb_spec z 0); destruct (Z.ltb_spec z (Z.of_nat n)); destruct (Z.leb_spec (Z.of_nat n) z);
      try lia; ring. }
  rewrite E. f_equal. clear E.
  destruct (Nat.leb_spec (n - b) p).
  - rewrite (sumR_ext b _ (fun q => c (Z.of_nat n + Z.of_nat q - Z.of_nat p) * out q)).
    2:{ intros q Hq. rewrite bc_val by lia. f_equal. f_equal. lia. }
    unfold coefZ.
    rewrite (sumR_ext b _ (fun q => sumR (2 * b + 1) (fun j =>
      ds j * ((if (Z.of_nat n + Z.of_nat q - Z.of_nat p =? Z.of_nat j - Z.of_nat b)%Z then 1 else 0) * out q)))).
    2:{ intros. rewrite <- sumR_scal_r. apply sumR_ext. intros; ring. }
    rewrite sumR_swap. apply sumR_ext. intros j Hj. cbv zeta. rewrite sumR_scal. f_equal.
    destruct (Z.leb_spec (Z.of_nat n) (Z.of_nat p + (Z.of_nat j - Z.of_nat b))).
    + rewrite (sumR_single b (Z.to_nat (Z.of_nat p + (Z.of_nat j - Z.of_nat b) - Z.of_nat n))); try lia.
      * match goal with |- context [Z.eqb ?a ?b'] => destruct (Z.eqb_spec a b') end; [ring|lia].
      * intros i Hi Hne. match goal with |- context [Z.eqb ?a ?b'] => destruct (Z.eqb_spec a b') end; [lia|ring].
    + symmetry. apply sumR_zero. intros i Hi.
      match goal with |- context [Z.eqb ?a ?b'] => destruct (Z.eqb_spec a b') end; [lia|ring].
  - apply sumR_zero. intros j Hj. cbv zeta.
    destruct (Z.leb_spec (Z.of_nat n) (Z.of_nat p + (Z.of_nat j - Z.of_nat b))); [lia|ring].
Qed.

Lemma both_flip : forall sg p q, (p < n)%nat -> (q < n)%nat ->
  both_entry sg (n - 1 - p) (n - 1 - q) = eps * both_entry sg p q.
Proof using Hpar.
  clear Hb Hn.
  intros sg p q Hp Hq. unfold both_entry.
  rewrite !Rmult_plus_distr_l.
  replace (eps * (sg * c (- 1 - Z.of_nat q - Z.of_nat p))) with (sg * (eps * c (- 1 - Z.of_nat q - Z.of_nat p))) by ring.
  replace (eps * (sg * c (2 * Z.of_nat n - 1 - Z.of_nat q - Z.of_nat p)))
    with (sg * (eps * c (2 * Z.of_nat n - 1 - Z.of_nat q - Z.of_nat p))) by ring.
  rewrite <- !(coefZ_opp b ds eps Hpar).
  replace (Z.of_nat (n - 1 - q) - Z.of_nat (n - 1 - p))%Z with (- (Z.of_nat q - Z.of_nat p))%Z by lia.
  replace (- 1 - Z.of_nat (n - 1 - q) - Z.of_nat (n - 1 - p))%Z
    with (- (2 * Z.of_nat n - 1 - Z.of_nat q - Z.of_nat p))%Z by lia.
  replace (2 * Z.of_nat n - 1 - Z.of_nat (n - 1 - q) - Z.of_nat (n - 1 - p))%Z
    with (- (- 1 - Z.of_nat q - Z.of_nat p))%Z by lia.
  ring.
Qed.

End Matrices.

(** A grid with stencil -b..b, satisfying the lstsq contract. *)
Definition fd_ok (g : grid) (b : nat) : Prop :=
  gloc g = sym_stencil b /\ (1 <= b)%nat /\
  solves (length (gloc g)) (transp (fd_table (gloc g))) (fd_rhs 1) (ls_fd1 g) /\
  solves (length (gloc g)) (transp (fd_table (gloc g))) (fd_rhs 2) (ls_fd2 g).

Lemma fd_ok_bcN : forall g b, fd_ok g b -> bcN g = b.
Proof.
  intros g b (E & _). unfold bcN. rewrite E, sym_stencil_length, Nat.max_id.
  symmetry. apply (Nat.div_unique _ 2 b 1); lia.
Qed.
Lemma fd_ok_len : forall g b, fd_ok g b -> length (gloc g) = (2 * b + 1)%nat.
Proof. intros g b (E & _). rewrite E. apply sym_stencil_length. Qed.

Lemma d1_parity : forall g b, fd_ok g b ->
  forall j, (j < 2 * b + 1)%nat -> d1 g (2 * b + 1 - 1 - j)%nat = -1 * d1 g j.
Proof.
  intros g b (E & Hb & H1 & H2) j Hj. unfold d1, fd_coef.
  rewrite E in H1. pose proof (fd_parity _ 1 _ (sym_distinct b) (sym_reflect b) H1 j) as P.
  rewrite sym_stencil_length in P. rewrite P by auto.
  rewrite pow_1. replace (-1 * ls_fd1 g j) with (- ls_fd1 g j) by ring. rewrite fd_flush_opp. ring.
Qed.
Lemma d2_parity : forall g b, fd_ok g b ->
  forall j, (j < 2 * b + 1)%nat -> d2 g (2 * b + 1 - 1 - j)%nat = 1 * d2 g j.
Proof.
  intros g b (E & Hb & H1 & H2) j Hj. unfold d2, fd_coef.
  rewrite E in H2. pose proof (fd_parity _ 2 _ (sym_distinct b) (sym_reflect b) H2 j) as P.
  rewrite sym_stencil_length in P. rewrite P by auto.
  replace ((-1) ^ 2) with 1 by ring. rewrite !Rmult_1_l. reflexivity.
Qed.

Lemma D1_val : forall g b p q, fd_ok g b -> D1 g p q = coefZ b (d1 g) (Z.of_nat q - Z.of_nat p).
Proof.
  intros g b p q H. unfold D1. rewrite (proj1 H), !band_val.
  replace (Z.of_nat p - Z.of_nat q)%Z with (- (Z.of_nat q - Z.of_nat p))%Z by ring.
  rewrite (coefZ_opp b (d1 g) (-1) (d1_parity g b H)). lra.
Qed.

Ltac fd_unfold H :=
  rewrite (fd_ok_bcN _ _ H); unfold bcm1, bcm2; rewrite ?(fd_ok_bcN _ _ H), ?(fd_ok_len _ _ H).

Lemma oDa1_entry : forall g b p q, fd_ok g b -> (b <= Na g)%nat -> (p < Na g)%nat -> (q < Na g)%nat ->
  oDa1 g p q = both_entry b (Na g) (d1 g) (-1) p q / ha g.
Proof.
  intros g b p q H Hn Hp Hq. assert (Hb : (1 <= b)%nat) by apply H.
  unfold oDa1, mdiv. fd_unfold H.
  rewrite corner_first, corner_last by auto. rewrite (D1_val g b) by auto.
  unfold both_entry. rewrite (c_low b (d1 g) (-1) (d1_parity g b H)). f_equal. ring.
Qed.
Lemma eDa1_entry : forall g b p q, fd_ok g b -> (b <= Na g)%nat -> (p < Na g)%nat -> (q < Na g)%nat ->
  eDa1 g p q = both_entry b (Na g) (d1 g) 1 p q / ha g.
Proof.
  intros g b p q H Hn Hp Hq. assert (Hb : (1 <= b)%nat) by apply H.
  unfold eDa1, mdiv. fd_unfold H.
  rewrite corner_first, corner_last by auto. rewrite (D1_val g b) by auto.
  unfold both_entry. rewrite (c_low b (d1 g) (-1) (d1_parity g b H)). f_equal. ring.
Qed.
Lemma oDr1_entry : forall g b p q, fd_ok g b -> 
  oDr1 g p q = inner_entry b (d1 g) (-1) p q / hr g.
Proof.
  intros g b p q H. assert (Hb : (1 <= b)%nat) by apply H.
  unfold oDr1, mdiv. fd_unfold H.
  rewrite corner_first by auto. rewrite (D1_val g b) by auto.
  unfold inner_entry. rewrite (c_low b (d1 g) (-1) (d1_parity g b H)). f_equal. ring.
Qed.
Lemma eDr1_entry : forall g b p q, fd_ok g b -> 
  eDr1 g p q = inner_entry b (d1 g) 1 p q / hr g.
Proof.
  intros g b p q H. assert (Hb : (1 <= b)%nat) by apply H.
  unfold eDr1, mdiv. fd_unfold H.
  rewrite corner_first by auto. rewrite (D1_val g b) by auto.
  unfold inner_entry. rewrite (c_low b (d1 g) (-1) (d1_parity g b H)). f_equal. ring.
Qed.

Lemma both_entry_sym : forall b n ds sg, 
  (forall j, (j < 2 * b + 1)%nat -> ds (2 * b + 1 - 1 - j)%nat = 1 * ds j) ->
  forall p q, both_entry b n ds sg p q = both_entry b n ds sg q p.
Proof.
  intros b n ds sg Hpar p q. unfold both_entry.
  replace (Z.of_nat p - Z.of_nat q)%Z with (- (Z.of_nat q - Z.of_nat p))%Z by ring.
  rewrite (coefZ_opp b ds 1 Hpar). f_equal; [f_equal; [ring|]|]; f_equal; f_equal; ring.
Qed.
Lemma inner_entry_sym : forall b ds sg, 
  (forall j, (j < 2 * b + 1)%nat -> ds (2 * b + 1 - 1 - j)%nat = 1 * ds j) ->
  forall p q, inner_entry b ds sg p q = inner_entry b ds sg q p.
Proof.
  intros b ds sg Hpar p q. unfold inner_entry.
  replace (Z.of_nat p - Z.of_nat q)%Z with (- (Z.of_nat q - Z.of_nat p))%Z by ring.
  rewrite (coefZ_opp b ds 1 Hpar). f_equal; [ring|]. f_equal. f_equal. ring.
Qed.

Lemma oDa2_entry : forall g b p q, fd_ok g b -> (b <= Na g)%nat -> (p < Na g)%nat -> (q < Na g)%nat ->
  oDa2 g p q = both_entry b (Na g) (d2 g) (-1) p q / ha g ^ 2.
Proof.
  intros g b p q H Hn Hp Hq. assert (Hb : (1 <= b)%nat) by apply H.
  unfold oDa2, symm, mdiv, D2. fd_unfold H.
  assert (E : forall p q, (p < Na g)%nat -> (q < Na g)%nat ->
    add_first b (-1) (fliplr b (transp (fd_bc b (2 * b + 1) (d2 g))))
      (add_last (Na g) b (-1) (fliplr b (fd_bc b (2 * b + 1) (d2 g))) (fd_band (gloc g) (d2 g))) p q
    = both_entry b (Na g) (d2 g) (-1) p q).
  { intros p' q' Hp' Hq'. rewrite corner_first, corner_last by auto. rewrite (proj1 H), band_val.
    unfold both_entry. rewrite (c_low b (d2 g) 1 (d2_parity g b H)). ring. }
  rewrite !E by auto. rewrite (both_entry_sym b (Na g) (d2 g) (-1) (d2_parity g b H) q p). lra.
Qed.
Lemma eDa2_entry : forall g b p q, fd_ok g b -> (b <= Na g)%nat -> (p < Na g)%nat -> (q < Na g)%nat ->
  eDa2 g p q = both_entry b (Na g) (d2 g) 1 p q / ha g ^ 2.
Proof.
  intros g b p q H Hn Hp Hq. assert (Hb : (1 <= b)%nat) by apply H.
  unfold eDa2, symm, mdiv, D2. fd_unfold H.
  assert (E : forall p q, (p < Na g)%nat -> (q < Na g)%nat ->
    add_first b 1 (fliplr b (transp (fd_bc b (2 * b + 1) (d2 g))))
      (add_last (Na g) b 1 (fliplr b (fd_bc b (2 * b + 1) (d2 g))) (fd_band (gloc g) (d2 g))) p q
    = both_entry b (Na g) (d2 g) 1 p q).
  { intros p' q' Hp' Hq'. rewrite corner_first, corner_last by auto. rewrite (proj1 H), band_val.
    unfold both_entry. rewrite (c_low b (d2 g) 1 (d2_parity g b H)). ring. }
  rewrite !E by auto. rewrite (both_entry_sym b (Na g) (d2 g) 1 (d2_parity g b H) q p). lra.
Qed.
Lemma oDr2_entry : forall g b p q, fd_ok g b -> 
  oDr2 g p q = inner_entry b (d2 g) (-1) p q / hr g ^ 2.
Proof.
  intros g b p q H. assert (Hb : (1 <= b)%nat) by apply H.
  unfold oDr2, symm, mdiv, D2. fd_unfold H.
  assert (E : forall p q, 
    add_first b (-1) (fliplr b (transp (fd_bc b (2 * b + 1) (d2 g)))) (fd_band (gloc g) (d2 g)) p q
    = inner_entry b (d2 g) (-1) p q).
  { intros p' q'. rewrite corner_first by auto. rewrite (proj1 H), band_val.
    unfold inner_entry. rewrite (c_low b (d2 g) 1 (d2_parity g b H)). ring. }
  rewrite !E by auto. rewrite (inner_entry_sym b (d2 g) (-1) (d2_parity g b H) q p). lra.
Qed.
Lemma eDr2_entry : forall g b p q, fd_ok g b -> 
  eDr2 g p q = inner_entry b (d2 g) 1 p q / hr g ^ 2.
Proof.
  intros g b p q H. assert (Hb : (1 <= b)%nat) by apply H.
  unfold eDr2, symm, mdiv, D2. fd_unfold H.
  assert (E : forall p q, 
    add_first b 1 (fliplr b (transp (fd_bc b (2 * b + 1) (d2 g)))) (fd_band (gloc g) (d2 g)) p q
    = inner_entry b (d2 g) 1 p q).
  { intros p' q'. rewrite corner_first by auto. rewrite (proj1 H), band_val.
    unfold inner_entry. rewrite (c_low b (d2 g) 1 (d2_parity g b H)). ring. }
  rewrite !E by auto. rewrite (inner_entry_sym b (d2 g) 1 (d2_parity g b H) q p). lra.
Qed.

Lemma sum_div : forall n (E v : vec) h, sumR n (fun q => E q / h * v q) = sumR n (fun q => E q * v q) / h.
Proof. intros. unfold Rdiv. rewrite <- sumR_scal_r. apply sumR_ext. intros; ring. Qed.

(** Matrices acting on vectors. *)
Lemma oDa1_apply : forall g b v p, fd_ok g b -> (b <= Na g)%nat -> (p < Na g)%nat ->
  matvec (Na g) (oDa1 g) v p = stencil b (d1 g) (reflect (Na g) (-1) v) p / ha g.
Proof.
  intros. unfold matvec.
  rewrite (sumR_ext _ _ (fun q => both_entry b (Na g) (d1 g) (-1) p q / ha g * v q)) by (intros; rewrite (oDa1_entry g b); auto).
  rewrite sum_div, both_matvec; auto.
Qed.
Lemma eDa1_apply : forall g b v p, fd_ok g b -> (b <= Na g)%nat -> (p < Na g)%nat ->
  matvec (Na g) (eDa1 g) v p = stencil b (d1 g) (reflect (Na g) 1 v) p / ha g.
Proof.
  intros. unfold matvec.
  rewrite (sumR_ext _ _ (fun q => both_entry b (Na g) (d1 g) 1 p q / ha g * v q)) by (intros; rewrite (eDa1_entry g b); auto).
  rewrite sum_div, both_matvec; auto.
Qed.
Lemma oDa2_apply : forall g b v p, fd_ok g b -> (b <= Na g)%nat -> (p < Na g)%nat ->
  matvec (Na g) (oDa2 g) v p = stencil b (d2 g) (reflect (Na g) (-1) v) p / ha g ^ 2.
Proof.
  intros. unfold matvec.
  rewrite (sumR_ext _ _ (fun q => both_entry b (Na g) (d2 g) (-1) p q / ha g ^ 2 * v q)) by (intros; rewrite (oDa2_entry g b); auto).
  rewrite sum_div, both_matvec; auto.
Qed.
Lemma eDa2_apply : forall g b v p, fd_ok g b -> (b <= Na g)%nat -> (p < Na g)%nat ->
  matvec (Na g) (eDa2 g) v p = stencil b (d2 g) (reflect (Na g) 1 v) p / ha g ^ 2.
Proof.
  intros. unfold matvec.
  rewrite (sumR_ext _ _ (fun q => both_entry b (Na g) (d2 g) 1 p q / ha g ^ 2 * v q)) by (intros; rewrite (eDa2_entry g b); auto).
  rewrite sum_div, both_matvec; auto.
Qed.
Lemma oDr1_apply : forall g b v p, fd_ok g b -> (b <= Nr g)%nat -> (p < Nr g)%nat ->
  matvec (Nr g) (oDr1 g) v p = stencil b (d1 g) (reflect_inner (Nr g) (-1) v (fun _ => 0)) p / hr g.
Proof.
  intros. unfold matvec.
  rewrite (sumR_ext _ _ (fun q => inner_entry b (d1 g) (-1) p q / hr g * v q)) by (intros; rewrite (oDr1_entry g b); auto).
  rewrite sum_div, inner_matvec; auto.
Qed.
Lemma eDr1_apply : forall g b v p, fd_ok g b -> (b <= Nr g)%nat -> (p < Nr g)%nat ->
  matvec (Nr g) (eDr1 g) v p = stencil b (d1 g) (reflect_inner (Nr g) 1 v (fun _ => 0)) p / hr g.
Proof.
  intros. unfold matvec.
  rewrite (sumR_ext _ _ (fun q => inner_entry b (d1 g) 1 p q / hr g * v q)) by (intros; rewrite (eDr1_entry g b); auto).
  rewrite sum_div, inner_matvec; auto.
Qed.
Lemma oDr2_apply : forall g b v p, fd_ok g b -> (b <= Nr g)%nat -> (p < Nr g)%nat ->
  matvec (Nr g) (oDr2 g) v p = stencil b (d2 g) (reflect_inner (Nr g) (-1) v (fun _ => 0)) p / hr g ^ 2.
Proof.
  intros. unfold matvec.
  rewrite (sumR_ext _ _ (fun q => inner_entry b (d2 g) (-1) p q / hr g ^ 2 * v q)) by (intros; rewrite (oDr2_entry g b); auto).
  rewrite sum_div, inner_matvec; auto.
Qed.
Lemma eDr2_apply : forall g b v p, fd_ok g b -> (b <= Nr g)%nat -> (p < Nr g)%nat ->
  matvec (Nr g) (eDr2 g) v p = stencil b (d2 g) (reflect_inner (Nr g) 1 v (fun _ => 0)) p / hr g ^ 2.
Proof.
  intros. unfold matvec.
  rewrite (sumR_ext _ _ (fun q => inner_entry b (d2 g) 1 p q / hr g ^ 2 * v q)) by (intros; rewrite (eDr2_entry g b); auto).
  rewrite sum_div, inner_matvec; auto.
Qed.

(** Ghost points. *)
Lemma bc_ghost : forall n (M : mat) (c0 : R) q0 out p' b ds,
  sumR b (fun q => mdiv (fd_bc b (2 * b + 1) ds) c0 p' q * out q)
  = sumR b (fun q => fd_bc b (2 * b + 1) ds p' q * out q) / c0 + 0 * (INR n + M q0 q0).
Proof.
  intros. rewrite Rmult_0_l, Rplus_0_r. unfold mdiv. apply (sum_div b (fun q => fd_bc b (2*b+1) ds p' q)).
Qed.

Lemma ghost_rows1 : forall g b sg v out p, fd_ok g b -> (b <= Nr g)%nat -> (p < Nr g)%nat ->
  stencil b (d1 g) (reflect_inner (Nr g) sg v (fun _ => 0)) p / hr g
  + (if (Nr g - b <=? p)%nat then matvec b (bc1 g) out (p - (Nr g - b))%nat else 0)
  = stencil b (d1 g) (reflect_inner (Nr g) sg v out) p / hr g.
Proof.
  intros g b sg v out p H Hn Hp.
  rewrite (outer_split b (Nr g) (d1 g) Hn sg v out p) by auto.
  unfold matvec, bc1, bcm1. rewrite (fd_ok_bcN g b H), (fd_ok_len g b H).
  destruct (Nr g - b <=? p)%nat.
  - rewrite (bc_ghost 0 (fun _ _ => 0) (hr g) 0). rewrite Rmult_0_l, Rplus_0_r.
    unfold Rdiv. ring.
  - unfold Rdiv. ring.
Qed.
Lemma ghost_rows2 : forall g b sg v out p, fd_ok g b -> (b <= Nr g)%nat -> (p < Nr g)%nat ->
  stencil b (d2 g) (reflect_inner (Nr g) sg v (fun _ => 0)) p / hr g ^ 2
  + (if (Nr g - b <=? p)%nat then matvec b (bc2 g) out (p - (Nr g - b))%nat else 0)
  = stencil b (d2 g) (reflect_inner (Nr g) sg v out) p / hr g ^ 2.
Proof.
  intros g b sg v out p H Hn Hp.
  rewrite (outer_split b (Nr g) (d2 g) Hn sg v out p) by auto.
  unfold matvec, bc2, bcm2. rewrite (fd_ok_bcN g b H), (fd_ok_len g b H).
  destruct (Nr g - b <=? p)%nat.
  - rewrite (bc_ghost 0 (fun _ _ => 0) (hr g ^ 2) 0). rewrite Rmult_0_l, Rplus_0_r.
    unfold Rdiv. ring.
  - unfold Rdiv. ring.
Qed.
