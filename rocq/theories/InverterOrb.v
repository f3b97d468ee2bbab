(** orbitalinvert: the Newton system, normalisation and symmetrisation. *)
From Coq Require Import Reals List Arith Lia Lra ZArith Bool String.
From Verif Require Import Base BaseLemmas GridModel GridSpec GridProofs FDProofs OpProofs SolverModel SolverSpec SolverThms KSModel InverterModel InverterSpec.
Import ListNotations.
Local Open Scope R_scope.
Local Opaque sinh cosh.

Lemma orb_x : forall N x i k, x_phi N x i k = orb N x i k.
Proof. intros. unfold x_phi, orb. f_equal. lia. Qed.
Lemma eigv_x : forall N M x i, x_ev N M x i = eigv N M x i.
Proof.
  intros. unfold x_ev, eigv. destruct (Nat.ltb_spec i (M - 1)), (Nat.ltb_spec (S i) M); auto; lia.
Qed.
Lemma pot_x : forall N M x k, x_v N M x k = pot N M x k.
Proof. reflexivity. Qed.
Lemma weight_W : forall g k, oWWi g k = weight g k.
Proof. intros. unfold oWWi, oWi, weight, iprefac. ring. Qed.
Lemma integrate_weight : forall g f, integrate1 g f = sumR (Nelem g) (fun k => weight g k * f k).
Proof. intros. unfold integrate1. rewrite <- sumR_scal. apply sumR_ext. intros. unfold weight, iprefac. ring. Qed.

Lemma row_mod : forall N i k, (k < N)%nat -> ((i * N + k) mod N = k)%nat.
Proof. intros. rewrite Nat.add_comm, Nat.mul_comm. apply flat_mod; auto. Qed.
Lemma row_div : forall N i k, (k < N)%nat -> ((i * N + k) / N = i)%nat.
Proof. intros. rewrite Nat.add_comm, Nat.mul_comm. apply flat_div; auto. Qed.
Lemma row_lt : forall N M i k, (k < N)%nat -> (i < M)%nat -> (i * N + k < M * N)%nat.
Proof. intros. nia. Qed.
Lemma row_surj : forall N M r, (r < M * N)%nat -> exists i k, (i < M)%nat /\ (k < N)%nat /\ r = ks_row N i k.
Proof.
  intros N M r H. assert (N <> 0)%nat by nia. exists (r / N)%nat, (r mod N)%nat. split; [|split].
  - apply Nat.div_lt_upper_bound; nia.
  - apply Nat.mod_upper_bound; auto.
  - unfold ks_row. rewrite (Nat.div_mod r N) at 1 by auto. lia.
Qed.

Lemma pack_phi : forall N M phi ev v i k, (k < N)%nat -> (i < M)%nat -> orb N (x_pack N M phi ev v) i k = phi i k.
Proof.
  intros. unfold orb, x_pack. rewrite row_mod, row_div by auto. pose proof (row_lt N M i k H H0).
  destruct (Nat.ltb_spec (i * N + k) (M * N)); auto; lia.
Qed.
Lemma pack_ev : forall N M phi ev v i, (i < M - 1)%nat -> eigv N M (x_pack N M phi ev v) i = ev i.
Proof.
  intros. unfold eigv, x_pack. destruct (Nat.ltb_spec (S i) M); [|lia].
  destruct (Nat.ltb_spec (M * N + i) (M * N)); [lia|]. destruct (Nat.ltb_spec (M * N + i) (M * N + (M - 1))); [|lia].
  f_equal. lia.
Qed.
Lemma pack_v : forall N M phi ev v k, pot N M (x_pack N M phi ev v) k = v k.
Proof.
  intros. unfold pot, x_pack. destruct (Nat.ltb_spec (M * N + (M - 1) + k) (M * N)); [lia|].
  destruct (Nat.ltb_spec (M * N + (M - 1) + k) (M * N + (M - 1))); [lia|]. f_equal. lia.
Qed.

(** * The equations *)
Lemma sum_blocks : forall N M f, sumR (M * N) f = sumR M (fun i => sumR N (fun k => f (i * N + k)%nat)).
Proof.
  intros. rewrite Nat.mul_comm, sumR_flat. apply sumR_ext. intros i _. apply sumR_ext. intros k _. f_equal. lia.
Qed.
Lemma sumR_if_eq : forall n i (F : nat -> R), (i < n)%nat -> sumR n (fun j => if (i =? j)%nat then F j else 0) = F i.
Proof.
  intros n i F H. rewrite (sumR_single n i).
  - rewrite Nat.eqb_refl. auto.
  - auto.
  - intros j _ Hj. destruct (Nat.eqb_spec i j); auto; lia.
Qed.
Lemma Hjac_apply : forall g M H0 x y i k, (i < M)%nat -> (k < Nelem g)%nat ->
  sumR (M * Nelem g) (fun c => o_Hjac g M H0 x (ks_row (Nelem g) i k) c * y c)
  = oWi g k * sumR (Nelem g) (fun l => H0 k l * orb (Nelem g) y i l)
    + oWWi g k * (pot (Nelem g) M x k - eigv (Nelem g) M x i) * orb (Nelem g) y i k.
Proof.
  intros g M H0 x y i k Hi Hk. set (N := Nelem g) in *. rewrite sum_blocks.
  rewrite (sumR_ext M _ (fun j => if (i =? j)%nat then
     oWi g k * sumR N (fun l => H0 k l * orb N y i l) + oWWi g k * (pot N M x k - eigv N M x i) * orb N y i k else 0)).
  - apply (sumR_if_eq M i (fun _ => _)). auto.
  - intros j Hj. unfold o_Hjac, ks_row. fold N.
    rewrite row_mod, row_div by auto.
    destruct (Nat.eqb_spec i j) as [<-|Hne].
    + rewrite (sumR_ext N _ (fun l => oWi g k * (H0 k l * orb N y i l)
        + (if (k =? l)%nat then oWWi g k * (pot N M x k - eigv N M x i) * orb N y i l else 0))).
      * rewrite sumR_plus, sumR_scal, (sumR_if_eq N k (fun l => oWWi g k * (pot N M x k - eigv N M x i) * orb N y i l)) by auto. reflexivity.
      * intros l Hl. rewrite row_mod, row_div by auto. rewrite Nat.eqb_refl, pot_x, eigv_x. unfold orb.
        destruct (Nat.eqb_spec (i * N + k) (i * N + l)), (Nat.eqb_spec k l); try lia; ring.
    + apply sumR_zero. intros l Hl. rewrite row_div by auto. destruct (Nat.eqb_spec i j); [lia|].
      destruct (Nat.eqb_spec (i * N + k) (j * N + l)) as [E|]; [|ring].
      exfalso. apply Hne. rewrite <- (row_div N i k Hk), <- (row_div N j l Hl). rewrite E. auto.
Qed.

Lemma eqn_ks : forall g M H0 n0 occ x i k, (i < M)%nat -> (k < Nelem g)%nat ->
  o_eqn g M H0 n0 occ x (ks_row (Nelem g) i k)
  = oWi g k * sumR (Nelem g) (fun l => H0 k l * orb (Nelem g) x i l)
    + oWWi g k * (pot (Nelem g) M x k - eigv (Nelem g) M x i) * orb (Nelem g) x i k.
Proof.
  intros g M H0 n0 occ x i k Hi Hk. rewrite <- Hjac_apply by auto. unfold o_eqn.
  pose proof (row_lt (Nelem g) M i k Hk Hi). unfold ks_row at 1. destruct (Nat.ltb_spec (i * Nelem g + k) (M * Nelem g)); [|lia]. reflexivity.
Qed.
Lemma eqn_ks_schroed : forall g M H0 n0 occ x i k, (i < M)%nat -> (k < Nelem g)%nat ->
  o_eqn g M H0 n0 occ x (ks_row (Nelem g) i k)
  = 2 * PI * hr g * ha g * gwi g k * schroed g H0 (pot (Nelem g) M x) (eigv (Nelem g) M x i) (orb (Nelem g) x i) k.
Proof. intros. rewrite eqn_ks by auto. unfold schroed, oWWi, oWi, iprefac. ring. Qed.
Lemma S_integral : forall g x i, o_S g x i = integrate1 g (fun k => orb (Nelem g) x i k ^ 2).
Proof. intros. rewrite integrate_weight. unfold o_S. apply sumR_ext. intros. rewrite weight_W, orb_x. auto. Qed.
Lemma eqn_norm : forall g M H0 n0 occ x i, (i < M - 1)%nat ->
  o_eqn g M H0 n0 occ x (norm_row (Nelem g) M i) = (occ i - integrate1 g (fun k => orb (Nelem g) x 0 k ^ 2)) / 2.
Proof.
  intros. unfold o_eqn, norm_row. set (N := Nelem g).
  destruct (Nat.ltb_spec (M * N + i) (M * N)); [lia|]. destruct (Nat.ltb_spec (M * N + i) (M * N + (M - 1))); [|lia].
  rewrite S_integral. replace (M * N + i - M * N)%nat with i by lia. fold N. lra.
Qed.
Lemma eqn_dens : forall g M H0 n0 occ x k,
  o_eqn g M H0 n0 occ x (dens_row (Nelem g) M k) = weight g k * (sumR M (fun i => orb (Nelem g) x i k ^ 2) - n0 k) / 2.
Proof.
  intros. unfold o_eqn, dens_row. set (N := Nelem g).
  destruct (Nat.ltb_spec (M * N + (M - 1) + k) (M * N)); [lia|].
  destruct (Nat.ltb_spec (M * N + (M - 1) + k) (M * N + (M - 1))); [lia|].
  replace (M * N + (M - 1) + k - (M * N + (M - 1)))%nat with k by lia. rewrite weight_W.
  rewrite (sumR_ext M (fun i => x_phi N x i k ^ 2) (fun i => orb N x i k ^ 2)) by (intros; rewrite orb_x; auto).
  unfold Rdiv. ring.
Qed.

(** * The Jacobian *)
Definition jrow (g : grid) (M : nat) (H0 : mat) (x d : vec) (r : nat) : R :=
  sumR (x_len (Nelem g) M) (fun c => o_jac g M H0 x r c * d c).
Lemma jrow_split : forall g M H0 x d r, jrow g M H0 x d r =
  sumR (M * Nelem g) (fun c => o_jac g M H0 x r c * d c)
  + sumR (M - 1) (fun i => o_jac g M H0 x r (M * Nelem g + i)%nat * d (M * Nelem g + i)%nat)
  + sumR (Nelem g) (fun k => o_jac g M H0 x r (M * Nelem g + (M - 1) + k)%nat * d (M * Nelem g + (M - 1) + k)%nat).
Proof. intros. unfold jrow, x_len. rewrite !sumR_app. reflexivity. Qed.

Ltac lt_cases :=
  repeat match goal with |- context [Nat.ltb ?a ?b] => destruct (Nat.ltb_spec a b); try lia end.

Lemma jrow_ks : forall g M H0 x d i k, (i < M)%nat -> (k < Nelem g)%nat ->
  jrow g M H0 x d (ks_row (Nelem g) i k)
  = oWi g k * sumR (Nelem g) (fun l => H0 k l * orb (Nelem g) d i l)
    + oWWi g k * (pot (Nelem g) M x k - eigv (Nelem g) M x i) * orb (Nelem g) d i k
    - oWWi g k * eigv (Nelem g) M d i * orb (Nelem g) x i k
    + oWWi g k * pot (Nelem g) M d k * orb (Nelem g) x i k.
Proof.
  intros g M H0 x d i k Hi Hk. set (N := Nelem g) in *. pose proof (row_lt N M i k Hk Hi) as Hr.
  rewrite jrow_split. fold N.
  rewrite (sumR_ext (M * N) _ (fun c => o_Hjac g M H0 x (ks_row N i k) c * d c)).
  2:{ intros c Hc. unfold o_jac. fold N. unfold ks_row. lt_cases. reflexivity. }
  unfold N at 1. rewrite Hjac_apply by auto. fold N.
  rewrite (sumR_ext (M - 1) _ (fun j => if (i =? j)%nat then - (oWWi g k * orb N x i k) * d (M * N + j)%nat else 0)).
  2:{ intros j Hj. unfold o_jac. fold N. unfold ks_row. lt_cases.
      unfold o_B3. fold N. rewrite row_mod, row_div by auto. replace (M * N + j - M * N)%nat with j by lia. unfold orb.
      assert (Hb : (i * N + k <? (M - 1) * N)%nat = (i <? M - 1)%nat).
      { destruct (Nat.ltb_spec (i * N + k) ((M - 1) * N)), (Nat.ltb_spec i (M - 1)); auto.
        - exfalso. apply (Nat.lt_irrefl (i * N + k)). nia.
        - exfalso. apply (Nat.lt_irrefl ((M - 1) * N)). nia. }
      rewrite Hb. destruct (Nat.eqb_spec j i), (Nat.eqb_spec i j); try lia; subst; destruct (Nat.ltb_spec i (M - 1)); try lia; simpl; ring. }
  rewrite (sumR_ext N (fun k0 => o_jac g M H0 x (ks_row N i k) (M * N + (M - 1) + k0)%nat * d (M * N + (M - 1) + k0)%nat)
             (fun l => if (k =? l)%nat then oWWi g k * orb N x i k * pot N M d l else 0)).
  2:{ intros l Hl. unfold o_jac. fold N. unfold ks_row. lt_cases. unfold o_B2. fold N. rewrite row_mod by auto.
      replace (M * N + (M - 1) + l - (M * N + (M - 1)))%nat with l by lia. unfold orb, pot.
      destruct (Nat.eqb_spec l k), (Nat.eqb_spec k l); try lia; subst; ring. }
  rewrite (sumR_if_eq N k (fun l => oWWi g k * orb N x i k * pot N M d l)) by auto.
  assert (Hs : sumR (M - 1) (fun j => if (i =? j)%nat then - (oWWi g k * orb N x i k) * d (M * N + j)%nat else 0)
          = - (oWWi g k * orb N x i k) * eigv N M d i).
  { unfold eigv. destruct (Nat.ltb_spec (S i) M).
    - apply (sumR_if_eq (M - 1) i (fun j => - (oWWi g k * orb N x i k) * d (M * N + j)%nat)). lia.
    - rewrite sumR_zero; [ring|]. intros j Hj. destruct (Nat.eqb_spec i j); auto; lia. }
  rewrite Hs. ring.
Qed.

Lemma jrow_norm : forall g M H0 x d i, (i < M - 1)%nat ->
  jrow g M H0 x d (norm_row (Nelem g) M i) = - sumR (Nelem g) (fun k => weight g k * orb (Nelem g) x i k * orb (Nelem g) d i k).
Proof.
  intros g M H0 x d i Hi. set (N := Nelem g) in *. rewrite jrow_split. fold N. unfold norm_row.
  rewrite (sumR_zero (M - 1)), (sumR_zero N).
  - rewrite sum_blocks. rewrite (sumR_single M i); [|lia|].
    + rewrite Rplus_0_r, Rplus_0_r, <- sumR_opp. apply sumR_ext. intros k Hk. unfold o_jac. fold N.
      pose proof (row_lt N M i k Hk ltac:(lia)). pose proof (row_lt N (M - 1) i k Hk ltac:(lia)). lt_cases.
      unfold o_B3. fold N. rewrite row_mod, row_div by auto. replace (M * N + i - M * N)%nat with i by lia.
      lt_cases. rewrite Nat.eqb_refl, weight_W. simpl. unfold orb. ring.
    + intros j Hj Hne. apply sumR_zero. intros k Hk. unfold o_jac. fold N. pose proof (row_lt N M j k Hk Hj). lt_cases.
      unfold o_B3. fold N. rewrite row_div by auto. replace (M * N + i - M * N)%nat with i by lia.
      destruct (Nat.eqb_spec i j); [lia|]. rewrite andb_false_r. ring.
  - intros k Hk. unfold o_jac. fold N. lt_cases. ring.
  - intros j Hj. unfold o_jac. fold N. lt_cases. ring.
Qed.
Lemma jrow_dens : forall g M H0 x d k, (k < Nelem g)%nat ->
  jrow g M H0 x d (dens_row (Nelem g) M k) = sumR M (fun i => weight g k * orb (Nelem g) x i k * orb (Nelem g) d i k).
Proof.
  intros g M H0 x d k Hk. set (N := Nelem g) in *. rewrite jrow_split. fold N. unfold dens_row.
  rewrite (sumR_zero (M - 1)), (sumR_zero N).
  - rewrite sum_blocks. rewrite Rplus_0_r, Rplus_0_r. apply sumR_ext. intros i Hi. rewrite (sumR_single N k); [|auto|].
    + unfold o_jac. fold N. pose proof (row_lt N M i k Hk Hi). lt_cases. unfold o_B2. fold N. rewrite row_mod by auto.
      replace (M * N + (M - 1) + k - (M * N + (M - 1)))%nat with k by lia. rewrite Nat.eqb_refl, weight_W. unfold orb. ring.
    + intros l Hl Hne. unfold o_jac. fold N. pose proof (row_lt N M i l Hl Hi). lt_cases. unfold o_B2. fold N. rewrite row_mod by auto.
      replace (M * N + (M - 1) + k - (M * N + (M - 1)))%nat with k by lia. destruct (Nat.eqb_spec k l); [lia|]. ring.
  - intros l Hl. unfold o_jac. fold N. lt_cases. ring.
  - intros j Hj. unfold o_jac. fold N. lt_cases. ring.
Qed.

Definition along (x d : vec) (t : R) : vec := fun r => x r + t * d r.
Lemma eigv_along : forall N M x d t i, eigv N M (along x d t) i = eigv N M x i + t * eigv N M d i.
Proof. intros. unfold eigv, along. destruct (S i <? M)%nat; ring. Qed.

Lemma along_ks : forall g M H0 n0 occ x d i k, (i < M)%nat -> (k < Nelem g)%nat ->
  forall t, o_eqn g M H0 n0 occ (along x d t) (ks_row (Nelem g) i k) =
    o_eqn g M H0 n0 occ x (ks_row (Nelem g) i k) + t * jrow g M H0 x d (ks_row (Nelem g) i k)
    + t ^ 2 * (weight g k * (pot (Nelem g) M d k - eigv (Nelem g) M d i) * orb (Nelem g) d i k).
Proof.
  intros g M H0 n0 occ x d i k Hi Hk t. rewrite !eqn_ks, jrow_ks by auto. rewrite eigv_along, <- weight_W.
  assert (E : sumR (Nelem g) (fun l => H0 k l * orb (Nelem g) (along x d t) i l)
     = sumR (Nelem g) (fun l => H0 k l * orb (Nelem g) x i l) + t * sumR (Nelem g) (fun l => H0 k l * orb (Nelem g) d i l)).
  { rewrite <- sumR_scal, <- sumR_plus. apply sumR_ext. intros. unfold orb, along. ring. }
  rewrite E. unfold orb, pot, along. ring.
Qed.
Lemma along_norm : forall g M H0 n0 occ x d i, (i < M - 1)%nat ->
  forall t, o_eqn g M H0 n0 occ (along x d t) (norm_row (Nelem g) M i) =
    o_eqn g M H0 n0 occ x (norm_row (Nelem g) M i)
    - t * integrate1 g (fun k => orb (Nelem g) x 0 k * orb (Nelem g) d 0 k)
    - t ^ 2 * (integrate1 g (fun k => orb (Nelem g) d 0 k ^ 2) / 2).
Proof.
  intros. rewrite !eqn_norm by auto.
  assert (E : integrate1 g (fun k => orb (Nelem g) (along x d t) 0 k ^ 2)
     = integrate1 g (fun k => orb (Nelem g) x 0 k ^ 2) + 2 * t * integrate1 g (fun k => orb (Nelem g) x 0 k * orb (Nelem g) d 0 k)
       + t ^ 2 * integrate1 g (fun k => orb (Nelem g) d 0 k ^ 2)).
  { rewrite <- !integrate1_scal, <- !integrate1_plus. apply integrate1_ext. intros. unfold orb, along. ring. }
  rewrite E. field.
Qed.
Lemma along_dens : forall g M H0 n0 occ x d k, (k < Nelem g)%nat ->
  forall t, o_eqn g M H0 n0 occ (along x d t) (dens_row (Nelem g) M k) =
    o_eqn g M H0 n0 occ x (dens_row (Nelem g) M k) + t * jrow g M H0 x d (dens_row (Nelem g) M k)
    + t ^ 2 * (weight g k * sumR M (fun i => orb (Nelem g) d i k ^ 2) / 2).
Proof.
  intros. rewrite !eqn_dens, jrow_dens by auto.
  assert (E : sumR M (fun i => orb (Nelem g) (along x d t) i k ^ 2)
     = sumR M (fun i => orb (Nelem g) x i k ^ 2) + 2 * t * sumR M (fun i => orb (Nelem g) x i k * orb (Nelem g) d i k)
       + t ^ 2 * sumR M (fun i => orb (Nelem g) d i k ^ 2)).
  { rewrite <- !sumR_scal, <- !sumR_plus. apply sumR_ext. intros. unfold orb, along. ring. }
  assert (F : sumR M (fun i => weight g k * orb (Nelem g) x i k * orb (Nelem g) d i k)
     = weight g k * sumR M (fun i => orb (Nelem g) x i k * orb (Nelem g) d i k)).
  { rewrite <- sumR_scal. apply sumR_ext. intros. ring. }
  rewrite E, F. field.
Qed.

Lemma row_cases : forall N M r, (r < x_len N M)%nat ->
  (exists i k, (i < M)%nat /\ (k < N)%nat /\ r = ks_row N i k) \/
  (exists i, (i < M - 1)%nat /\ r = norm_row N M i) \/
  (exists k, (k < N)%nat /\ r = dens_row N M k).
Proof.
  intros N M r H. unfold x_len in H. destruct (Nat.lt_ge_cases r (M * N)) as [A|A].
  - left. apply row_surj; auto.
  - right. destruct (Nat.lt_ge_cases r (M * N + (M - 1))) as [B|B].
    + left. exists (r - M * N)%nat. split; [lia|]. unfold norm_row. lia.
    + right. exists (r - (M * N + (M - 1)))%nat. split; [lia|]. unfold dens_row. lia.
Qed.
Lemma along_0 : forall x d, forall r, along x d 0 r = x r.
Proof. intros. unfold along. ring. Qed.

Lemma jacobian_exact : forall g M H0 n0 occ x d r, (r < x_len (Nelem g) M)%nat ->
  (forall i, (0 < i < M - 1)%nat -> r <> norm_row (Nelem g) M i) ->
  quadratic_step (fun t => o_eqn g M H0 n0 occ (along x d t) r) (jrow g M H0 x d r).
Proof.
  intros g M H0 n0 occ x d r Hr Hn. destruct (row_cases _ _ _ Hr) as [(i & k & Hi & Hk & ->)|[(i & Hi & ->)|(k & Hk & ->)]].
  - exists (weight g k * (pot (Nelem g) M d k - eigv (Nelem g) M d i) * orb (Nelem g) d i k). intros t.
    rewrite !along_ks by auto. ring.
  - assert (i = 0)%nat by (destruct i; auto; exfalso; apply (Hn (S i)); [lia|auto]). subst i.
    exists (- (integrate1 g (fun k => orb (Nelem g) d 0 k ^ 2) / 2)). intros t.
    rewrite !along_norm, jrow_norm by auto. rewrite !integrate_weight.
    rewrite (sumR_ext _ (fun k => weight g k * (orb (Nelem g) x 0 k * orb (Nelem g) d 0 k)) (fun k => weight g k * orb (Nelem g) x 0 k * orb (Nelem g) d 0 k)) by (intros; ring).
    ring.
  - exists (weight g k * sumR M (fun i => orb (Nelem g) d i k ^ 2) / 2). intros t.
    rewrite !along_dens by auto. ring.
Qed.

(** With three orbitals or more, the later normalisation rows have a wrong derivative. *)
Lemma jacobian_wrong : forall g M H0 n0 occ x i k, (0 < i < M - 1)%nat -> (k < Nelem g)%nat -> 0 < weight g k -> orb (Nelem g) x i k <> 0 ->
  exists d, jrow g M H0 x d (norm_row (Nelem g) M i) <> 0 /\
    forall t, o_eqn g M H0 n0 occ (along x d t) (norm_row (Nelem g) M i) = o_eqn g M H0 n0 occ x (norm_row (Nelem g) M i).
Proof.
  intros g M H0 n0 occ x i k Hi Hk Hw Hx.
  exists (fun r => if (r =? i * Nelem g + k)%nat then 1 else 0).
  assert (D : forall j l, (l < Nelem g)%nat -> orb (Nelem g) (fun r => if (r =? i * Nelem g + k)%nat then 1 else 0) j l = if ((j =? i) && (l =? k))%nat%bool then 1 else 0).
  { intros j l Hl. unfold orb. destruct (Nat.eqb_spec (j * Nelem g + l) (i * Nelem g + k)) as [E|E].
    - assert (j = i) by (rewrite <- (row_div _ j l Hl), <- (row_div _ i k Hk), E; auto).
      assert (l = k) by (rewrite <- (row_mod _ j l Hl), <- (row_mod _ i k Hk), E; auto).
      subst. rewrite !Nat.eqb_refl. auto.
    - destruct (Nat.eqb_spec j i), (Nat.eqb_spec l k); simpl; auto. subst. lia. }
  split.
  - rewrite jrow_norm by lia. rewrite (sumR_single _ k); auto.
    + rewrite D, !Nat.eqb_refl by auto. simpl. intros E. apply Hx. nra.
    + intros l Hl Hne. rewrite D by auto. destruct (Nat.eqb_spec l k); [lia|]. rewrite andb_false_r. ring.
  - intros t. rewrite along_norm by lia. set (d := fun r => if (r =? i * Nelem g + k)%nat then 1 else 0) in *.
    assert (Z : forall l, (l < Nelem g)%nat -> orb (Nelem g) d 0 l = 0).
    { intros l Hl. rewrite D by auto. destruct (Nat.eqb_spec 0 i); [lia|]. reflexivity. }
    rewrite (integrate1_ext g (fun l => orb (Nelem g) x 0 l * orb (Nelem g) d 0 l) (fun _ => 0)) by (intros; rewrite Z by auto; ring).
    rewrite (integrate1_ext g (fun l => orb (Nelem g) d 0 l ^ 2) (fun _ => 0)) by (intros; rewrite Z by auto; ring).
    rewrite integrate1_zero. lra.
Qed.

Lemma jac_symmetric : forall g M H0 x, (forall k l, (k < Nelem g)%nat -> (l < Nelem g)%nat -> gwi g k * H0 k l = gwi g l * H0 l k) ->
  forall r c, (r < x_len (Nelem g) M)%nat -> (c < x_len (Nelem g) M)%nat -> o_jac g M H0 x r c = o_jac g M H0 x c r.
Proof.
  intros g M H0 x Hs r c Hr Hc. set (N := Nelem g) in *. unfold o_jac. fold N.
  destruct (Nat.ltb_spec r (M * N)) as [A|A], (Nat.ltb_spec c (M * N)) as [B|B]; auto.
  unfold o_Hjac. fold N. assert (N <> 0)%nat by nia.
  rewrite (Nat.eqb_sym (c / N)), (Nat.eqb_sym c r).
  f_equal.
  - destruct (r / N =? c / N)%nat; auto. unfold oWi. rewrite !Rmult_assoc. f_equal. apply Hs; apply Nat.mod_upper_bound; auto.
  - destruct (Nat.eqb_spec r c); subst; auto.
Qed.

(** A zero of the Newton system solves the inverse problem. *)
Lemma zero_solves : forall g M H0 n0 occ x, full_quadrature g -> (1 <= M)%nat ->
  (forall r, (r < x_len (Nelem g) M)%nat -> o_eqn g M H0 n0 occ x r = 0) ->
  (forall i, (i < M)%nat -> eigenpair g H0 (pot (Nelem g) M x) (eigv (Nelem g) M x i) (orb (Nelem g) x i)) /\
  (forall k, (k < Nelem g)%nat -> sumR M (fun i => orb (Nelem g) x i k ^ 2) = n0 k) /\
  ((2 <= M)%nat -> integrate1 g (fun k => orb (Nelem g) x 0 k ^ 2) = occ 0%nat).
Proof.
  intros g M H0 n0 occ x Hq HM Hz. split; [|split].
  - intros i Hi k Hk. assert (Hr : (ks_row (Nelem g) i k < x_len (Nelem g) M)%nat).
    { pose proof (row_lt (Nelem g) M i k Hk Hi). unfold ks_row, x_len. lia. }
    pose proof (Hz _ Hr) as E. rewrite eqn_ks_schroed in E by auto. specialize (Hq k Hk). unfold weight in Hq.
    apply Rmult_integral in E. destruct E as [E|E].
    + exfalso. rewrite E in Hq. lra.
    + unfold schroed in E. lra.
  - intros k Hk. assert (Hr : (dens_row (Nelem g) M k < x_len (Nelem g) M)%nat) by (unfold dens_row, x_len; lia).
    pose proof (Hz _ Hr) as E. rewrite eqn_dens in E. specialize (Hq k Hk).
    assert (E' : weight g k * (sumR M (fun i => orb (Nelem g) x i k ^ 2) - n0 k) = 0) by lra.
    apply Rmult_integral in E'. destruct E'; lra.
  - intros H2. assert (Hr : (norm_row (Nelem g) M 0 < x_len (Nelem g) M)%nat) by (unfold norm_row, x_len; lia).
    pose proof (Hz _ Hr) as E. rewrite eqn_norm in E by lia. lra.
Qed.
