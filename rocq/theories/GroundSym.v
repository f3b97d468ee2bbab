(** The three-point Hamiltonian is symmetric for a weight that depends on the grid only. *)
From Coq Require Import Reals List Arith Lia Lra ZArith Bool Relations.
From Verif Require Import Base BaseLemmas GridModel Poly GridSpec GridProofs FDProofs OpProofs AxisProofs GridWitness GridMore SolverModel SolverSpec SolverResp
  MaxPrinciple NCSigns ZMatrix ZSym Ground GroundThms.
Import ListNotations.
Local Open Scope R_scope.
Local Opaque sinh cosh.

(** Coefficients of the three-point stencils along the two coordinates, right and left neighbour. *)
Definition aE (g : grid) (i : nat) : R := sin (node (Na g) PI i) / (PI / INR (Na g)) ^ 2 + cos (node (Na g) PI i) / (2 * (PI / INR (Na g))).
Definition aW (g : grid) (i : nat) : R := sin (node (Na g) PI i) / (PI / INR (Na g)) ^ 2 - cos (node (Na g) PI i) / (2 * (PI / INR (Na g))).
Definition rN (g : grid) (i : nat) : R := sinh (node (Nr g) (gL g) i) / (gL g / INR (Nr g)) ^ 2 + cosh (node (Nr g) (gL g) i) / (2 * (gL g / INR (Nr g))).
Definition rS (g : grid) (i : nat) : R := sinh (node (Nr g) (gL g) i) / (gL g / INR (Nr g)) ^ 2 - cosh (node (Nr g) (gL g) i) / (2 * (gL g / INR (Nr g))).
(** Product of the ratios of the coefficients between neighbours. *)
Fixpoint ratios (right left : nat -> R) (i : nat) : R := match i with O => 1 | S i => ratios right left i * (right i / left (S i)) end.
Definition balance (g : grid) : vec := fun k => ratios (aE g) (aW g) (k mod Na g) * ratios (rN g) (rS g) (k / Na g).
Lemma ratios_pos : forall r l n, (forall i, (S i < n)%nat -> 0 < r i) -> (forall i, (S i < n)%nat -> 0 < l (S i)) -> forall i, (i < n)%nat -> 0 < ratios r l i.
Proof. intros r l n A B. induction i; intros I0; cbn; [lra|]. apply Rmult_lt_0_compat; [apply IHi; lia|]. apply Rdiv_lt_0_compat; auto. Qed.

Section S.
Variable g : grid.
Hypothesis T : three_point g.
Let Hg : grid_ok g. Proof. apply T. Qed.
Let Hf : fd_ok g 1. Proof. apply T. Qed.
Let Hh : gL g / INR (Nr g) <= 1. Proof. apply T. Qed.
Let aP : 0 < ga g. Proof. apply Hg. Qed.

Lemma factor_pos : forall x y, 0 < x -> 0 < x * y -> 0 < y.
Proof. intros x y X P. destruct (Rle_lt_dec y 0); auto. nra. Qed.
Lemma aE_pos : forall i, (S i < Na g)%nat -> 0 < aE g i.
Proof.
  intros i I0. pose proof (cE_pos g Hg i 0 ltac:(split; [lia|apply Nr_pos]) ltac:(lia)) as C. unfold cE in C.
  apply (factor_pos (ga g * sinh (node (Nr g) (gL g) 0))); [|exact C]. apply Rmult_lt_0_compat; [exact aP|apply shP; auto; apply Nr_pos].
Qed.
Lemma aW_pos : forall i, (S i < Na g)%nat -> 0 < aW g (S i).
Proof.
  intros i I0. pose proof (cW_pos g Hg (S i) 0 ltac:(split; [lia|apply Nr_pos]) ltac:(lia)) as C. unfold cW in C.
  apply (factor_pos (ga g * sinh (node (Nr g) (gL g) 0))); [|exact C]. apply Rmult_lt_0_compat; [exact aP|apply shP; auto; apply Nr_pos].
Qed.
Lemma rN_pos : forall i, (S i < Nr g)%nat -> 0 < rN g i.
Proof.
  intros i I0. pose proof (cN_pos g Hg 0 i ltac:(split; [apply Na_pos|lia])) as C. unfold cN in C.
  apply (factor_pos (ga g * sin (node (Na g) PI 0))); [|exact C]. apply Rmult_lt_0_compat; [exact aP|apply snP, Na_pos].
Qed.
Lemma rS_pos : forall i, (S i < Nr g)%nat -> 0 < rS g (S i).
Proof.
  intros i I0. pose proof (cS_pos g Hg Hh 0 (S i) ltac:(split; [apply Na_pos|lia]) ltac:(lia)) as C. unfold cS in C.
  apply (factor_pos (ga g * sin (node (Na g) PI 0))); [|exact C]. apply Rmult_lt_0_compat; [exact aP|apply snP, Na_pos].
Qed.
Lemma balance_at : forall ia ir, is_point g ia ir -> balance g (pos g ia ir) = ratios (aE g) (aW g) ia * ratios (rN g) (rS g) ir.
Proof.
  intros ia ir [A B]. unfold balance, pos. f_equal; f_equal.
  - rewrite Nat.mul_comm, Nat.mod_add by lia. apply Nat.mod_small, A.
  - rewrite Nat.mul_comm, Nat.div_add, Nat.div_small by lia. lia.
Qed.
Lemma balance_pos : forall k, (k < Nelem g)%nat -> 0 < balance g k.
Proof.
  intros k K. destruct (pos_surj g k K) as (ia & ir & Hp & ->). rewrite balance_at by auto. destruct Hp.
  apply Rmult_lt_0_compat; [apply (ratios_pos _ _ (Na g)); auto using aE_pos, aW_pos|apply (ratios_pos _ _ (Nr g)); auto using rN_pos, rS_pos].
Qed.
Lemma a_step : forall ia ir, is_point g ia ir -> (S ia < Na g)%nat -> balance g (pos g ia ir) * cE g ia ir = balance g (pos g (S ia) ir) * cW g (S ia) ir.
Proof.
  intros ia ir Hp I0. assert (Hq : is_point g (S ia) ir) by (split; [exact I0|apply Hp]). rewrite !balance_at by auto. cbn [ratios]. pose proof (aW_pos ia I0) as P.
  change (cE g ia ir) with (ga g * sinh (node (Nr g) (gL g) ir) * aE g ia). change (cW g (S ia) ir) with (ga g * sinh (node (Nr g) (gL g) ir) * aW g (S ia)). field. lra.
Qed.
Lemma r_step : forall ia ir, is_point g ia ir -> (S ir < Nr g)%nat -> balance g (pos g ia ir) * cN g ia ir = balance g (pos g ia (S ir)) * cS g ia (S ir).
Proof.
  intros ia ir Hp I0. assert (Hq : is_point g ia (S ir)) by (split; [apply Hp|exact I0]). rewrite !balance_at by auto. cbn [ratios]. pose proof (rS_pos ir I0) as P.
  change (cN g ia ir) with (ga g * sin (node (Na g) PI ia) * rN g ir). change (cS g ia (S ir)) with (ga g * sin (node (Na g) PI ia) * rS g (S ir)). field. lra.
Qed.
(** Entry between two points. *)
Lemma entry_between : forall m ia ir ja jr, is_point g ia ir -> is_point g ja jr -> pos g ia ir <> pos g ja jr ->
  hamiltonian g m (pos g ia ir) (pos g ja jr)
  = - (1 / 2) * ((if ((ja =? S ia) && (jr =? ir))%nat%bool then cE g ia ir else 0) + (if ((ia =? S ja) && (jr =? ir))%nat%bool then cW g ia ir else 0)
      + (if ((ja =? ia) && (jr =? S ir))%nat%bool then cN g ia ir else 0) + (if ((ja =? ia) && (ir =? S jr))%nat%bool then cS g ia ir else 0)).
Proof.
  intros m ia ir ja jr Hp Hq N. rewrite ham_entry by (auto using pos_lt).
  assert (DD : forall ka kr, is_point g ka kr -> delta (pos g ja jr) (pos g ka kr) = if ((ja =? ka) && (jr =? kr))%nat%bool then 1 else 0).
  { intros ka kr Hk. unfold delta. destruct (Nat.eqb_spec (pos g ka kr) (pos g ja jr)) as [E|E].
    - destruct (pos_inj g ka kr ja jr Hk Hq E) as [-> ->]. rewrite !Nat.eqb_refl. reflexivity.
    - destruct (Nat.eqb_spec ja ka); [|reflexivity]. destruct (Nat.eqb_spec jr kr); [|reflexivity]. subst. contradiction. }
  pose proof Hp as [A1' A2']. pose proof Hq as [B1 B2]. f_equal. f_equal; [f_equal; [f_equal|]|].
  - destruct (Nat.eqb_spec (ia + 1) (Na g)).
    + destruct (Nat.eqb_spec ja (S ia)); [lia|reflexivity].
    + rewrite DD by (split; lia). replace (ia + 1)%nat with (S ia) by lia. destruct ((ja =? S ia) && (jr =? ir))%nat%bool; ring.
  - destruct (Nat.eqb_spec ia 0).
    + destruct (Nat.eqb_spec ia (S ja)); [lia|reflexivity].
    + rewrite DD by (split; lia). replace (ja =? ia - 1)%nat with (ia =? S ja)%nat by (destruct (Nat.eqb_spec ia (S ja)), (Nat.eqb_spec ja (ia - 1)); auto; lia).
      destruct ((ia =? S ja) && (jr =? ir))%nat%bool; ring.
  - destruct (Nat.eqb_spec (ir + 1) (Nr g)).
    + destruct (Nat.eqb_spec jr (S ir)); [lia|rewrite andb_false_r; reflexivity].
    + rewrite DD by (split; lia). replace (ir + 1)%nat with (S ir) by lia. destruct ((ja =? ia) && (jr =? S ir))%nat%bool; ring.
  - destruct (Nat.eqb_spec ir 0).
    + destruct (Nat.eqb_spec ir (S jr)); [lia|rewrite andb_false_r; reflexivity].
    + rewrite DD by (split; lia). replace (jr =? ir - 1)%nat with (ir =? S jr)%nat by (destruct (Nat.eqb_spec ir (S jr)), (Nat.eqb_spec jr (ir - 1)); auto; lia).
      destruct ((ja =? ia) && (ir =? S jr))%nat%bool; ring.
Qed.
Lemma ham_balance : forall m i j, (i < Nelem g)%nat -> (j < Nelem g)%nat -> balance g i * hamiltonian g m i j = balance g j * hamiltonian g m j i.
Proof.
  intros m i j I0 J0. destruct (Nat.eq_dec i j) as [->|N]; auto.
  destruct (pos_surj g i I0) as (ia & ir & Hp & ->). destruct (pos_surj g j J0) as (ja & jr & Hq & ->).
  rewrite (entry_between m ia ir ja jr), (entry_between m ja jr ia ir) by auto. pose proof Hp as [A1' A2']. pose proof Hq as [B1 B2].
  destruct (Nat.eqb_spec ja (S ia)) as [E1|E1].
  - destruct (Nat.eqb_spec jr ir) as [E2|E2].
    + subst ja jr. pose proof (a_step ia ir Hp B1) as Q. rewrite Nat.eqb_refl. replace (ia =? S (S ia))%nat with false by (symmetry; apply Nat.eqb_neq; lia).
      replace (S ia =? ia)%nat with false by (symmetry; apply Nat.eqb_neq; lia). replace (ia =? S ia)%nat with false by (symmetry; apply Nat.eqb_neq; lia). cbn [andb]. lra.
    + replace (ir =? jr)%nat with false by (symmetry; apply Nat.eqb_neq; lia). replace (ja =? ia)%nat with false by (symmetry; apply Nat.eqb_neq; lia).
      replace (ia =? ja)%nat with false by (symmetry; apply Nat.eqb_neq; lia). rewrite !andb_false_r. cbn [andb]. ring.
  - destruct (Nat.eqb_spec ia (S ja)) as [E3|E3].
    + destruct (Nat.eqb_spec jr ir) as [E2|E2].
      * subst ia jr. pose proof (a_step ja ir Hq A1') as Q. rewrite Nat.eqb_refl. replace (ja =? S ja)%nat with false by (symmetry; apply Nat.eqb_neq; lia).
        replace (S ja =? ja)%nat with false by (symmetry; apply Nat.eqb_neq; lia). cbn [andb]. lra.
      * replace (ir =? jr)%nat with false by (symmetry; apply Nat.eqb_neq; lia). replace (ja =? ia)%nat with false by (symmetry; apply Nat.eqb_neq; lia).
        replace (ia =? ja)%nat with false by (symmetry; apply Nat.eqb_neq; lia). rewrite !andb_false_r. cbn [andb]. ring.
    + cbn [andb]. rewrite (Nat.eqb_sym ia ja). destruct (Nat.eqb_spec ja ia) as [->|E4]; cbn [andb]; [|ring].
      destruct (Nat.eqb_spec jr (S ir)) as [E5|E5]; destruct (Nat.eqb_spec ir (S jr)) as [E6|E6]; try lia.
      * subst jr. pose proof (r_step ia ir Hp B2) as Q. lra.
      * subst ir. pose proof (r_step ia jr Hq A2') as Q. lra.
      * ring.
Qed.
End S.

(** * Consequences *)
Definition wdot (g : grid) (p q : vec) : R := sumR (Nelem g) (fun k => balance g k * gw g k * (p k * q k)).
(** The energy of x as a trial orbital. *)
Definition wenergy (g : grid) (m : Z) (v x : vec) : R := sumR (Nelem g) (fun k => balance g k * x k * happ g m v x k).
Section C.
Variable g : grid.
Hypothesis T : three_point g.
Let Hg : grid_ok g. Proof. apply T. Qed.
Let Hf : fd_ok g 1. Proof. apply T. Qed.
Let Hh : gL g / INR (Nr g) <= 1. Proof. apply T. Qed.
Let W : forall k, (k < Nelem g)%nat -> 0 < gw g k. Proof. intros. apply gw_pos; auto. Qed.
Lemma hmat_balance : forall m v i j, (i < Nelem g)%nat -> (j < Nelem g)%nat -> balance g i * hmat g m v i j = balance g j * hmat g m v j i.
Proof.
  intros m v i j I0 J0. unfold hmat. rewrite !Rmult_plus_distr_l, (ham_balance g T m i j I0 J0). f_equal. rewrite (Nat.eqb_sym j i).
  destruct (Nat.eqb_spec i j) as [->|]; ring.
Qed.
Lemma wenergy_form : forall m v x, wenergy g m v x = form (Nelem g) (hmat g m v) (balance g) x x.
Proof. intros. apply sumR_ext. intros k K. unfold happ. rewrite <- hmat_apply by auto. reflexivity. Qed.
Lemma levels_real : forall m v e f p q, (exists k, (k < Nelem g)%nat /\ (p k <> 0 \/ q k <> 0)) ->
  (forall k, (k < Nelem g)%nat -> happ g m v p k = gw g k * (e * p k - f * q k)) ->
  (forall k, (k < Nelem g)%nat -> happ g m v q k = gw g k * (e * q k + f * p k)) ->
  f = 0 /\ eigenpair g (hamiltonian g m) v e p /\ eigenpair g (hamiltonian g m) v e q.
Proof.
  intros m v e f p q N P Q.
  destruct (real_pair (Nelem g) (hmat g m v) (gw g) (balance g) W (balance_pos g T) (hmat_balance m v) p q e f N) as (F & A & B).
  - intros k K. rewrite hmat_apply by auto. apply P, K.
  - intros k K. rewrite hmat_apply by auto. apply Q, K.
  - split; [exact F|]. split; apply eigvec_pair; auto.
Qed.
Lemma levels_orthogonal : forall m v e e' p q, eigenpair g (hamiltonian g m) v e p -> eigenpair g (hamiltonian g m) v e' q -> e <> e' -> wdot g p q = 0.
Proof.
  intros m v e e' p q P Q N. apply (orthogonal (Nelem g) (hmat g m v) (gw g) (balance g) (hmat_balance m v) p q e e'); auto; apply eigvec_pair; auto.
Qed.
Lemma ground_rayleigh : forall m v a u x, ground g m v a u -> a * wdot g x x <= wenergy g m v x /\
  (wenergy g m v x = a * wdot g x x <-> exists c, forall k, (k < Nelem g)%nat -> x k = c * u k).
Proof.
  intros m v a u x [U E]. assert (E' : eigvec (Nelem g) (hmat g m v) (gw g) a u) by (apply eigvec_pair; auto). rewrite wenergy_form. split.
  - apply (rayleigh (Nelem g) (hmat g m v) (gw g) (balance g) (balance_pos g T) (hmat_balance m v) ltac:(intros; apply hmat_off; auto) u a x U E').
  - split; intros Q.
    + apply (rayleigh_eq (Nelem g) (hmat g m v) (gw g) (balance g) W (balance_pos g T) (hmat_balance m v) ltac:(intros; apply hmat_off; auto) ltac:(intros; apply hmat_linked; auto) u a x U E').
      rewrite Q. apply Rle_refl.
    + destruct Q as (c & Q). unfold wdot, form. rewrite <- sumR_scal. apply sumR_ext. intros k K.
      rewrite (sumR_ext _ _ (fun j => c * (hmat g m v k j * u j))) by (intros j J; rewrite (Q j J); ring).
      rewrite sumR_scal, (E' k K), (Q k K). ring.
Qed.
Lemma wdot_pos : forall x, somewhere g x -> 0 < wdot g x x.
Proof.
  intros x (k & K & N). destruct (Rle_lt_dec (wdot g x x) 0) as [L|L]; auto. exfalso. apply N.
  apply (dot_zero (Nelem g) (gw g) (balance g) W (balance_pos g T) x L k K).
Qed.
Lemma wenergy_split : forall m v v' x, wenergy g m v' x = wenergy g m v x + wdot g (fun k => (v' k - v k) * x k) x.
Proof. intros. unfold wenergy, wdot, happ. rewrite <- sumR_plus. apply sumR_ext. intros k K. ring. Qed.
Lemma wenergy_ground : forall m v a u, ground g m v a u -> wenergy g m v u = a * wdot g u u.
Proof. intros m v a u G. apply (ground_rayleigh m v a u u G). exists 1. intros. ring. Qed.
(** First order perturbation theory is an upper bound. *)
Lemma first_order : forall m v v' a a' u u', ground g m v a u -> ground g m v' a' u' ->
  a' <= a + wdot g (fun k => (v' k - v k) * u k) u / wdot g u u.
Proof.
  intros m v v' a a' u u' G G'. assert (P : 0 < wdot g u u) by (apply wdot_pos, nodeless_somewhere; auto; apply G).
  destruct (ground_rayleigh m v' a' u' u G') as [Q _]. rewrite (wenergy_split m v v'), (wenergy_ground m v a u G) in Q.
  apply Rmult_le_reg_r with (1 := P). replace ((a + wdot g (fun k => (v' k - v k) * u k) u / wdot g u u) * wdot g u u) with (a * wdot g u u + wdot g (fun k => (v' k - v k) * u k) u) by (field; lra). exact Q.
Qed.
Lemma ground_concave : forall m v v' a a' b u u' y t, 0 <= t <= 1 -> ground g m v a u -> ground g m v' a' u' ->
  ground g m (fun k => t * v k + (1 - t) * v' k) b y -> t * a + (1 - t) * a' <= b.
Proof.
  intros m v v' a a' b u u' y t Ht G G' B. assert (P : 0 < wdot g y y) by (apply wdot_pos, nodeless_somewhere; auto; apply B).
  destruct (ground_rayleigh m v a u y G) as [Q _]. destruct (ground_rayleigh m v' a' u' y G') as [Q' _]. pose proof (wenergy_ground _ _ _ _ B) as E.
  assert (S : wenergy g m (fun k => t * v k + (1 - t) * v' k) y = t * wenergy g m v y + (1 - t) * wenergy g m v' y).
  { unfold wenergy, happ. rewrite <- !sumR_scal, <- sumR_plus. apply sumR_ext. intros k K. ring. }
  apply Rmult_le_reg_r with (1 := P). rewrite <- E, S. rewrite Rmult_plus_distr_r. apply Rplus_le_compat; rewrite Rmult_assoc; apply Rmult_le_compat_l; lra.
Qed.
(** The kinetic operator is positive definite. *)
Lemma free_positive : forall m a u, ground g m (fun _ => 0) a u -> 0 < a.
Proof.
  assert (Z : forall a u, ground g 0 (fun _ => 0) a u -> 0 < a).
  { intros a u G. destruct (ground_above_potential g T 0 _ a u G) as (k & K & L). cbv beta in L.
    destruct (Rle_lt_or_eq_dec _ _ L) as [L'|L']; auto. exfalso. subst a. destruct G as [U E]. pose proof (Nelem_pos g) as P.
    assert (Q : u 0%nat = 0); [|pose proof (U 0%nat P); lra]. revert P. generalize 0%nat. apply (elap_nonsing g Hg Hf Hh u). intros i I0.
    pose proof (E i I0) as X. pose proof (hamiltonian_apply g 0 u i Hg I0) as Y. unfold gapply, matvec in Y. rewrite Y in X. cbn [Z.even] in X. simpl (IZR 0 ^ 2) in X. unfold Rdiv in X. rewrite !Rmult_0_l, !Rmult_0_r, !Rmult_0_l in X. lra. }
  intros m a u G. destruct (Z.eq_dec m 0) as [->|N]; [apply (Z a u G)|]. destruct (ground_exists g T 0 (fun _ => 0)) as (a0 & u0 & G0).
  pose proof (Z a0 u0 G0). destruct G as [U E]. pose proof (ground_angular g T 0 m (fun _ => 0) a0 u0 a u ltac:(lia) G0 (nodeless_somewhere g u U) E). lra.
Qed.
Lemma kinetic_positive : forall m x, somewhere g x -> 0 < wenergy g m (fun _ => 0) x.
Proof.
  intros m x X. destruct (ground_exists g T m (fun _ => 0)) as (a & u & G). destruct (ground_rayleigh m _ a u x G) as [Q _].
  pose proof (wdot_pos x X) as P. pose proof (free_positive m a u G) as A. apply Rlt_le_trans with (2 := Q). apply Rmult_lt_0_compat; auto.
Qed.
End C.
