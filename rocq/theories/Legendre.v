(** Legendre polynomials: derivative, the mean over a circle (addition theorem), the bound by one, and the
    generating function with its remainder. *)
From Coq Require Import Reals List Arith Lia Lra ZArith Bool.
From Coquelicot Require Import Coquelicot.
From Verif Require Import Base BaseLemmas HartreeModel HartreeProofs.
Local Open Scope R_scope.
Local Opaque legendre.

(** Derivative of the Legendre polynomial of order k. *)
Fixpoint dleg (k : nat) (x : R) : R :=
  match k with
  | O => 0
  | S n => match n with
           | O => 1
           | S m => dleg m x + (2 * INR n + 1) * legendre n x
           end
  end.

Lemma two_steps : forall P : nat -> Prop, P 0%nat -> P 1%nat -> (forall n, P n -> P (S n) -> P (S (S n))) -> forall n, P n.
Proof. intros P H0 H1 H2. assert (A : forall n, P n /\ P (S n)) by (induction n as [|n [IA IB]]; auto). intros n. apply A. Qed.

Lemma legendre_0 : forall x, legendre 0 x = 1.
Proof. reflexivity. Qed.
Lemma legendre_1 : forall x, legendre 1 x = x.
Proof. reflexivity. Qed.
Lemma bonnet : forall n x, (INR n + 2) * legendre (S (S n)) x = (2 * INR n + 3) * x * legendre (S n) x - (INR n + 1) * legendre n x.
Proof. intros n x. rewrite legendre_SS, !S_INR. pose proof (pos_INR n). field. lra. Qed.
Lemma dleg_SS : forall n x, dleg (S (S n)) x = dleg n x + (2 * INR n + 3) * legendre (S n) x.
Proof. intros. change (dleg (S (S n)) x) with (dleg n x + (2 * INR (S n) + 1) * legendre (S n) x). rewrite S_INR. ring. Qed.

Lemma dleg_both : forall n x, x * dleg (S n) x = dleg n x + (INR n + 1) * legendre (S n) x
  /\ dleg (S n) x = x * dleg n x + (INR n + 1) * legendre n x.
Proof.
  induction n as [|n IH]; intros x.
  - simpl dleg. rewrite legendre_1, legendre_0. simpl INR. split; ring.
  - destruct (IH x) as [B C]. rewrite dleg_SS, !S_INR. pose proof (bonnet n x) as Bo. split.
    + replace (INR n + 1 + 1) with (INR n + 2) by ring. rewrite Bo. rewrite C. ring.
    + rewrite B. ring.
Qed.
Lemma dleg_down : forall n x, x * dleg (S n) x = dleg n x + (INR n + 1) * legendre (S n) x.
Proof. intros. apply dleg_both. Qed.
Lemma dleg_up : forall n x, dleg (S n) x = x * dleg n x + (INR n + 1) * legendre n x.
Proof. intros. apply dleg_both. Qed.
Lemma dleg_square : forall n x, (1 - x ^ 2) * dleg (S n) x = (INR n + 1) * (legendre n x - x * legendre (S n) x).
Proof. intros n x. pose proof (dleg_down n x) as B. pose proof (dleg_up n x) as C.
  replace ((1 - x ^ 2) * dleg (S n) x) with (dleg (S n) x - x * (x * dleg (S n) x)) by ring.
  rewrite B. rewrite C. ring. Qed.

Lemma legendre_derive : forall n (x : R), is_derive (legendre n) x (dleg n x).
Proof.
  intros n x. pattern n. apply two_steps; clear n.
  - apply (is_derive_ext (fun _ : R => 1)); [intros; now rewrite legendre_0|]. apply @is_derive_const.
  - apply (is_derive_ext (fun t : R => t)); [intros; now rewrite legendre_1|]. apply @is_derive_id.
  - intros n A B. pose proof (pos_INR n) as P.
    apply (is_derive_ext (fun t : R => ((2 * INR n + 3) * (t * legendre (S n) t) - (INR n + 1) * legendre n t) / (INR n + 2))).
    { intros t. pose proof (bonnet n t). apply (Rmult_eq_reg_l (INR n + 2)); [|lra]. rewrite H. field. lra. }
    evar (l : R). assert (D : is_derive (fun t : R => ((2 * INR n + 3) * (t * legendre (S n) t) - (INR n + 1) * legendre n t) / (INR n + 2)) x l).
    { auto_derive; [|unfold l; reflexivity]. repeat split; auto; eexists; eassumption. }
    replace (dleg (S (S n)) x) with l; [exact D|]. unfold l.
    replace (Derive (fun t : R => legendre n t) x) with (dleg n x) by (symmetry; apply is_derive_unique; exact A).
    replace (Derive (fun t : R => legendre (S n) t) x) with (dleg (S n) x) by (symmetry; apply is_derive_unique; exact B).
    rewrite dleg_SS. pose proof (dleg_down n x) as E. apply (Rmult_eq_reg_l (INR n + 2)); [|lra].
    replace ((INR n + 2) * (((2 * INR n + 3) * (1 * legendre (S n) x + x * (1 * dleg (S n) x)) + - ((INR n + 1) * (1 * dleg n x))) * / (INR n + 2)))
      with ((2 * INR n + 3) * (legendre (S n) x + x * dleg (S n) x) - (INR n + 1) * dleg n x) by (field; lra).
    rewrite E. ring.
Qed.
Lemma legendre_cont : forall n x, continuous (legendre n) x.
Proof. intros n x. apply (ex_derive_continuous (legendre n)). eexists. apply legendre_derive. Qed.
Lemma dleg_cont : forall n x, continuous (dleg n) x.
Proof.
  intros n x. pattern n. apply two_steps; clear n.
  - apply continuous_const.
  - apply continuous_const.
  - intros n A B. apply (continuous_ext (fun t => dleg n t + (2 * INR n + 3) * legendre (S n) t)); [intros; now rewrite dleg_SS|].
    apply @continuous_plus; auto. apply @continuous_mult; [apply continuous_const|apply legendre_cont].
Qed.

(** * The mean over a circle *)
Definition around (f : R -> R) : R := RInt f 0 PI.
Definition everywhere (f : R -> R) : Prop := forall x, continuous f x.
Lemma ev_int : forall f, everywhere f -> ex_RInt f 0 PI.
Proof. intros f H. apply (@ex_RInt_continuous R_CompleteNormedModule). intros z _. apply H. Qed.
Lemma ev_plus : forall f g, everywhere f -> everywhere g -> everywhere (fun x => f x + g x).
Proof. intros f g F G x. apply @continuous_plus; [apply F|apply G]. Qed.
Lemma ev_mult : forall f g, everywhere f -> everywhere g -> everywhere (fun x => f x * g x).
Proof. intros f g F G x. apply @continuous_mult; [apply F|apply G]. Qed.
Lemma ev_scal : forall c f, everywhere f -> everywhere (fun x => c * f x).
Proof. intros c f F. apply ev_mult; [intros x; apply continuous_const|exact F]. Qed.
Lemma around_plus : forall f g, everywhere f -> everywhere g -> around (fun x => f x + g x) = around f + around g.
Proof. intros f g F G. unfold around. apply (RInt_plus f g 0 PI); apply ev_int; assumption. Qed.
Lemma around_scal : forall c f, everywhere f -> around (fun x => c * f x) = c * around f.
Proof. intros c f F. unfold around. apply (RInt_scal f 0 PI c). apply ev_int; assumption. Qed.
Lemma around_ext : forall f g, (forall x, f x = g x) -> around f = around g.
Proof. intros f g H. unfold around. apply RInt_ext. intros; apply H. Qed.
Lemma around_bound : forall f B, everywhere f -> (forall x, Rabs (f x) <= B) -> Rabs (around f) <= PI * B.
Proof.
  intros f B F H. pose proof PI_RGT_0.
  assert (U : around f <= PI * B).
  { replace (PI * B) with (RInt (fun _ : R => B) 0 PI) by (rewrite RInt_const; unfold scal; simpl; unfold mult; simpl; ring).
    apply RInt_le; [lra|apply ev_int; auto|apply ex_RInt_const|]. intros x _. specialize (H x). pose proof (Rle_abs (f x)). lra. }
  assert (L : - (PI * B) <= around f).
  { replace (- (PI * B)) with (RInt (fun _ : R => - B) 0 PI) by (rewrite RInt_const; unfold scal; simpl; unfold mult; simpl; ring).
    apply RInt_le; [lra|apply ex_RInt_const|apply ev_int; auto|]. intros x _. specialize (H x).
    pose proof (Rle_abs (- f x)) as K. rewrite Rabs_Ropp in K. lra. }
  apply Rabs_le. lra.
Qed.

Section Circle.
Variables x y sx sy : R.
Hypothesis Hx : sx ^ 2 = 1 - x ^ 2.
Hypothesis Hy : sy ^ 2 = 1 - y ^ 2.
(** Cosine of the angle between two directions with polar cosines x and y and azimuths that differ by p. *)
Definition between (p : R) : R := x * y + sx * sy * cos p.

Lemma between_derive : forall p : R, is_derive between p (- (sx * sy * sin p)).
Proof. intros p. unfold between. auto_derive; auto. ring. Qed.
Lemma between_cont : everywhere between.
Proof. intros p. apply (ex_derive_continuous between). eexists. apply between_derive. Qed.
Lemma between_range : forall p, -1 <= between p <= 1.
Proof.
  intros p. unfold between. assert (C : (cos p) ^ 2 <= 1) by (pose proof (sin2_cos2 p) as E; unfold Rsqr in E; nra).
  assert (Q : (sx * sy * cos p) ^ 2 <= (1 - x ^ 2) * (1 - y ^ 2)).
  { replace ((sx * sy * cos p) ^ 2) with (sx ^ 2 * sy ^ 2 * cos p ^ 2) by ring. rewrite Hx, Hy.
    assert (0 <= (1 - x ^ 2) * (1 - y ^ 2)) by (rewrite <- Hx, <- Hy; apply Rmult_le_pos; apply pow2_ge_0). nra. }
  set (q := sx * sy * cos p) in *. assert (0 <= 1 - x ^ 2) by (rewrite <- Hx; apply pow2_ge_0).
  assert (0 <= 1 - y ^ 2) by (rewrite <- Hy; apply pow2_ge_0).
  assert (S1 : 0 <= (1 - x * y) ^ 2 - (1 - x ^ 2) * (1 - y ^ 2)) by (replace (_ - _) with ((x - y) ^ 2) by ring; apply pow2_ge_0).
  assert (S2 : 0 <= (1 + x * y) ^ 2 - (1 - x ^ 2) * (1 - y ^ 2)) by (replace (_ - _) with ((x + y) ^ 2) by ring; apply pow2_ge_0).
  assert (0 <= 1 - x * y) by nra. assert (0 <= 1 + x * y) by nra. split; nra.
Qed.

Definition circP (l : nat) (p : R) : R := legendre l (between p).
Definition circD (l : nat) (p : R) : R := dleg l (between p).
Definition circV (p : R) : R := sx * sy * cos p.
Lemma ev_P : forall l, everywhere (circP l).
Proof. intros l p. apply (continuous_comp between (legendre l)); [apply between_cont|apply legendre_cont]. Qed.
Lemma ev_D : forall l, everywhere (circD l).
Proof. intros l p. apply (continuous_comp between (dleg l)); [apply between_cont|apply dleg_cont]. Qed.
Lemma ev_V : everywhere circV.
Proof. intros p. apply (continuous_ext (fun p => between p + - (x * y))); [intros q; change (between q + - (x * y) = circV q :> R); unfold between, circV; ring|].
  apply @continuous_plus; [apply between_cont|apply continuous_const]. Qed.
Lemma ev_VP : forall l, everywhere (fun p => circV p * circP l p).
Proof. intros l. apply ev_mult; [apply ev_V|apply ev_P]. Qed.

Lemma parts : forall n, around (fun p => circV p * circP n p) = around (fun p => ((1 - x ^ 2) * (1 - y ^ 2) - circV p ^ 2) * circD n p).
Proof.
  intros n.
  set (h := fun p : R => circV p * circP n p + -1 * (((1 - x ^ 2) * (1 - y ^ 2) - circV p ^ 2) * circD n p)).
  assert (EG : everywhere (fun p => ((1 - x ^ 2) * (1 - y ^ 2) - circV p ^ 2) * circD n p)).
  { apply ev_mult; [|apply ev_D]. intros p.
    apply (continuous_ext (fun p => (1 - x ^ 2) * (1 - y ^ 2) + -1 * (circV p * circV p)));
      [intros q; change ((1 - x ^ 2) * (1 - y ^ 2) + -1 * (circV q * circV q) = (1 - x ^ 2) * (1 - y ^ 2) - circV q ^ 2 :> R); ring|].
    apply @continuous_plus; [apply continuous_const|]. apply (ev_scal (-1) (fun p => circV p * circV p)). apply ev_mult; apply ev_V. }
  assert (Hh : around h = 0).
  { unfold around. apply is_RInt_unique.
    replace 0 with (minus (sx * sy * sin PI * circP n PI) (sx * sy * sin 0 * circP n 0)) at 2
      by (rewrite sin_PI, sin_0; unfold minus, plus, opp; simpl; ring).
    apply (is_RInt_derive (fun p : R => sx * sy * sin p * circP n p) h).
    - intros p _. unfold circP.
      assert (A : is_derive (fun p : R => sx * sy * sin p * legendre n (between p)) p
        ((sx * sy * cos p) * legendre n (between p) + (sx * sy * sin p) * (- (sx * sy * sin p) * dleg n (between p)))).
      { apply (is_derive_mult (fun p : R => sx * sy * sin p) (fun p : R => legendre n (between p)) p (sx * sy * cos p)
                 (- (sx * sy * sin p) * dleg n (between p))).
        - auto_derive; auto. ring.
        - apply (is_derive_comp (legendre n) between p (dleg n (between p)) (- (sx * sy * sin p))); [apply legendre_derive|apply between_derive].
        - intros; apply Rmult_comm. }
      match type of A with is_derive _ _ ?v => replace (h p) with v; [exact A|] end. unfold h, circP, circD, circV.
      assert (E : (1 - x ^ 2) * (1 - y ^ 2) - (sx * sy * cos p) ^ 2 = (sx * sy * sin p) ^ 2).
      { rewrite <- Hx, <- Hy. pose proof (sin2_cos2 p) as T. unfold Rsqr in T.
        replace ((sx * sy * sin p) ^ 2) with (sx ^ 2 * sy ^ 2 * (sin p * sin p)) by ring.
        replace (sin p * sin p) with (1 - cos p * cos p) by lra. ring. }
      rewrite E. ring.
    - intros p _. unfold h. apply @continuous_plus; [apply ev_VP|]. apply (ev_scal (-1) _ EG). }
  unfold h in Hh. rewrite (around_plus (fun p => circV p * circP n p) (fun p => -1 * (((1 - x ^ 2) * (1 - y ^ 2) - circV p ^ 2) * circD n p))) in Hh
    by (try apply ev_VP; apply (ev_scal (-1) _ EG)).
  rewrite (around_scal (-1) _ EG) in Hh. lra.
Qed.

Lemma moment : forall n, (INR n + 2) * around (fun p => circV p * circP (S n) p)
  = (INR n + 1) * around (circP n) + (INR n + 1) * (x * y) * around (circP (S n)) + 2 * (x * y) * around (circD n) - (x ^ 2 + y ^ 2) * around (circD (S n)).
Proof.
  intros n. pose proof (parts (S n)) as E.
  rewrite (around_ext (fun p => ((1 - x ^ 2) * (1 - y ^ 2) - circV p ^ 2) * circD (S n) p)
    (fun p => (INR n + 1) * circP n p + ((INR n + 1) * (x * y) * circP (S n) p
              + (- (INR n + 1) * (circV p * circP (S n) p) + (2 * (x * y) * circD n p + - (x ^ 2 + y ^ 2) * circD (S n) p))))) in E.
  - rewrite (around_plus (fun p => (INR n + 1) * circP n p)) in E.
    2:{ apply ev_scal, ev_P. }
    2:{ repeat apply ev_plus; apply ev_scal; first [apply ev_VP|apply ev_P|apply ev_D]. }
    rewrite (around_plus (fun p => (INR n + 1) * (x * y) * circP (S n) p)) in E.
    2:{ apply ev_scal, ev_P. }
    2:{ repeat apply ev_plus; apply ev_scal; first [apply ev_VP|apply ev_P|apply ev_D]. }
    rewrite (around_plus (fun p => - (INR n + 1) * (circV p * circP (S n) p))) in E.
    2:{ apply ev_scal, ev_VP. }
    2:{ repeat apply ev_plus; apply ev_scal; first [apply ev_VP|apply ev_P|apply ev_D]. }
    rewrite (around_plus (fun p => 2 * (x * y) * circD n p)) in E.
    2:{ apply ev_scal, ev_D. }
    2:{ apply ev_scal, ev_D. }
    rewrite !around_scal in E by first [apply ev_VP|apply ev_P|apply ev_D].
    lra.
  - intros p. unfold circP, circD. set (u := between p).
    assert (EV : circV p = u - x * y) by (unfold u, between, circV; ring). rewrite EV.
    pose proof (dleg_square n u) as S1. pose proof (dleg_down n u) as S2.
    replace (((1 - x ^ 2) * (1 - y ^ 2) - (u - x * y) ^ 2) * dleg (S n) u)
      with ((1 - u ^ 2) * dleg (S n) u + 2 * (x * y) * (u * dleg (S n) u) - (x ^ 2 + y ^ 2) * dleg (S n) u) by ring.
    rewrite S1, S2. ring.
Qed.
Lemma bonnet_mean : forall n, (INR n + 2) * around (circP (S (S n)))
  = (2 * INR n + 3) * (x * y * around (circP (S n)) + around (fun p => circV p * circP (S n) p)) - (INR n + 1) * around (circP n).
Proof.
  intros n. rewrite <- (around_scal (INR n + 2)) by apply ev_P.
  rewrite (around_ext _ (fun p => (2 * INR n + 3) * (x * y) * circP (S n) p + ((2 * INR n + 3) * (circV p * circP (S n) p) + - (INR n + 1) * circP n p))).
  - rewrite (around_plus (fun p => (2 * INR n + 3) * (x * y) * circP (S n) p)).
    2:{ apply ev_scal, ev_P. }
    2:{ apply ev_plus; apply ev_scal; first [apply ev_VP|apply ev_P]. }
    rewrite (around_plus (fun p => (2 * INR n + 3) * (circV p * circP (S n) p))) by (apply ev_scal; first [apply ev_VP|apply ev_P]).
    rewrite !around_scal by first [apply ev_VP|apply ev_P]. ring.
  - intros p. unfold circP. rewrite bonnet. unfold circV, between. ring.
Qed.
Lemma dleg_mean : forall n, around (circD (S (S n))) = around (circD n) + (2 * INR n + 3) * around (circP (S n)).
Proof.
  intros n. rewrite <- (around_scal (2 * INR n + 3)) by apply ev_P. rewrite <- around_plus by first [apply ev_D|apply ev_scal, ev_P].
  apply around_ext. intros p. unfold circD, circP. apply dleg_SS.
Qed.

Fixpoint circK (k : nat) : R :=
  match k with
  | O => 0
  | S n => match n with
           | O => 1
           | S m => circK m + (2 * INR n + 1) * (legendre n x * legendre n y)
           end
  end.
Lemma K_SS : forall n, circK (S (S n)) = circK n + (2 * INR n + 3) * (legendre (S n) x * legendre (S n) y).
Proof. intros. change (circK (S (S n))) with (circK n + (2 * INR (S n) + 1) * (legendre (S n) x * legendre (S n) y)). rewrite S_INR. ring. Qed.
Lemma kernel : forall n, (x ^ 2 + y ^ 2) * circK (S n) - 2 * (x * y) * circK n
  = (INR n + 1) * (x * legendre (S n) x * legendre n y + y * legendre (S n) y * legendre n x).
Proof.
  intros n. pattern n. apply two_steps; clear n.
  - simpl circK. rewrite !legendre_1, !legendre_0. simpl INR. ring.
  - rewrite (K_SS 0). simpl circK. pose proof (bonnet 0 x) as A. pose proof (bonnet 0 y) as B.
    rewrite legendre_0, legendre_1 in A, B. simpl INR in *. rewrite !legendre_1.
    replace ((1 + 1) * (x * legendre 2 x * y + y * legendre 2 y * x)) with (x * y * ((0 + 2) * legendre 2 x + (0 + 2) * legendre 2 y)) by ring.
    rewrite A, B. ring.
  - intros n IH _. rewrite (K_SS (S n)), (K_SS n).
    replace ((x ^ 2 + y ^ 2) * (circK (S n) + (2 * INR (S n) + 3) * (legendre (S (S n)) x * legendre (S (S n)) y))
       - 2 * (x * y) * (circK n + (2 * INR n + 3) * (legendre (S n) x * legendre (S n) y)))
      with ((x ^ 2 + y ^ 2) * circK (S n) - 2 * (x * y) * circK n
            + (x ^ 2 + y ^ 2) * (2 * INR (S n) + 3) * (legendre (S (S n)) x * legendre (S (S n)) y)
            - 2 * (x * y) * (2 * INR n + 3) * (legendre (S n) x * legendre (S n) y)) by ring.
    rewrite IH. pose proof (bonnet (S n) x) as A. pose proof (bonnet (S n) y) as B.
    pose proof (bonnet n x) as A0. pose proof (bonnet n y) as B0. rewrite !S_INR in *.
    replace ((INR n + 1 + 1 + 1) * (x * legendre (S (S (S n))) x * legendre (S (S n)) y + y * legendre (S (S (S n))) y * legendre (S (S n)) x))
      with (x * legendre (S (S n)) y * ((INR n + 1 + 2) * legendre (S (S (S n))) x)
            + y * legendre (S (S n)) x * ((INR n + 1 + 2) * legendre (S (S (S n))) y)) by ring.
    rewrite A, B.
    replace ((INR n + 1) * (x * legendre (S n) x * legendre n y + y * legendre (S n) y * legendre n x))
      with (x * legendre (S n) x * ((INR n + 1) * legendre n y) + y * legendre (S n) y * ((INR n + 1) * legendre n x)) by ring.
    replace ((INR n + 1) * legendre n y) with ((2 * INR n + 3) * y * legendre (S n) y - (INR n + 2) * legendre (S (S n)) y) by lra.
    replace ((INR n + 1) * legendre n x) with ((2 * INR n + 3) * x * legendre (S n) x - (INR n + 2) * legendre (S (S n)) x) by lra.
    ring.
Qed.

Lemma addition : forall l, around (circP l) = PI * (legendre l x * legendre l y) /\ around (circD l) = PI * circK l.
Proof.
  intros l. pattern l. apply two_steps; clear l.
  - split; unfold around.
    + rewrite (RInt_ext _ (fun _ => 1)) by (intros; apply legendre_0). rewrite RInt_const. rewrite !legendre_0. unfold scal; simpl; unfold mult; simpl. ring.
    + rewrite (RInt_ext _ (fun _ => 0)) by reflexivity. rewrite RInt_const. unfold scal; simpl; unfold mult; simpl. ring.
  - split; unfold around.
    + apply is_RInt_unique. rewrite !legendre_1.
      replace (PI * (x * y)) with (minus (x * y * PI + sx * sy * sin PI) (x * y * 0 + sx * sy * sin 0))
        by (rewrite sin_PI, sin_0; unfold minus, plus, opp; simpl; ring).
      apply (is_RInt_derive (fun p : R => x * y * p + sx * sy * sin p) (circP 1)).
      * intros p _. unfold circP. rewrite legendre_1. unfold between. auto_derive; auto. ring.
      * intros p _. apply ev_P.
    + rewrite (RInt_ext _ (fun _ => 1)) by reflexivity. rewrite RInt_const. unfold scal; simpl; unfold mult; simpl. ring.
  - intros n [M0 D0] [M1 D1]. split.
    + pose proof (bonnet_mean n) as A. pose proof (moment n) as B. rewrite M0, M1, D0, D1 in B. rewrite M0, M1 in A.
      pose proof (kernel n) as Kn. pose proof (pos_INR n) as Pn.
      assert (N1 : around (fun p => circV p * circP (S n) p)
        = PI * ((INR n + 1) * ((legendre n x - x * legendre (S n) x) * (legendre n y - y * legendre (S n) y))) / (INR n + 2)).
      { apply (Rmult_eq_reg_l (INR n + 2)); [|lra]. rewrite B.
        replace ((INR n + 1) * (PI * (legendre n x * legendre n y)) + (INR n + 1) * (x * y) * (PI * (legendre (S n) x * legendre (S n) y))
          + 2 * (x * y) * (PI * circK n) - (x ^ 2 + y ^ 2) * (PI * circK (S n)))
          with (PI * ((INR n + 1) * (legendre n x * legendre n y) + (INR n + 1) * (x * y) * (legendre (S n) x * legendre (S n) y)
            - ((x ^ 2 + y ^ 2) * circK (S n) - 2 * (x * y) * circK n))) by ring.
        rewrite Kn. field. lra. }
      rewrite N1 in A. apply (Rmult_eq_reg_l ((INR n + 2) * (INR n + 2))); [|apply Rgt_not_eq; apply Rmult_lt_0_compat; lra].
      replace ((INR n + 2) * (INR n + 2) * around (circP (S (S n)))) with ((INR n + 2) * ((INR n + 2) * around (circP (S (S n))))) by ring.
      rewrite A.
      replace ((INR n + 2) * (INR n + 2) * (PI * (legendre (S (S n)) x * legendre (S (S n)) y)))
        with (PI * (((INR n + 2) * legendre (S (S n)) x) * ((INR n + 2) * legendre (S (S n)) y))) by ring.
      rewrite !bonnet. field. lra.
    + rewrite dleg_mean, D0, M1, K_SS. ring.
Qed.
End Circle.

Lemma around_P_ext : forall x y sx sy l, around (circP x y sx sy l) = around (fun p => legendre l (between x y sx sy p)).
Proof. reflexivity. Qed.

(** * The bound by one *)
Lemma legendre_bound : forall l x, -1 <= x <= 1 -> Rabs (legendre l x) <= 1.
Proof.
  intros l x Hx.
  assert (C : forall c, -1 <= c <= 1 -> continuity_pt (fun t => Rabs (legendre l t)) c).
  { intros c _. apply continuity_pt_filterlim. apply (continuous_comp (legendre l) Rabs); [apply legendre_cont|apply continuous_Rabs]. }
  destruct (continuity_ab_maj (fun t => Rabs (legendre l t)) (-1) 1) as (m & Hm & Im); [lra|exact C|].
  assert (B : Rabs (legendre l m) * Rabs (legendre l m) <= Rabs (legendre l m)).
  { set (s := sqrt (1 - m ^ 2)). assert (Hs : s ^ 2 = 1 - m ^ 2).
    { unfold s. replace (sqrt (1 - m ^ 2) ^ 2) with (Rsqr (sqrt (1 - m ^ 2))) by (unfold Rsqr; ring). apply Rsqr_sqrt. nra. }
    destruct (addition m m s s Hs Hs l) as [A _].
    assert (G : Rabs (around (circP m m s s l)) <= PI * Rabs (legendre l m)).
    { apply around_bound; [apply ev_P|]. intros p. apply Hm. apply (between_range m m s s Hs Hs). }
    rewrite A, Rabs_mult, Rabs_mult, (Rabs_right PI) in G by (pose proof PI_RGT_0; lra).
    apply (Rmult_le_reg_l PI); [apply PI_RGT_0|exact G]. }
  pose proof (Rabs_pos (legendre l m)) as Q. specialize (Hm x Hx). simpl in Hm.
  assert (Rabs (legendre l m) <= 1) by nra. lra.
Qed.

(** * The generating function *)
Lemma n_pow_zero : forall t eps, 0 <= t < 1 -> 0 < eps -> exists N, forall n, (N <= n)%nat -> INR n * t ^ n <= eps.
Proof.
  intros t eps Ht He.
  destruct (Req_dec t 0) as [-> |Nt].
  { exists 1%nat. intros n Hn. rewrite pow_i by lia. lra. }
  set (s := sqrt t). assert (Hs : 0 < s) by (apply sqrt_lt_R0; lra).
  assert (S2 : s * s = t) by (apply sqrt_sqrt; lra).
  assert (S1 : s < 1) by nra.
  set (d := / s - 1). assert (Hd : 0 < d).
  { unfold d. assert (1 < / s); [|lra]. rewrite <- Rinv_1. apply Rinv_lt_contravar; lra. }
  destruct (pow_lt_1_zero s ltac:(rewrite Rabs_right; lra) (eps * d) ltac:(nra)) as [N HN].
  exists N. intros n Hn. specialize (HN n Hn). rewrite Rabs_right in HN by (apply Rle_ge, pow_le; lra).
  assert (E : 1 + INR n * d <= (1 + d) ^ n) by (apply poly; exact Hd).
  replace (1 + d) with (/ s) in E by (unfold d; ring). rewrite pow_inv in E.
  assert (Pn : 0 < s ^ n) by (apply pow_lt; lra).
  assert (F : INR n * d * s ^ n <= 1).
  { assert (G : (1 + INR n * d) * s ^ n <= / s ^ n * s ^ n) by (apply Rmult_le_compat_r; lra). rewrite Rinv_l in G by lra. nra. }
  rewrite <- S2, Rpow_mult_distr. apply (Rmult_le_reg_r d); [exact Hd|].
  replace (INR n * (s ^ n * s ^ n) * d) with ((INR n * d * s ^ n) * s ^ n) by ring.
  apply Rle_trans with (1 * s ^ n); [apply Rmult_le_compat_r; lra|lra].
Qed.

Definition part_sum (x t : R) (L : nat) : R := sumR (S L) (fun l => legendre l x * t ^ l).
Definition part_der (x t : R) (L : nat) : R := sumR (S L) (fun l => legendre l x * (INR l * t ^ pred l)).
Lemma part_derive : forall x L (t : R), is_derive (fun t : R => part_sum x t L) t (part_der x t L).
Proof.
  intros x L t. unfold part_sum, part_der. induction (S L) as [|n IH].
  - simpl. apply @is_derive_const.
  - apply (is_derive_ext (fun t : R => plus (sumR n (fun l => legendre l x * t ^ l)) (legendre n x * t ^ n))); [reflexivity|].
    simpl sumR. apply @is_derive_plus; [exact IH|]. auto_derive; auto. ring.
Qed.
Lemma remainder : forall x t L, part_der x t L * (1 - 2 * x * t + t ^ 2) - (x - t) * part_sum x t L
  = (INR L + 1) * t ^ L * (t * legendre L x - legendre (S L) x).
Proof.
  intros x t. induction L as [|L IH].
  - unfold part_der, part_sum. simpl sumR. rewrite legendre_0, legendre_1. simpl. ring.
  - assert (E1 : part_der x t (S L) = part_der x t L + legendre (S L) x * (INR (S L) * t ^ L)) by reflexivity.
    assert (E2 : part_sum x t (S L) = part_sum x t L + legendre (S L) x * t ^ S L) by reflexivity.
    rewrite E1, E2.
    replace ((part_der x t L + legendre (S L) x * (INR (S L) * t ^ L)) * (1 - 2 * x * t + t ^ 2) - (x - t) * (part_sum x t L + legendre (S L) x * t ^ S L))
      with ((part_der x t L * (1 - 2 * x * t + t ^ 2) - (x - t) * part_sum x t L)
            + legendre (S L) x * (INR (S L) * t ^ L * (1 - 2 * x * t + t ^ 2) - (x - t) * t ^ S L)) by ring.
    rewrite IH, !S_INR. pose proof (bonnet L x) as B.
    replace ((INR L + 1 + 1) * t ^ S L * (t * legendre (S L) x - legendre (S (S L)) x))
      with ((INR L + 2) * t ^ S L * t * legendre (S L) x - t ^ S L * ((INR L + 2) * legendre (S (S L)) x)) by ring.
    rewrite B. simpl pow. ring.
Qed.
Lemma quad_pos : forall x t, -1 <= x <= 1 -> 0 <= t < 1 -> (1 - t) ^ 2 <= 1 - 2 * x * t + t ^ 2.
Proof. intros x t Hx Ht. nra. Qed.

Lemma generating_near : forall x t L, -1 <= x <= 1 -> 0 <= t < 1 ->
  Rabs (part_sum x t L - / sqrt (1 - 2 * x * t + t ^ 2)) <= 2 * (INR L + 1) * t ^ S L / (1 - t) ^ 2.
Proof.
  intros x t L Hx Ht. pose proof (pos_INR L) as PL.
  set (w := fun t : R => sqrt (1 - 2 * x * t + t ^ 2)).
  assert (W : forall c, 0 <= c < 1 -> 1 - c <= w c).
  { intros c Hc. unfold w. rewrite <- (sqrt_Rsqr (1 - c)) by lra. apply sqrt_le_1_alt. unfold Rsqr.
    pose proof (quad_pos x c Hx Hc). nra. }
  assert (W2 : forall c, 0 <= c < 1 -> w c * w c = 1 - 2 * x * c + c ^ 2).
  { intros c Hc. apply sqrt_sqrt. pose proof (quad_pos x c Hx Hc). nra. }
  set (F := fun c : R => part_sum x c L * w c).
  set (dF := fun c : R => (INR L + 1) * c ^ L * (c * legendre L x - legendre (S L) x) / w c).
  assert (DF : forall c, 0 <= c < 1 -> is_derive F c (dF c)).
  { intros c Hc. pose proof (W c Hc) as Wc. pose proof (W2 c Hc) as W2c.
    assert (Dw : is_derive w c ((c - x) / w c)).
    { unfold w. auto_derive.
      - pose proof (quad_pos x c Hx Hc). assert (0 < (1 - c) ^ 2) by (apply pow_lt; lra). simpl in *. lra.
      - fold (w c). change (sqrt (1 + - (2 * x * c) + c * (c * 1))) with (w c). field. lra. }
    assert (M : is_derive F c (part_der x c L * w c + part_sum x c L * ((c - x) / w c))).
    { apply (is_derive_mult (fun c : R => part_sum x c L) w c (part_der x c L) ((c - x) / w c)); [apply part_derive|exact Dw|].
      intros; apply Rmult_comm. }
    replace (dF c) with (part_der x c L * w c + part_sum x c L * ((c - x) / w c)); [exact M|].
    unfold dF. rewrite <- remainder, <- W2c. field. lra. }
  assert (Bd : Rabs (F t - 1) <= 2 * (INR L + 1) * t ^ S L / (1 - t)).
  { destruct (MVT_gen F 0 t dF) as (c & Ic & E).
    - intros c Ic. apply DF. rewrite Rmin_left, Rmax_right in Ic; lra.
    - intros c Ic. rewrite Rmin_left, Rmax_right in Ic by lra. apply continuity_pt_filterlim.
      apply (ex_derive_continuous F). eexists. apply DF. lra.
    - rewrite Rmin_left, Rmax_right in Ic by lra.
      assert (F0 : F 0 = 1).
      { unfold F, w, part_sum. replace (1 - 2 * x * 0 + 0 ^ 2) with 1 by ring. rewrite sqrt_1.
        assert (Z : forall n, sumR (S n) (fun l => legendre l x * 0 ^ l) = 1).
        { induction n as [|n IH]; [simpl; rewrite legendre_0; ring|].
          change (sumR (S n) (fun l => legendre l x * 0 ^ l) + legendre (S n) x * 0 ^ S n = 1). rewrite IH. simpl. ring. }
        rewrite Z. ring. }
      rewrite F0 in E. rewrite E, Rminus_0_r, Rabs_mult, (Rabs_right t) by lra.
      assert (Hc : 0 <= c < 1) by lra. pose proof (W c Hc) as Wc.
      assert (Q : Rabs (dF c) <= 2 * (INR L + 1) * t ^ L / (1 - t)).
      { unfold dF, Rdiv. rewrite Rabs_mult. apply Rmult_le_compat; try apply Rabs_pos.
        - rewrite Rabs_mult. replace (2 * (INR L + 1) * t ^ L) with (((INR L + 1) * t ^ L) * 2) by ring.
          apply Rmult_le_compat; try apply Rabs_pos.
          + rewrite Rabs_right; [|apply Rle_ge, Rmult_le_pos; [lra|apply pow_le; lra]].
            apply Rmult_le_compat_l; [lra|]. apply pow_incr. lra.
          + pose proof (legendre_bound L x Hx) as B1. pose proof (legendre_bound (S L) x Hx) as B2.
            apply Rle_trans with (Rabs (c * legendre L x) + Rabs (legendre (S L) x)).
            * replace (Rabs (legendre (S L) x)) with (Rabs (- legendre (S L) x)) by apply Rabs_Ropp. apply Rabs_triang.
            * rewrite Rabs_mult, (Rabs_right c) by lra. pose proof (Rabs_pos (legendre L x)). nra.
        - rewrite Rabs_right; [|apply Rle_ge, Rlt_le, Rinv_0_lt_compat; lra]. apply Rinv_le_contravar; lra. }
      replace (2 * (INR L + 1) * t ^ S L / (1 - t)) with ((2 * (INR L + 1) * t ^ L / (1 - t)) * t) by (simpl; field; lra).
      apply Rmult_le_compat_r; lra. }
  pose proof (W t Ht) as Wt. fold (w t).
  replace (part_sum x t L - / w t) with ((F t - 1) * / w t) by (unfold F; field; lra).
  rewrite Rabs_mult, (Rabs_right (/ w t)) by (apply Rle_ge, Rlt_le, Rinv_0_lt_compat; lra).
  replace (2 * (INR L + 1) * t ^ S L / (1 - t) ^ 2) with ((2 * (INR L + 1) * t ^ S L / (1 - t)) * / (1 - t)) by (field; lra).
  apply Rmult_le_compat; [apply Rabs_pos|apply Rlt_le, Rinv_0_lt_compat; lra|exact Bd|apply Rinv_le_contravar; lra].
Qed.

Lemma part_gap : forall x t L M, -1 <= x <= 1 -> 0 <= t < 1 ->
  Rabs (part_sum x t (L + M) - part_sum x t L) <= t ^ S L / (1 - t) * (1 - t ^ M).
Proof.
  intros x t L M Hx Ht. induction M as [|M IH].
  - rewrite Nat.add_0_r, Rminus_eq_0, Rabs_R0. simpl. lra.
  - replace (L + S M)%nat with (S (L + M)) by lia.
    assert (E2 : part_sum x t (S (L + M)) = part_sum x t (L + M) + legendre (S (L + M)) x * t ^ S (L + M)) by reflexivity.
    rewrite E2. replace (part_sum x t (L + M) + legendre (S (L + M)) x * t ^ S (L + M) - part_sum x t L)
      with ((part_sum x t (L + M) - part_sum x t L) + legendre (S (L + M)) x * t ^ S (L + M)) by ring.
    eapply Rle_trans; [apply Rabs_triang|].
    assert (T : Rabs (legendre (S (L + M)) x * t ^ S (L + M)) <= t ^ S L * t ^ M).
    { rewrite Rabs_mult, (Rabs_right (t ^ _)) by (apply Rle_ge, pow_le; lra).
      replace (S (L + M)) with (S L + M)%nat at 2 by lia. rewrite pow_add.
      pose proof (legendre_bound (S (L + M)) x Hx). assert (0 <= t ^ S L * t ^ M) by (apply Rmult_le_pos; apply pow_le; lra). nra. }
    replace (t ^ S L / (1 - t) * (1 - t ^ S M)) with (t ^ S L / (1 - t) * (1 - t ^ M) + t ^ S L * t ^ M) by (simpl; field; lra).
    lra.
Qed.

(** The multipole series of the inverse distance, with its tail. *)
Lemma generating : forall x t L, -1 <= x <= 1 -> 0 <= t < 1 ->
  Rabs (/ sqrt (1 - 2 * x * t + t ^ 2) - part_sum x t L) <= t ^ S L / (1 - t).
Proof.
  intros x t L Hx Ht. apply Rnot_lt_le. intros H.
  set (e := Rabs (/ sqrt (1 - 2 * x * t + t ^ 2) - part_sum x t L) - t ^ S L / (1 - t)).
  assert (He : 0 < e) by (unfold e; lra).
  destruct (n_pow_zero t (e * (1 - t) ^ 2 / 4) Ht) as [N HN].
  { apply Rmult_lt_0_compat; [apply Rmult_lt_0_compat; [lra|apply pow_lt; lra]|lra]. }
  set (M := (N + 1)%nat). assert (HM : INR (S (L + M)) * t ^ S (L + M) <= e * (1 - t) ^ 2 / 4) by (apply HN; unfold M; lia).
  pose proof (generating_near x t (L + M) Hx Ht) as A. pose proof (part_gap x t L M Hx Ht) as B.
  rewrite S_INR in HM.
  assert (A' : Rabs (part_sum x t (L + M) - / sqrt (1 - 2 * x * t + t ^ 2)) <= e / 2).
  { eapply Rle_trans; [exact A|]. apply (Rmult_le_reg_r ((1 - t) ^ 2)); [apply pow_lt; lra|].
    replace (2 * (INR (L + M) + 1) * t ^ S (L + M) / (1 - t) ^ 2 * (1 - t) ^ 2) with (2 * ((INR (L + M) + 1) * t ^ S (L + M))) by (field; lra). lra. }
  assert (B' : t ^ S L / (1 - t) * (1 - t ^ M) <= t ^ S L / (1 - t)).
  { assert (0 <= t ^ S L / (1 - t)) by (apply Rmult_le_pos; [apply pow_le; lra|apply Rlt_le, Rinv_0_lt_compat; lra]).
    assert (0 <= t ^ M) by (apply pow_le; lra). nra. }
  assert (T : Rabs (/ sqrt (1 - 2 * x * t + t ^ 2) - part_sum x t L)
    <= Rabs (part_sum x t (L + M) - / sqrt (1 - 2 * x * t + t ^ 2)) + Rabs (part_sum x t (L + M) - part_sum x t L)).
  { replace (/ sqrt (1 - 2 * x * t + t ^ 2) - part_sum x t L)
      with (- (part_sum x t (L + M) - / sqrt (1 - 2 * x * t + t ^ 2)) + (part_sum x t (L + M) - part_sum x t L)) by ring.
    eapply Rle_trans; [apply Rabs_triang|]. rewrite Rabs_Ropp. lra. }
  unfold e in *. lra.
Qed.
