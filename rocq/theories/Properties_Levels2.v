(** Property C126: the weight of the orthogonality of levels and the volume element. *)
From Coq Require Import Reals List Arith Lia Lra ZArith Bool.
From Verif Require Import Base BaseLemmas GridModel Poly GridSpec GridProofs FDProofs AxisProofs GridWitness GridMore SolverModel SolverSpec SolverThms
  ZMatrix ZSym Ground GroundThms GroundSolve GroundSym BalanceErr HartreeThms Properties_Ground.
Import ListNotations.
Local Open Scope R_scope.
Local Opaque sinh cosh.

(** * C126 *)
(** With h_a = pi / Na and h_r = L / Nr the weight lies between exp(- s) and exp(s + t), where s = h_a^2 (1 + ln Na) / 2 and
    t = h_r^2 (L + 1 + ln Nr): it tends to one with the squared spacings up to a logarithm. *)
Theorem C126_weight : forall g k, three_point g -> (k < Nelem g)%nat ->
  let s := (PI / INR (Na g)) ^ 2 / 2 * (1 + ln (INR (Na g))) in let t := (gL g / INR (Nr g)) ^ 2 * (gL g + 1 + ln (INR (Nr g))) in
  exp (- s) <= balance g k <= exp (s + t).
Proof. intros g k T K. exact (balance_near g T k K). Qed.
Print Assumptions C126_weight.
(** Along the radial coordinate it never falls. *)
Theorem C126_radial : forall g i j ia, three_point g -> (ia < Na g)%nat -> (i <= j)%nat -> (j < Nr g)%nat -> balance g (pos g ia i) <= balance g (pos g ia j).
Proof. intros g i j ia T. exact (balance_radial g T i j ia). Qed.
Print Assumptions C126_radial.
(** Orbitals of different levels are orthogonal for the plain volume element up to that order. *)
Theorem C126_orthogonal : forall g m v e e' p q, three_point g -> eigenpair g (hamiltonian g m) v e p -> eigenpair g (hamiltonian g m) v e' q -> e <> e' ->
  sumR (Nelem g) (fun k => gw g k * (p k * p k)) = 1 -> sumR (Nelem g) (fun k => gw g k * (q k * q k)) = 1 ->
  let s := (PI / INR (Na g)) ^ 2 / 2 * (1 + ln (INR (Na g))) in let t := (gL g / INR (Nr g)) ^ 2 * (gL g + 1 + ln (INR (Nr g))) in
  Rabs (sumR (Nelem g) (fun k => gw g k * (p k * q k))) <= exp (s + t) - 1.
Proof. intros g m v e e' p q T P Q N P1 Q1. pose proof (near_orthogonal g T m v e e' p q P Q N) as H. rewrite P1, Q1 in H. unfold slack_a, slack_r in H. cbv zeta. lra. Qed.
Print Assumptions C126_orthogonal.
(** Where the potential does not fall anywhere, the lowest level does not fall and rises at most by the mean of the rise over the
    density of the old lowest orbital, up to that order. *)
Theorem C126_first_order : forall g m v v' a a' u u', three_point g -> ground g m v a u -> ground g m v' a' u' -> (forall k, (k < Nelem g)%nat -> v k <= v' k) ->
  sumR (Nelem g) (fun k => gw g k * (u k * u k)) = 1 ->
  let s := (PI / INR (Na g)) ^ 2 / 2 * (1 + ln (INR (Na g))) in let t := (gL g / INR (Nr g)) ^ 2 * (gL g + 1 + ln (INR (Nr g))) in
  0 <= a' - a <= exp (2 * s + t) * sumR (Nelem g) (fun k => gw g k * ((v' k - v k) * (u k * u k))).
Proof.
  intros g m v v' a a' u u' T G G' V U. pose proof (near_first_order g T m v v' a a' u u' G G' V) as H. rewrite U in H. unfold slack_a, slack_r in H. cbv zeta.
  assert (D : forall x, x / 1 = x) by (intros; field). rewrite D in H. exact H.
Qed.
Print Assumptions C126_first_order.
(** Two normalised orbitals of different levels, and a pair of potentials of which one lies above the other. *)
Lemma C126_witness : three_point g3p /\
  (exists v e e' p q, eigenpair g3p (hamiltonian g3p 1) v e p /\ eigenpair g3p (hamiltonian g3p 1) v e' q /\ e <> e' /\
     sumR (Nelem g3p) (fun k => gw g3p k * (p k * p k)) = 1 /\ sumR (Nelem g3p) (fun k => gw g3p k * (q k * q k)) = 1) /\
  exists u, ground g3p 1 (v_flat g3p 1 2) 2 u /\ sumR (Nelem g3p) (fun k => gw g3p k * (u k * u k)) = 1 /\ ground g3p 1 (v_flat g3p 1 3) 3 (fun _ => 1) /\ forall k, v_flat g3p 1 2 k <= v_flat g3p 1 3 k.
Proof.
  destruct C119_witness as (T & G & _). destruct C122_witness as (_ & (a & u & A & B & D) & _).
  assert (X : forall p, (exists k, (k < Nelem g3p)%nat /\ p k <> 0) -> exists c, 0 < c /\ sumR (Nelem g3p) (fun k => gw g3p k * (c * p k * (c * p k))) = 1).
  { intros p (k & K & N). set (s := sumR (Nelem g3p) (fun k => gw g3p k * (p k * p k))). assert (P : 0 < s).
    { apply Rlt_le_trans with (gw g3p k * (p k * p k)); [apply Rmult_lt_0_compat; [apply gw_pos; [apply g3p_ok|exact K]|apply Rsqr_pos_lt, N]|].
      apply (NCSigns.term_le (Nelem g3p) (fun k => gw g3p k * (p k * p k)) k K). intros i I0. apply Rmult_le_pos; [left; apply gw_pos; [apply g3p_ok|exact I0]|]. pose proof (Rle_0_sqr (p i)) as Z. exact Z. }
    exists (/ sqrt s). pose proof (sqrt_lt_R0 s P) as Q. split; [apply Rinv_0_lt_compat, Q|].
    rewrite (sumR_ext _ _ (fun k => / sqrt s * / sqrt s * (gw g3p k * (p k * p k)))) by (intros; ring). rewrite sumR_scal. fold s. rewrite <- (sqrt_sqrt s) at 3 by lra. field. lra. }
  assert (Y : forall v e p c, eigenpair g3p (hamiltonian g3p 1) v e p -> eigenpair g3p (hamiltonian g3p 1) v e (fun k => c * p k)).
  { intros v e p c H k K. rewrite (sumR_ext _ _ (fun j => c * (hamiltonian g3p 1 k j * p j))) by (intros; ring). rewrite sumR_scal. pose proof (H k K) as Z. cbv beta in Z. nra. }
  assert (Z : forall p, nodeless g3p p -> exists k, (k < Nelem g3p)%nat /\ p k <> 0) by (intros p P; exists 0%nat; split; [apply Nelem_pos|apply Rgt_not_eq, P, Nelem_pos]).
  split; [exact T|]. split.
  - destruct (X u (Z u (proj1 A))) as (c & _ & C). destruct (X signs) as (d & _ & E). { exists 0%nat. split; [apply Nelem_pos|]. unfold signs. cbn. lra. }
    exists (v_bad g3p 1 2), a, 2, (fun k => c * u k), (fun k => d * signs k). split; [apply Y, A|]. split; [apply Y, B|]. auto.
  - destruct (X (fun _ => 1)) as (c & P & C). { exists 0%nat. split; [apply Nelem_pos|lra]. } destruct (G 1%Z 2) as [_ G2].
    exists (fun k => c * 1). split; [split; [intros k _; lra|apply Y, G2]|]. split; [exact C|]. split; [apply G|]. intros k. unfold v_flat. lra.
Qed.
