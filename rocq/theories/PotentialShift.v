(** Answer of the density of one orbital to a change of the potential. *)
From Coq Require Import Reals List Arith Lia Lra ZArith Bool String.
From Verif Require Import Base BaseLemmas GridModel GridSpec GridProofs SolverModel SolverSpec SolverProofs KSModel KSSpec GroundThms GroundSym Binding DensityMap.
Import ListNotations.
Local Open Scope R_scope.

(** Mean of f in the density n, with the weights in which the discrete Hamiltonian is symmetric. *)
Definition mean (g : grid) (n f : vec) : R := sumR (Nelem g) (fun x => balance g x * gw g x * (n x * f x)) / sumR (Nelem g) (fun x => balance g x * gw g x * n x).

Lemma mean_ext : forall g n n' f f', (forall x, (x < Nelem g)%nat -> n x = n' x) -> (forall x, (x < Nelem g)%nat -> f x = f' x) -> mean g n f = mean g n' f'.
Proof. intros g n n' f f' H F. unfold mean. unfold Rdiv. rewrite (sumR_ext (Nelem g) (fun x => balance g x * gw g x * n x) (fun x => balance g x * gw g x * n' x)) by (intros x Hx; rewrite (H x Hx); reflexivity). f_equal. apply sumR_ext. intros x Hx. rewrite (H x Hx), (F x Hx). reflexivity. Qed.
Lemma mean_scal : forall g n f c, mean g n (fun x => c * f x) = c * mean g n f.
Proof. intros. unfold mean, Rdiv. rewrite (sumR_ext _ _ (fun x => c * (balance g x * gw g x * (n x * f x)))) by (intros; ring). rewrite sumR_scal. ring. Qed.
Section Pair.
Variable g : grid.
Hypothesis T3 : three_point g.
Lemma wdot_ground : forall m v a u, ground g m v a u -> 0 < wdot g u u.
Proof. intros m v a u (U & _). apply wdot_pos; auto. apply nodeless_somewhere; auto. Qed.
Lemma level_change : forall m v v' a a' u u', ground g m v a u -> ground g m v' a' u' ->
  a' - a <= mean g (fun x => u x ^ 2) (fun x => v' x - v x) /\ (a' - a = mean g (fun x => u x ^ 2) (fun x => v' x - v x) -> forall x, (x < Nelem g)%nat -> v' x - v x = a' - a).
Proof.
  intros m v v' a a' u u' G G'. pose proof (wdot_ground m v a u G) as W.
  assert (ME : mean g (fun x => u x ^ 2) (fun x => v' x - v x) * wdot g u u = wdot g (fun x => (v' x - v x) * u x) u).
  { unfold mean, wdot in *. rewrite (sumR_ext _ (fun x => balance g x * gw g x * u x ^ 2) (fun k => balance g k * gw g k * (u k * u k))) by (intros; ring). unfold Rdiv. rewrite Rmult_assoc, Rinv_l by lra. rewrite Rmult_1_r. apply sumR_ext. intros. ring. }
  assert (WE : wenergy g m v' u = a * wdot g u u + wdot g (fun x => (v' x - v x) * u x) u).
  { unfold wenergy, wdot. rewrite <- sumR_scal, <- sumR_plus. apply sumR_ext. intros x Hx. unfold happ. pose proof (proj2 G x Hx) as E. cbv beta in E.
    replace (sumR (Nelem g) (fun j => hamiltonian g m x j * u j)) with (a * gw g x * u x - gw g x * v x * u x) by lra. ring. }
  destruct (ground_rayleigh g T3 m v' a' u' u G') as (Q1 & Q2). rewrite WE, <- ME in Q1, Q2. set (M := mean _ _ _) in *. split; [nra|]. intros EQ.
  destruct (proj1 Q2) as (c & C); [rewrite <- EQ; ring|]. intros x Hx. pose proof (proj2 G x Hx) as E. pose proof (proj2 G' x Hx) as E'. cbv beta in E, E'.
  assert (S : sumR (Nelem g) (fun j => hamiltonian g m x j * u j) = c * sumR (Nelem g) (fun j => hamiltonian g m x j * u' j)) by (rewrite <- sumR_scal; apply sumR_ext; intros y Hy; rewrite (C y Hy); ring).
  pose proof (proj1 G x Hx) as UX. pose proof (gw_pos g x (proj1 T3) Hx) as GX. rewrite S in E. assert (S' : c * sumR (Nelem g) (fun j => hamiltonian g m x j * u' j) = c * (a' * gw g x * u' x - gw g x * v' x * u' x)) by (f_equal; lra).
  rewrite S' in E. replace (c * (a' * gw g x * u' x - gw g x * v' x * u' x)) with (gw g x * (a' - v' x) * (c * u' x)) in E by ring. rewrite <- (C x Hx) in E.
  assert (Q : gw g x * u x * (v' x - v x - (a' - a)) = 0) by lra. apply Rmult_integral in Q. destruct Q as [Q|Q]; [|lra]. apply Rmult_integral in Q. lra.
Qed.
Theorem potential_shift : forall m v v' a a' u u', ground g m v a u -> ground g m v' a' u' ->
  let D := fun x => v' x - v x in mean g (fun x => u' x ^ 2) D <= a' - a <= mean g (fun x => u x ^ 2) D /\ (mean g (fun x => u' x ^ 2) D = mean g (fun x => u x ^ 2) D -> forall x, (x < Nelem g)%nat -> D x = a' - a).
Proof.
  intros m v v' a a' u u' G G'. cbv zeta. destruct (level_change m v v' a a' u u' G G') as (L1 & L2). destruct (level_change m v' v a' a u' u G' G) as (L3 & _).
  rewrite (mean_ext g (fun x => u' x ^ 2) (fun x => u' x ^ 2) (fun x => v x - v' x) (fun x => -1 * (v' x - v x))) in L3 by (intros; ring). rewrite mean_scal in L3.
  split; [lra|]. intros Q. apply L2. lra.
Qed.
End Pair.
