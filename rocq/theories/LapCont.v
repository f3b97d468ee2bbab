(** The continuous identity behind the discrete Laplacian. *)
From Coq Require Import Reals Lra.
From Coquelicot Require Import Coquelicot.
From Verif Require Import Base GridModel GridSpec GridProofs.
Local Open Scope R_scope.
Local Opaque sinh cosh.

(** u has continuous-type second derivatives: total differentials of u, u_Z and u_Y. *)
Definition twice_diff (u uz uy uzz uzy uyy : R -> R -> R) : Prop :=
  forall z y, differentiable_pt_lim u z y (uz z y) (uy z y) /\
              differentiable_pt_lim uz z y (uzz z y) (uzy z y) /\
              differentiable_pt_lim uy z y (uzy z y) (uyy z y).

Lemma is_derive_cosh : forall x, is_derive cosh x (sinh x).
Proof. intros. apply is_derive_Reals, derivable_pt_lim_cosh. Qed.
Lemma is_derive_sinh : forall x, is_derive sinh x (cosh x).
Proof. intros. apply is_derive_Reals, derivable_pt_lim_sinh. Qed.

Lemma chain2 : forall (f : R -> R -> R) (g h : R -> R) x lx ly dg dh,
  differentiable_pt_lim f (g x) (h x) lx ly -> is_derive g x dg -> is_derive h x dh ->
  is_derive (fun t => f (g t) (h t)) x (lx * dg + ly * dh).
Proof.
  intros. apply is_derive_Reals. apply derivable_pt_lim_comp_2d; auto; apply is_derive_Reals; auto.
Qed.

Section Lap.
Variables (u uz uy uzz uzy uyy : R -> R -> R).
Hypothesis Hu : twice_diff u uz uy uzz uzy uyy.
Variable a : R.
Let Z t m := a * cosh m * cos t.
Let Y t m := a * sinh m * sin t.

Lemma dZt : forall m t, is_derive (fun t : R => Z t m) t (- (a * cosh m * sin t)).
Proof. intros. unfold Z. auto_derive; auto. ring. Qed.
Lemma dYt : forall m t, is_derive (fun t : R => Y t m) t (a * sinh m * cos t).
Proof. intros. unfold Y. auto_derive; auto. ring. Qed.
Lemma dZm : forall t m, is_derive (fun m : R => Z t m) m (a * sinh m * cos t).
Proof.
  intros. unfold Z.
  eapply is_derive_ext with (f := fun m => (a * cos t) * cosh m); [intros; simpl; ring|].
  replace (a * sinh m * cos t) with (scal (a * cos t) (sinh m)) by (unfold scal; simpl; unfold mult; simpl; ring).
  apply is_derive_scal. apply is_derive_cosh.
Qed.
Lemma dYm : forall t m, is_derive (fun m : R => Y t m) m (a * cosh m * sin t).
Proof.
  intros. unfold Y.
  eapply is_derive_ext with (f := fun m => (a * sin t) * sinh m); [intros; simpl; ring|].
  replace (a * cosh m * sin t) with (scal (a * sin t) (cosh m)) by (unfold scal; simpl; unfold mult; simpl; ring).
  apply is_derive_scal. apply is_derive_sinh.
Qed.

Let F t m := u (Z t m) (Y t m).

Lemma F_t : forall m t, is_derive (fun t => F t m) t
  (uz (Z t m) (Y t m) * - (a * cosh m * sin t) + uy (Z t m) (Y t m) * (a * sinh m * cos t)).
Proof.
  intros. unfold F. apply (chain2 u (fun t => Z t m) (fun t => Y t m)); [apply Hu|apply dZt|apply dYt].
Qed.
Lemma F_m : forall t m, is_derive (fun m => F t m) m
  (uz (Z t m) (Y t m) * (a * sinh m * cos t) + uy (Z t m) (Y t m) * (a * cosh m * sin t)).
Proof.
  intros. unfold F. apply (chain2 u (fun m => Z t m) (fun m => Y t m)); [apply Hu|apply dZm|apply dYm].
Qed.

Lemma F_tt : forall m t, is_derive_n (fun t => F t m) 2 t
  ((uzz (Z t m) (Y t m) * - (a * cosh m * sin t) + uzy (Z t m) (Y t m) * (a * sinh m * cos t)) * - (a * cosh m * sin t)
   + uz (Z t m) (Y t m) * - (a * cosh m * cos t)
   + (uzy (Z t m) (Y t m) * - (a * cosh m * sin t) + uyy (Z t m) (Y t m) * (a * sinh m * cos t)) * (a * sinh m * cos t)
   + uy (Z t m) (Y t m) * - (a * sinh m * sin t)).
Proof.
  intros m t.
  apply (is_derive_ext (fun t => uz (Z t m) (Y t m) * - (a * cosh m * sin t) + uy (Z t m) (Y t m) * (a * sinh m * cos t))).
  { intros s. symmetry. apply is_derive_unique, F_t. }
  assert (A1 : is_derive (fun t => uz (Z t m) (Y t m)) t
      (uzz (Z t m) (Y t m) * - (a * cosh m * sin t) + uzy (Z t m) (Y t m) * (a * sinh m * cos t)))
    by (apply (chain2 uz (fun t => Z t m) (fun t => Y t m)); [apply Hu|apply dZt|apply dYt]).
  assert (A2 : is_derive (fun t => uy (Z t m) (Y t m)) t
      (uzy (Z t m) (Y t m) * - (a * cosh m * sin t) + uyy (Z t m) (Y t m) * (a * sinh m * cos t)))
    by (apply (chain2 uy (fun t => Z t m) (fun t => Y t m)); [apply Hu|apply dZt|apply dYt]).
  assert (B1 : is_derive (fun t => - (a * cosh m * sin t)) t (- (a * cosh m * cos t))) by (auto_derive; auto; ring).
  assert (B2 : is_derive (fun t => a * sinh m * cos t) t (- (a * sinh m * sin t))) by (auto_derive; auto; ring).
  pose proof (is_derive_mult _ _ _ _ _ A1 B1 Rmult_comm) as C1.
  pose proof (is_derive_mult _ _ _ _ _ A2 B2 Rmult_comm) as C2.
  pose proof (is_derive_plus _ _ _ _ _ C1 C2) as D.
  eapply is_derive_ext; [|eapply eq_rect; [exact D|]].
  - intros s. reflexivity.
  - unfold plus, mult; simpl. ring.
Qed.
Lemma F_mm : forall t m, is_derive_n (fun m => F t m) 2 m
  ((uzz (Z t m) (Y t m) * (a * sinh m * cos t) + uzy (Z t m) (Y t m) * (a * cosh m * sin t)) * (a * sinh m * cos t)
   + uz (Z t m) (Y t m) * (a * cosh m * cos t)
   + (uzy (Z t m) (Y t m) * (a * sinh m * cos t) + uyy (Z t m) (Y t m) * (a * cosh m * sin t)) * (a * cosh m * sin t)
   + uy (Z t m) (Y t m) * (a * sinh m * sin t)).
Proof.
  intros t m.
  apply (is_derive_ext (fun m => uz (Z t m) (Y t m) * (a * sinh m * cos t) + uy (Z t m) (Y t m) * (a * cosh m * sin t))).
  { intros s. symmetry. apply is_derive_unique, F_m. }
  assert (A1 : is_derive (fun m => uz (Z t m) (Y t m)) m
      (uzz (Z t m) (Y t m) * (a * sinh m * cos t) + uzy (Z t m) (Y t m) * (a * cosh m * sin t)))
    by (apply (chain2 uz (fun m => Z t m) (fun m => Y t m)); [apply Hu|apply dZm|apply dYm]).
  assert (A2 : is_derive (fun m => uy (Z t m) (Y t m)) m
      (uzy (Z t m) (Y t m) * (a * sinh m * cos t) + uyy (Z t m) (Y t m) * (a * cosh m * sin t)))
    by (apply (chain2 uy (fun m => Z t m) (fun m => Y t m)); [apply Hu|apply dZm|apply dYm]).
  assert (B1 : is_derive (fun m => a * sinh m * cos t) m (a * cosh m * cos t)) by
    (eapply is_derive_ext with (f := fun m => (a * cos t) * sinh m); [intros; simpl; ring|];
     replace (a * cosh m * cos t) with (scal (a * cos t) (cosh m)) by (unfold scal; simpl; unfold mult; simpl; ring);
     apply is_derive_scal, is_derive_sinh).
  assert (B2 : is_derive (fun m => a * cosh m * sin t) m (a * sinh m * sin t)) by
    (eapply is_derive_ext with (f := fun m => (a * sin t) * cosh m); [intros; simpl; ring|];
     replace (a * sinh m * sin t) with (scal (a * sin t) (sinh m)) by (unfold scal; simpl; unfold mult; simpl; ring);
     apply is_derive_scal, is_derive_cosh).
  pose proof (is_derive_mult _ _ _ _ _ A1 B1 Rmult_comm) as C1.
  pose proof (is_derive_mult _ _ _ _ _ A2 B2 Rmult_comm) as C2.
  pose proof (is_derive_plus _ _ _ _ _ C1 C2) as D.
  eapply is_derive_ext; [|eapply eq_rect; [exact D|]].
  - intros s. reflexivity.
  - unfold plus, mult; simpl. ring.
Qed.

Lemma lap_identity : forall t m, 0 < a -> 0 < t < PI -> 0 < m ->
  a * (sinh m * (sin t * Derive_n (fun t => F t m) 2 t + cos t * Derive (fun t => F t m) t)
     + sin t * (sinh m * Derive_n (fun m => F t m) 2 m + cosh m * Derive (fun m => F t m) m))
  = a ^ 3 * sin t * sinh m * (sin t ^ 2 + sinh m ^ 2)
    * (uzz (Z t m) (Y t m) + uyy (Z t m) (Y t m) + uy (Z t m) (Y t m) / Y t m).
Proof.
  intros t m Ha Ht Hm.
  rewrite (is_derive_n_unique _ _ _ _ (F_tt m t)), (is_derive_n_unique _ _ _ _ (F_mm t m)).
  assert (E1 : Derive (fun t : R => F t m) t = _) by exact (is_derive_unique _ _ _ (F_t m t)).
  assert (E2 : Derive (fun m : R => F t m) m = _) by exact (is_derive_unique _ _ _ (F_m t m)).
  rewrite E1, E2. clear E1 E2.
  pose proof (sin_pos_0PI t Ht). pose proof (sinh_pos m Hm).
  pose proof (cosh2_sinh2 m) as EC. pose proof (sin2c t) as ES.
  set (A := uzz (Z t m) (Y t m)). set (B := uyy (Z t m) (Y t m)). set (C := uy (Z t m) (Y t m)).
  set (D := uz (Z t m) (Y t m)). set (E := uzy (Z t m) (Y t m)). unfold Y.
  assert (EC2 : cos t ^ 2 = 1 - sin t ^ 2) by lra.
  set (s := sin t) in *. set (c := cos t) in *. set (S := sinh m) in *. set (K := cosh m) in *.
  replace (a ^ 3 * s * S * (s ^ 2 + S ^ 2) * (A + B + C / (a * S * s)))
    with (a ^ 3 * s * S * (s ^ 2 + S ^ 2) * (A + B) + a ^ 2 * (s ^ 2 + S ^ 2) * C).
  2:{ field. lra. }
  match goal with |- ?l = _ => replace l with
    (a ^ 3 * s * S * (A * (K ^ 2 * s ^ 2 + S ^ 2 * c ^ 2) + B * (S ^ 2 * c ^ 2 + K ^ 2 * s ^ 2))
     + a ^ 2 * C * (S ^ 2 * c ^ 2 + K ^ 2 * s ^ 2)) by ring end.
  rewrite EC, EC2. ring.
Qed.
End Lap.
