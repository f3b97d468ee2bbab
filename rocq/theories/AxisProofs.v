(** axis_plot (CADMium/psgrid/psgrid.py:278-306). *)
From Coq Require Import Reals List Arith Lia Lra ZArith Bool Permutation Sorted.
From Verif Require Import Base BaseLemmas GridModel Poly GridSpec GridProofs.
Import ListNotations.
Local Open Scope R_scope.
Local Opaque sinh cosh.

(** The points that are plotted: the whole innermost ellipsoid (its first point once more), then
    for each further ellipsoid q the last point of the previous one and its own first point. *)
Definition axis_points (g : grid) : list nat :=
  0%nat :: seq 0 (Na g) ++ flat_map (fun q => [pos g (Na g - 1) (q - 1); pos g 0 q]) (seq 1 (Nr g - 1)).

(** np.argsort(xs): a permutation of the positions that sorts xs. *)
Definition argsort_ok (xs : list R) (perm : list nat) : Prop :=
  Permutation perm (seq 0 (length xs)) /\ StronglySorted Rle (map (fun p => nth p xs 0) perm).

Lemma Na_ge2 : forall g, grid_ok g -> (2 <= Na g)%nat.
Proof.
  intros g (H1 & H2 & _). unfold Na.
  assert (1 * 1 <= (gNP g - 1) * gNMa g)%nat by (apply Nat.mul_le_mono; lia). lia.
Qed.
Lemma Nr_ge2 : forall g, grid_ok g -> (2 <= Nr g)%nat.
Proof.
  intros g (H1 & _ & H2 & _). unfold Nr.
  assert (1 * 1 <= (gNP g - 1) * gNMr g)%nat by (apply Nat.mul_le_mono; lia). lia.
Qed.

Lemma node_inj : forall n len i j, (0 < n)%nat -> 0 < len -> node n len i = node n len j -> i = j.
Proof.
  intros n len i j Hn Hl E. unfold node in E. assert (0 < INR n) by (apply lt_0_INR; auto).
  apply INR_eq. unfold Rdiv in E. apply Rmult_eq_reg_r in E; [|apply Rinv_neq_0_compat; lra].
  apply Rmult_eq_reg_r in E; lra.
Qed.

Lemma Z_end : forall g ia ir, grid_ok g -> is_point g ia ir ->
  (gZ g (pos g ia ir) = -1 * gZ g (pos g 0 ir) <-> ia = (Na g - 1)%nat).
Proof.
  intros g ia ir Hg [Ha Hr].
  assert (H0 : is_point g 0 ir) by (split; [apply Na_pos|auto]).
  rewrite !gZ_val by (apply pos_lt; auto; split; auto).
  rewrite !Xa_pos, !Xr_pos by (auto; split; auto).
  pose proof (cosh_pos (xr g ir)). assert (0 < ga g) by apply Hg.
  assert (HP : 0 < ga g * cosh (xr g ir)) by (apply Rmult_lt_0_compat; auto).
  pose proof (xa_range g ia Ha) as RA. pose proof (xa_range g 0 (Na_pos g)) as R0.
  pose proof (xa_reflect g 0 (Na_pos g)) as RR. rewrite Nat.sub_0_r in RR.
  split.
  - intros E.
    assert (E1 : cos (xa g ia) = cos (xa g (Na g - 1)%nat)).
    { rewrite RR, cos_PI_minus. apply Rmult_eq_reg_l with (ga g * cosh (xr g ir)); lra. }
    assert (RL : 0 < xa g (Na g - 1)%nat < PI) by (apply xa_range; pose proof (Na_pos g); lia).
    assert (E2 : xa g ia = xa g (Na g - 1)%nat).
    { destruct (Rtotal_order (xa g ia) (xa g (Na g - 1)%nat)) as [L|[L|L]]; auto.
      - apply cos_decreasing_1 in L; lra.
      - apply cos_decreasing_1 in L; lra. }
    rewrite !xa_node in E2 by (pose proof (Na_pos g); lia).
    apply node_inj in E2; auto; [apply Na_pos|apply PI_RGT_0].
  - intros ->. rewrite RR, cos_PI_minus. ring.
Qed.

Lemma axis_inner : forall g, grid_ok g -> forall k, (k < Na g)%nat ->
  axis_loop (gZ g) k (mkAx (gZ g 0%nat) true [0%nat])
  = mkAx (gZ g 0%nat) true (rev (seq 0 k) ++ [0%nat]).
Proof.
  intros g Hg. induction k; intros Hk; [reflexivity|].
  cbn [axis_loop]. rewrite IHk by lia. unfold axis_step. cbn [ax_initial ax_single ax_out].
  destruct (Req_EM_T _ _) as [E|E].
  - exfalso. pose proof (proj1 (Z_end g k 0 Hg ltac:(split; [lia|apply Nr_pos]))) as Q.
    unfold pos in Q. rewrite Nat.mul_0_r, !Nat.add_0_r in Q. specialize (Q E). lia.
  - rewrite seq_S, rev_app_distr. reflexivity.
Qed.

Lemma axis_outer : forall g, grid_ok g -> forall q r, (r < Na g)%nat -> (S q < Nr g)%nat ->
  axis_loop (gZ g) (r + Na g * (S q)) (mkAx (gZ g 0%nat) true [0%nat])
  = mkAx (gZ g (pos g 0 (S q))) false
      (rev (0%nat :: seq 0 (Na g) ++ flat_map (fun q => [pos g (Na g - 1) (q - 1); pos g 0 q]) (seq 1 (S q)))).
Proof.
  intros g Hg. pose proof (Na_ge2 g Hg) as H2.
  assert (STEP : forall q s0 st,
     axis_loop (gZ g) (Na g - 1 + Na g * q) s0 = st -> ax_single st = gZ g (pos g 0 q) -> (q < Nr g)%nat ->
     axis_loop (gZ g) (Na g * (S q)) s0
     = mkAx (gZ g (pos g 0 (S q))) false
         (pos g 0 (S q) :: pos g (Na g - 1) q :: (if ax_initial st then pos g (Na g - 1) q :: ax_out st else ax_out st))).
  { intros q s0 st E1 E2 Hq. replace (Na g * S q)%nat with (S (Na g - 1 + Na g * q)) by nia.
    cbn [axis_loop]. rewrite E1. unfold axis_step. fold (pos g (Na g - 1) q).
    destruct (Req_EM_T _ _) as [E|E].
    - replace (pos g (Na g - 1) q + 1)%nat with (pos g 0 (S q)) by (unfold pos; nia). reflexivity.
    - exfalso. apply E. rewrite E2. apply (Z_end g); auto. split; lia. }
  assert (FIN : forall q r st, (r < Na g)%nat -> (S q < Nr g)%nat ->
     axis_loop (gZ g) (Na g * S q) st = mkAx (gZ g (pos g 0 (S q))) false (ax_out (axis_loop (gZ g) (Na g * S q) st)) ->
     axis_loop (gZ g) (r + Na g * S q) st = axis_loop (gZ g) (Na g * S q) st).
  { intros q r st. induction r; intros Hr Hq E; [reflexivity|].
    change (S r + Na g * S q)%nat with (S (r + Na g * S q)). cbn [axis_loop].
    rewrite IHr by (auto; lia). rewrite E. unfold axis_step. cbn [ax_single ax_initial ax_out].
    destruct (Req_EM_T _ _) as [E'|E']; [|reflexivity].
    exfalso. pose proof (proj1 (Z_end g r (S q) Hg ltac:(split; lia))) as Q. unfold pos at 1 in Q. specialize (Q E'). lia. }
  induction q; intros r Hr Hq.
  - set (s0 := mkAx (gZ g 0%nat) true [0%nat]).
    assert (S1 := STEP 0%nat s0 (mkAx (gZ g 0%nat) true (rev (seq 0 (Na g - 1)) ++ [0%nat]))).
    rewrite Nat.mul_0_r, Nat.add_0_r in S1.
    specialize (S1 (axis_inner g Hg (Na g - 1)%nat ltac:(lia))). cbn [ax_single ax_initial ax_out] in S1.
    specialize (S1 ltac:(unfold pos; rewrite Nat.mul_0_r; reflexivity) ltac:(lia)).
    rewrite FIN by (auto; rewrite S1; reflexivity). rewrite S1. f_equal.
    cbn [seq flat_map app]. change (1 - 1)%nat with 0%nat.
    replace (Na g) with (S (Na g - 1)) at 4 by lia. rewrite seq_S.
    cbn [rev]. rewrite !rev_app_distr. cbn [rev app].
    replace (pos g (Na g - 1) 0) with (0 + (Na g - 1))%nat by (unfold pos; lia).
    reflexivity.
  - set (s0 := mkAx (gZ g 0%nat) true [0%nat]) in *.
    assert (S1 := STEP (S q) s0 _ (IHq (Na g - 1)%nat ltac:(lia) ltac:(lia))). cbn [ax_single ax_initial ax_out] in S1.
    specialize (S1 eq_refl ltac:(lia)).
    rewrite FIN by (auto; rewrite S1; reflexivity). rewrite S1. f_equal.
    rewrite (seq_S (S q) 1), flat_map_app. cbn [flat_map app].
    replace (1 + S q - 1)%nat with (S q) by lia. replace (1 + S q)%nat with (S (S q)) by lia.
    set (F := flat_map _ (seq 1 (S q))). set (T := [pos g (Na g - 1) (S q); pos g 0 (S (S q))]).
    replace (0%nat :: seq 0 (Na g) ++ F ++ T) with ((0%nat :: seq 0 (Na g) ++ F) ++ T)
      by (cbn [app]; rewrite app_assoc; reflexivity).
    rewrite (rev_app_distr _ T). reflexivity.
Qed.

Lemma axis_indices_points : forall g, grid_ok g -> axis_indices g = axis_points g.
Proof.
  intros g Hg. pose proof (Na_ge2 g Hg). pose proof (Nr_ge2 g Hg). unfold axis_indices, axis_points.
  replace (Nelem g - 1)%nat with (Na g - 1 + Na g * (S (Nr g - 2)))%nat by (unfold Nelem; nia).
  rewrite axis_outer by (auto; lia). cbn [ax_out]. rewrite rev_involutive.
  replace (S (Nr g - 2)) with (Nr g - 1)%nat by lia. reflexivity.
Qed.

Lemma map_nth_perm : forall (A : Type) (l : list A) d perm, Permutation perm (seq 0 (length l)) ->
  Permutation (map (fun p => nth p l d) perm) l.
Proof.
  intros A l d perm H. eapply Permutation_trans; [apply Permutation_map, H|].
  clear. assert (E : map (fun p => nth p l d) (seq 0 (length l)) = l); [|rewrite E; auto].
  induction l; [reflexivity|]. cbn [length seq map]. f_equal. rewrite <- seq_shift, map_map.
  etransitivity; [|exact IHl]. apply map_ext. reflexivity.
Qed.

Lemma axis_plot_spec : forall g fin perm, grid_ok g -> argsort_ok (map (gZ g) (axis_indices g)) perm ->
  let r := axis_plot g fin perm in
  length (fst r) = length (snd r) /\
  Permutation (combine (fst r) (snd r)) (map (fun k => (gZ g k, fin k)) (axis_points g)) /\
  StronglySorted Rle (fst r).
Proof.
  intros g fin perm Hg [HP HS] r.
  assert (E1 : fst r = map (fun p => nth p (map (gZ g) (axis_indices g)) 0) perm) by reflexivity.
  assert (E2 : snd r = map (fun p => nth p (map fin (axis_indices g)) 0) perm) by reflexivity.
  split; [rewrite E1, E2, !map_length; reflexivity|]. split; [|rewrite E1; exact HS].
  rewrite E1, E2, <- axis_indices_points by auto.
  rewrite map_length in HP.
  set (l := axis_indices g) in *.
  assert (E : combine (map (fun p => nth p (map (gZ g) l) 0) perm) (map (fun p => nth p (map fin l) 0) perm)
            = map (fun p => nth p (map (fun k => (gZ g k, fin k)) l) (0, 0)) perm).
  { assert (IN : forall p, In p perm -> (p < length l)%nat).
    { intros p Hp. apply (Permutation_in _ HP) in Hp. apply in_seq in Hp. lia. }
    clear - IN. induction perm as [|p perm IH]; [reflexivity|]. cbn [map combine].
    rewrite IH by (intros; apply IN; right; auto). f_equal.
    assert (Hp : (p < length l)%nat) by (apply IN; left; auto).
    rewrite (nth_indep (map (gZ g) l) 0 (gZ g 0%nat)) by (rewrite map_length; auto).
    rewrite (nth_indep (map fin l) 0 (fin 0%nat)) by (rewrite map_length; auto).
    rewrite (nth_indep (map (fun k => (gZ g k, fin k)) l) (0,0) (gZ g 0%nat, fin 0%nat)) by (rewrite map_length; auto).
    rewrite (map_nth (gZ g)), (map_nth fin), (map_nth (fun k => (gZ g k, fin k)) l 0%nat). reflexivity. }
  rewrite E. apply map_nth_perm. rewrite map_length. exact HP.
Qed.
Lemma axis_points_grid : forall g k, grid_ok g -> In k (axis_points g) -> (k < Nelem g)%nat.
Proof.
  intros g k Hg H. pose proof (Na_pos g). pose proof (Nr_pos g). unfold axis_points in H.
  destruct H as [<-|H]; [unfold Nelem; nia|]. apply in_app_or in H. destruct H as [H|H].
  - apply in_seq in H. unfold Nelem. nia.
  - apply in_flat_map in H. destruct H as (q & Hq & [<-|[<-|[]]]); apply in_seq in Hq; apply pos_lt; split; lia.
Qed.
(** argsort exists for every list. *)
Lemma insert_argsort : forall (xs : list R) l, exists l', Permutation l' l /\ StronglySorted Rle (map (fun p => nth p xs 0) l').
Proof.
  intros xs. induction l as [|p l (l' & HP & HS)].
  - exists nil. split; auto. constructor.
  - assert (INS : exists l'', Permutation l'' (p :: l') /\ StronglySorted Rle (map (fun p => nth p xs 0) l'')).
    { clear HP l. induction l' as [|q l' IH].
      - exists [p]. split; auto. repeat constructor.
      - inversion HS as [|? ? HS' HF]; subst. destruct (Rle_dec (nth p xs 0) (nth q xs 0)) as [L|L].
        + exists (p :: q :: l'). split; auto. cbn [map]. constructor; auto. constructor; auto.
          eapply Forall_impl; [|exact HF]. intros x Hx. simpl in Hx. lra.
        + destruct (IH HS') as (m & Hm & Sm). exists (q :: m). split.
          * eapply Permutation_trans; [apply perm_skip, Hm|apply perm_swap].
          * cbn [map]. constructor; auto. apply Forall_forall. intros x Hx. apply in_map_iff in Hx.
            destruct Hx as (r & <- & Hr). apply (Permutation_in _ Hm) in Hr. destruct Hr as [<-|Hr]; [lra|].
            rewrite Forall_forall in HF. apply HF. apply in_map_iff. exists r; auto. }
    destruct INS as (l'' & HP' & HS'). exists l''. split; auto.
    eapply Permutation_trans; [exact HP'|]. apply perm_skip; auto.
Qed.
Lemma argsort_total : forall xs, exists perm, argsort_ok xs perm.
Proof. intros xs. destruct (insert_argsort xs (seq 0 (length xs))) as (l & H1 & H2). exists l. split; auto. Qed.
