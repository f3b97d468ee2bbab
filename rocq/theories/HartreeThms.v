(** Hartree theorems in API form, and the witnesses. *)
From Coq Require Import Reals List Arith Lia Lra ZArith Bool.
From Verif Require Import Base BaseLemmas GridModel Poly GridSpec GridProofs NCProofs FDProofs OpProofs GridWitness GridMore
  HartreeModel HartreeSpec HartreeProofs LinAlg MaxPrinciple.
Import ListNotations.
Local Open Scope R_scope.
Local Opaque sinh cosh legendre.

Lemma vh_inv : forall g spL spU nh v, v_hartree g spL spU nh = Ok v ->
  let pol := match nh with A1 _ => 1%nat | A2 c _ => c end in
  let x := spU (spL (ht_rhs g (match nh with A1 f => f | A2 c f => sum_cols c f end))) in
  v = A2 pol (fun k s => if (s =? 0)%nat then x k else if (s =? 1)%nat && (pol =? 2)%nat then x k else 0).
Proof.
  intros g spL spU nh v H pol x. unfold v_hartree in H. fold pol in H. destruct (_ || _)%bool; [discriminate|].
  destruct (pol =? 0)%nat; [discriminate|]. injection H as <-. reflexivity.
Qed.
Lemma chain_lin : forall n L U spL spU, solver_for n L spL -> solver_for n U spU -> nonsing n L -> nonsing n U ->
  forall c x y z, (forall i, (i < n)%nat -> z i = c * x i + y i) ->
  forall i, (i < n)%nat -> spU (spL z) i = c * spU (spL x) i + spU (spL y) i.
Proof.
  intros n L U spL spU HL HU NL NU c x y z Hz i Hi.
  rewrite <- (solver_lin n U spU _ _ c NU HU) by auto. apply (solver_ext n U); auto.
  intros j Hj. rewrite <- (solver_lin n L spL _ _ c NL HL) by auto. apply (solver_ext n L); auto.
Qed.
Lemma chain_ext : forall n L U spL spU, solver_for n L spL -> solver_for n U spU -> nonsing n L -> nonsing n U ->
  forall x z, (forall i, (i < n)%nat -> z i = x i) ->
  forall i, (i < n)%nat -> spU (spL z) i = spU (spL x) i.
Proof.
  intros n L U spL spU HL HU NL NU x z Hz i Hi. apply (solver_ext n U); auto. intros. apply (solver_ext n L); auto.
Qed.
Lemma sum_cols_lin : forall cols n m c k, sum_cols cols (fun k s => c * n k s + m k s) k = c * sum_cols cols n k + sum_cols cols m k.
Proof. intros. unfold sum_cols. rewrite <- sumR_scal, <- sumR_plus. reflexivity. Qed.

Lemma hartree_linear : forall g spL spU L U cols (n m : nat -> nat -> R) c,
  solver_for (Nelem g) L spL -> solver_for (Nelem g) U spU -> nonsing (Nelem g) L -> nonsing (Nelem g) U ->
  forall vn vm vs, v_hartree g spL spU (A2 cols n) = Ok vn -> v_hartree g spL spU (A2 cols m) = Ok vm ->
  v_hartree g spL spU (A2 cols (fun k s => c * n k s + m k s)) = Ok vs ->
  forall k s, (k < Nelem g)%nat -> entry vs k s = c * entry vn k s + entry vm k s.
Proof.
  intros g spL spU L U cols n m c HL HU NL NU vn vm vs E1 E2 E3 k s Hk.
  apply vh_inv in E1, E2, E3. subst. cbn [entry].
  assert (X : forall k, (k < Nelem g)%nat -> spU (spL (ht_rhs g (sum_cols cols (fun k s => c * n k s + m k s)))) k =
    c * spU (spL (ht_rhs g (sum_cols cols n))) k + spU (spL (ht_rhs g (sum_cols cols m))) k).
  { apply (chain_lin (Nelem g) L U); auto. intros i Hi. rewrite <- ht_rhs_lin. apply ht_rhs_ext; auto.
    intros. apply sum_cols_lin. }
  destruct (s =? 0)%nat; [apply X; auto|]. destruct (_ && _)%bool; [apply X; auto|ring].
Qed.
Lemma hartree_total : forall g spL spU L U cols (n : nat -> nat -> R) m,
  solver_for (Nelem g) L spL -> solver_for (Nelem g) U spU -> nonsing (Nelem g) L -> nonsing (Nelem g) U ->
  (forall k, (k < Nelem g)%nat -> sumR cols (fun s => n k s) = m k) ->
  forall v v', v_hartree g spL spU (A2 cols n) = Ok v -> v_hartree g spL spU (A1 m) = Ok v' ->
  forall k, (k < Nelem g)%nat -> entry v k 0 = entry v' k 0 /\ shape v = Some cols /\ shape v' = Some 1%nat.
Proof.
  intros g spL spU L U cols n m HL HU NL NU Hm v v' E E' k Hk. apply vh_inv in E, E'. subst. cbn [entry shape].
  split; auto. apply (chain_ext (Nelem g) L U); auto. intros. apply ht_rhs_ext; auto.
Qed.
Lemma hartree_columns : forall g spL spU (n : nat -> nat -> R) v,
  v_hartree g spL spU (A2 2 n) = Ok v -> forall k, entry v k 1 = entry v k 0.
Proof. intros. apply vh_inv in H. subst. reflexivity. Qed.
Lemma hartree_zero : forall g spL spU L U cols (n : nat -> nat -> R) v,
  solver_for (Nelem g) L spL -> solver_for (Nelem g) U spU -> nonsing (Nelem g) L -> nonsing (Nelem g) U ->
  (forall k s, (k < Nelem g)%nat -> n k s = 0) ->
  v_hartree g spL spU (A2 cols n) = Ok v -> forall k s, (k < Nelem g)%nat -> entry v k s = 0.
Proof.
  intros g spL spU L U cols n v HL HU NL NU Hn E k s Hk. apply vh_inv in E. subst. cbn [entry].
  assert (Z : forall i, (i < Nelem g)%nat -> sum_cols cols n i = 0).
  { intros. unfold sum_cols. apply sumR_zero. intros; auto. }
  set (x := ht_rhs g (sum_cols cols n)).
  assert (X : spU (spL x) k = 0).
  { assert (Y : forall i, (i < Nelem g)%nat -> x i = 0).
    { intros i Hi. unfold x. rewrite (ht_rhs_ext g _ (fun i => -1 * sum_cols cols n i + sum_cols cols n i)) by
        (auto; intros; rewrite Z by auto; ring). rewrite ht_rhs_lin. ring. }
    rewrite (chain_lin (Nelem g) L U spL spU HL HU NL NU (-1) x x x) by (auto; intros; rewrite Y by auto; ring). ring. }
  rewrite X. destruct (s =? 0)%nat; auto. destruct (_ && _)%bool; auto.
Qed.
Lemma e_hartree_half : forall g spL spU cols (n : nat -> nat -> R) v,
  v_hartree g spL spU (A1 (fun k => sumR cols (fun s => n k s))) = Ok v ->
  exists e, e_hartree g spL spU (A2 cols n) = Ok e /\ shape e = Some 1%nat /\
  forall k s, entry e k s = entry v k s / 2.
Proof.
  intros g spL spU cols n v E. unfold e_hartree. fold (sum_cols cols n) in E. rewrite E. cbn [bind].
  apply vh_inv in E. subst. eexists. split; [reflexivity|]. split; [reflexivity|]. intros. cbn [entry]. lra.
Qed.
Lemma hartree_succeeds : forall g spL spU b n, fd_ok g b -> (b <= Nr g)%nat ->
  is_ok (v_hartree g spL spU (A2 1 n)) /\ is_ok (v_hartree g spL spU (A2 2 n)).
Proof.
  intros. destruct (hartree_value g spL spU b H H0) as [_ P].
  destruct (P 1%nat n) as (v & E & _); auto. destruct (P 2%nat n) as (v' & E' & _); auto. split; eexists; eauto.
Qed.
Lemma hartree_poisson : forall g spL spU L U b (n : nat -> nat -> R) cols v,
  grid_ok g -> fd_ok g b -> (b <= Na g)%nat -> (b <= Nr g)%nat ->
  solver_for (Nelem g) L spL -> solver_for (Nelem g) U spU ->
  (forall i j, (i < Nelem g)%nat -> (j < Nelem g)%nat -> matmul (Nelem g) L U i j = elap g i j) ->
  v_hartree g spL spU (A2 cols n) = Ok v ->
  let tot := fun k => sumR cols (fun s => n k s) in
  let ghost := fun i q => multipole g tot (ghostZ g i q) (ghostY g i q) in
  forall ia ir, is_point g ia ir ->
  lap_form g b 1 (fun k => entry v k 0) ghost ia ir = - 4 * PI * gw g (pos g ia ir) * tot (pos g ia ir).
Proof.
  intros g spL spU L U b n cols v Hg H Ha Hb HL HU HLU E tot ghost ia ir Hp. apply vh_inv in E. subst. cbn [entry Nat.eqb].
  exact (poisson g spL spU L U b (sum_cols cols n) Hg H Ha Hb HL HU HLU ia ir Hp).
Qed.
Lemma hartree_pivot : forall g spL spU r (n : vec) v,
  splu_ok (Nelem g) (elap g) r -> solver_for (Nelem g) (lu_L r) spL -> solver_for (Nelem g) (lu_U r) spU ->
  v_hartree g spL spU (A1 n) = Ok v ->
  (forall i, (i < Nelem g)%nat -> gapply g (elap g) (fun k => entry v k 0) (lu_pr r i) = ht_rhs g n i) /\
  (solves (Nelem g) (elap g) (ht_rhs g n) (fun k => entry v k 0)
   <-> forall i, (i < Nelem g)%nat -> ht_rhs g n (lu_pr r i) = ht_rhs g n i).
Proof.
  intros g spL spU r n v HP HL HU E. apply vh_inv in E. subst. cbn [entry Nat.eqb]. split.
  - exact (permuted_system g spL spU r n HP HL HU).
  - exact (permuted_iff g spL spU r n HP HL HU).
Qed.
Lemma rho_arg : forall t m, 0 <= cosh m ^ 2 + cos t ^ 2 - 1.
Proof. intros. pose proof (cosh2_sinh2 m). pose proof (pow2_ge_0 (sinh m)). pose proof (pow2_ge_0 (cos t)). lra. Qed.
Lemma interior_rho : forall g k, grid_ok g -> (k < Nelem g)%nat ->
  ht_Z g k = gZ g k /\ ht_rho g k = sqrt (gZ g k * gZ g k + gY g k * gY g k) /\
  0 < ht_rho g k /\ Rabs (ht_Z g k / ht_rho g k) <= 1 /\ 0 <= cosh (Xr g k) ^ 2 + cos (Xa g k) ^ 2 - 1.
Proof.
  intros g k Hg Hk. rewrite ht_Z_val, ht_rho_val by auto. pose proof (gY_pos g k Hg Hk).
  repeat split; [apply rad_pos; auto|apply rad_ratio; auto|apply rho_arg].
Qed.
Lemma boundary_rho : forall g i q, grid_ok g -> (i < Na g)%nat -> (q < bcN g)%nat ->
  let j := (i + Na g * q)%nat in
  ht_bZ g j = ghostZ g i q /\ ht_brho g j = sqrt (ghostZ g i q * ghostZ g i q + ghostY g i q * ghostY g i q) /\
  0 < ht_brho g j /\ Rabs (ht_bZ g j / ht_brho g j) <= 1 /\ 0 <= cosh (bXr g j) ^ 2 + cos (bXa g j) ^ 2 - 1.
Proof.
  intros g i q Hg Hi Hq j. unfold j. rewrite (ht_bZ_val g (bcN g)), (ht_brho_val g (bcN g)) by auto.
  pose proof (ghostY_pos g i q Hg Hi). repeat split; [apply rad_pos; auto|apply rad_ratio; auto|apply rho_arg].
Qed.
Lemma legendre_facts : (forall n, legendre n 1 = 1) /\ (forall n x, legendre n (- x) = (-1) ^ n * legendre n x) /\
  (forall x, legendre 0 x = 1 /\ legendre 1 x = x /\ legendre 2 x = (3 * x ^ 2 - 1) / 2 /\
             legendre 3 x = (5 * x ^ 3 - 3 * x) / 2).
Proof.
  split; [intros; apply legendre_at_1|]. split; [intros; apply legendre_parity|]. intros x.
  assert (L0 : legendre 0 x = 1) by reflexivity. assert (L1 : legendre 1 x = x) by reflexivity.
  assert (L2 : legendre 2 x = (3 * x ^ 2 - 1) / 2).
  { rewrite legendre_SS, L1, L0. simpl INR. field. }
  repeat split; auto. rewrite legendre_SS, L2, L1. simpl INR. field.
Qed.
Lemma hartree_mirror_thm : forall g b spL spU L U cols (n : nat -> nat -> R) v v',
  grid_ok g -> lstsq_ok g -> gNMa g = gNMr g -> (2 <= gNMa g)%nat -> fd_ok g b -> (b <= Na g)%nat -> (b <= Nr g)%nat ->
  solver_for (Nelem g) L spL -> solver_for (Nelem g) U spU -> nonsing (Nelem g) L -> nonsing (Nelem g) U ->
  (forall i j, (i < Nelem g)%nat -> (j < Nelem g)%nat -> matmul (Nelem g) L U i j = elap g i j) ->
  nonsing (Nelem g) (elap g) ->
  v_hartree g spL spU (A2 cols n) = Ok v -> v_hartree g spL spU (mirror g (A2 cols n)) = Ok v' ->
  forall k s, (k < Nelem g)%nat -> entry v' k s = entry (mirror g v) k s.
Proof.
  intros g b spL spU L U cols n v v' Hg HN E H2 H Ha Hb HL HU NL NU HLU NS EV EV' k s Hk.
  destruct (pos_surj g k Hk) as (ia & ir & Hp & ->). rewrite mirror_entry by auto.
  apply vh_inv in EV. subst v.
  assert (X : spU (spL (ht_rhs g (sum_cols cols (mirror2 g n)))) (pos g ia ir)
              = spU (spL (ht_rhs g (sum_cols cols n))) (pos g (Na g - 1 - ia) ir)).
  { rewrite <- mirror1_pos by auto.
    rewrite <- (hartree_mirror g b spL spU L U) by auto.
    apply (chain_ext (Nelem g) L U); auto. intros i Hi. apply ht_rhs_ext; auto.
    intros j Hj. unfold sum_cols. destruct (pos_surj g j Hj) as (ja & jr & Hq & ->).
    rewrite mirror1_pos by auto. apply sumR_ext. intros t Ht.
    change (mirror2 g n (pos g ja jr) t) with (entry (mirror g (A2 cols n)) (pos g ja jr) t).
    rewrite mirror_entry by auto. reflexivity. }
  apply vh_inv in EV'. cbn [mirror] in EV'. subst v'. cbn [entry]. fold (@mirror2 R g n).
  destruct (s =? 0)%nat; [exact X|]. destruct (_ && _)%bool; [exact X|reflexivity].
Qed.
Lemma three_point_ok : forall g, grid_ok g -> fd_ok g 1 -> gL g / INR (Nr g) <= 1 ->
  nonsing (Nelem g) (elap g) /\ exists sp, solver_for (Nelem g) (elap g) sp.
Proof. intros g H1 H2 H3. pose proof (elap_nonsing g H1 H2 H3). split; auto. apply nonsing_solver; auto. Qed.
Lemma hartree_nonneg : forall g spL spU L U (n : nat -> nat -> R) cols v,
  grid_ok g -> fd_ok g 1 -> gL g / INR (Nr g) <= 1 ->
  solver_for (Nelem g) L spL -> solver_for (Nelem g) U spU ->
  (forall i j, (i < Nelem g)%nat -> (j < Nelem g)%nat -> matmul (Nelem g) L U i j = elap g i j) ->
  v_hartree g spL spU (A2 cols n) = Ok v ->
  let tot := fun k => sumR cols (fun s => n k s) in
  (forall k, (k < Nelem g)%nat -> 0 <= tot k) ->
  (forall ia, (ia < Na g)%nat -> 0 <= multipole g tot (ghostZ g ia 0) (ghostY g ia 0)) ->
  forall k, (k < Nelem g)%nat -> 0 <= entry v k 0.
Proof.
  intros g spL spU L U n cols v Hg Hfd Hh HL HU HLU E tot Hn Hm k Hk.
  assert (N1 : (1 <= Na g)%nat) by apply Na_pos. assert (N2 : (1 <= Nr g)%nat) by apply Nr_pos.
  pose proof (hartree_poisson g spL spU L U 1 n cols v Hg Hfd N1 N2 HL HU HLU E) as P. cbv zeta in P. fold tot in P.
  enough (- entry v k 0 <= 0) by lra.
  apply (max_principle g Hg Hfd Hh (fun k => - entry v k 0)
           (fun i q => - multipole g tot (ghostZ g i q) (ghostY g i q))); auto.
  - intros ia Hi. pose proof (Hm ia Hi). lra.
  - intros ia ir Hp. rewrite (lap_form_opp g Hg Hfd) by auto. rewrite P by auto.
    pose proof (gw_pos g _ Hg (pos_lt g ia ir Hp)). pose proof (Hn _ (pos_lt g ia ir Hp)).
    pose proof PI_RGT_0.
    assert (Q : 0 <= PI * gw g (pos g ia ir) * tot (pos g ia ir)) by (apply Rmult_le_pos; [apply Rmult_le_pos; left; auto|auto]).
    change (sumR cols (fun s => n (pos g ia ir) s)) with (tot (pos g ia ir)).
    replace (- (- 4 * PI * gw g (pos g ia ir) * tot (pos g ia ir))) with (4 * (PI * gw g (pos g ia ir) * tot (pos g ia ir))) by ring.
    lra.
Qed.

(** ** Witnesses on a 16 x 16 grid with the three-point stencil *)
Definition g3p : grid := grid_of 4 5 5 1 8 1.
Lemma g3p_ok : grid_ok g3p.
Proof. apply grid_of_ok; try lia; lra. Qed.
Lemma g3p_fd : fd_ok g3p 1.
Proof. apply grid_of_fd; lia. Qed.
Lemma g3p_spacing : grid_ok g3p /\ fd_ok g3p 1 /\ gL g3p / INR (Nr g3p) <= 1.
Proof.
  split; [apply g3p_ok|]. split; [exact g3p_fd|]. change (gL g3p) with 8.
  replace (INR (Nr g3p)) with 16 by (compute; lra). lra.
Qed.
Lemma g3p_nonsing : nonsing (Nelem g3p) (elap g3p).
Proof. destruct g3p_spacing as (A & B & C). apply elap_nonsing; auto. Qed.
Lemma g3p_factors : exists spL spU L U, fd_ok g3p 1 /\
  solver_for (Nelem g3p) L spL /\ solver_for (Nelem g3p) U spU /\ nonsing (Nelem g3p) L /\ nonsing (Nelem g3p) U /\
  (forall i j, (i < Nelem g3p)%nat -> (j < Nelem g3p)%nat -> matmul (Nelem g3p) L U i j = elap g3p i j).
Proof.
  pose proof g3p_nonsing as N. destruct (nonsing_solver _ _ N) as (sp & Hs).
  exists (fun b => b), sp, eye, (elap g3p). split; [exact g3p_fd|]. split; [apply eye_solver|]. split; [auto|].
  split; [apply eye_nonsing|]. split; [auto|]. intros. apply eye_matmul; auto.
Qed.
Lemma g3p_mirror_hyps : grid_ok g3p /\ lstsq_ok g3p /\ gNMa g3p = gNMr g3p /\ (2 <= gNMa g3p)%nat /\ fd_ok g3p 1 /\
  (1 <= Na g3p)%nat /\ (1 <= Nr g3p)%nat /\ nonsing (Nelem g3p) (elap g3p).
Proof.
  split; [apply g3p_ok|]. split; [apply grid_of_lstsq|]. split; [reflexivity|]. split; [compute; lia|].
  split; [exact g3p_fd|]. split; [compute; lia|]. split; [compute; lia|]. exact g3p_nonsing.
Qed.
(** A factorisation that swaps the first two rows. *)
Definition swap01 (i : nat) : nat := match i with 0 => 1 | 1 => 0 | _ => i end%nat.
Lemma swap01_invol : forall i, swap01 (swap01 i) = i.
Proof. intros [|[|i]]; reflexivity. Qed.
Lemma swap01_lt : forall n i, (2 <= n)%nat -> (i < n)%nat -> (swap01 i < n)%nat.
Proof. intros n [|[|i]]; simpl; lia. Qed.
Lemma g3p_pivoted : exists spL spU r, splu_ok (Nelem g3p) (elap g3p) r /\
  solver_for (Nelem g3p) (lu_L r) spL /\ solver_for (Nelem g3p) (lu_U r) spU /\ lu_pr r 0%nat = 1%nat.
Proof.
  set (U := fun i j => elap g3p (swap01 i) j).
  assert (N2 : (2 <= Nelem g3p)%nat) by (compute; lia).
  assert (N : nonsing (Nelem g3p) U).
  { intros x Hx. apply g3p_nonsing. intros i Hi. rewrite <- (swap01_invol i). apply Hx. apply swap01_lt; auto. }
  destruct (nonsing_solver _ _ N) as (sp & Hs).
  exists (fun b => b), sp, (mkSplu eye U swap01). repeat split; cbn [lu_L lu_U lu_pr]; auto.
  - intros. rewrite (eye_matmul _ U) by auto; reflexivity.
  - intros. apply swap01_lt; auto.
  - intros i j Hi Hj E. rewrite <- (swap01_invol i), <- (swap01_invol j), E. reflexivity.
  - apply eye_solver.
Qed.
