(** Properties of kinetic_part_type "inversion": initial guess (CADMium/partition/initialguessinvert.py), kinetic energy and its density
    (CADMium/partition/ep_kinetic.py). *)
From Coq Require Import Reals List Arith Lia Lra ZArith Bool String.
From Verif Require Import Base BaseLemmas GridModel GridSpec GridProofs GridWitness GridMore HartreeModel SolverModel SolverSpec SolverProofs SolverWitness LibxcModel OptionsModel KSModel KSSpec
  InverterModel PartitionModel PartitionSpec PartitionBase PartitionWit PartitionWit2 PartitionTwoWit PartitionGuess PartitionGuessWit PartitionInvKin PartitionInvKinWit.
Import ListNotations.
Local Open Scope R_scope.
Local Opaque sinh cosh.

(** * C85: initial guess of the inversion *)
Theorem C85_blocks : forall g w spin p ph e v0, grid_ok g -> (forall k, (k < Nelem g)%nat -> 0 < gwi g k) -> by_level p ->
  initialguessinvert g w spin p = Ok (ph, e, v0) ->
  exists n B E P, ph = flat_map P (seq 0 n) /\ e = flat_map E (seq 0 n) /\
    (forall c f, In c (comps_ab p) -> p_f p c = Some f -> (k_lv (f_ks f) <= n)%nat) /\
    forall i, (i < n)%nat -> trial p spin i (B i) /\ level_ok g w v0 (po_ess (p_opt p)) i (B i) (E i) (P i).
Proof. exact guess_spec. Qed.
Print Assumptions C85_blocks.
Theorem C85_potential : forall g w spin p ph e v0, initialguessinvert g w spin p = Ok (ph, e, v0) ->
  forall F V Q u, (forall c, In c (comps_ab p) -> p_f p c = Some (F c) /\ k_veff (f_ks (F c)) = Some (V c) /\ f_Q (F c) = Some (Q c)) ->
  (po_ess (p_opt p) = true -> forall c, In c (comps_ab p) -> k_u (f_ks (F c)) = Some (u c)) ->
  let o := if (spin =? 0)%nat then 1%nat else 0%nat in
  let S := fun k => lsum (comps_ab p) (fun c => V c k spin * Q c k spin + if po_ess (p_opt p) then (V c k o - u c) * Q c k o else 0) in
  forall ia ir, is_point g ia ir -> v0 (pos g ia ir) = S (pos g ia ir) + if po_ab (p_opt p) then S (pos g (Na g - 1 - ia) ir) else 0.
Proof. exact guess_potential. Qed.
Print Assumptions C85_potential.
(** With fragment weights that add up to one, the guess stays between the fragment potentials. *)
Theorem C85_between : forall g w spin p ph e v0, initialguessinvert g w spin p = Ok (ph, e, v0) -> po_ab (p_opt p) = false -> po_ess (p_opt p) = false ->
  forall F V Q, (forall c, member (p_ens p) c -> p_f p c = Some (F c) /\ k_veff (f_ks (F c)) = Some (V c) /\ f_Q (F c) = Some (Q c)) ->
  forall ia ir lo hi, is_point g ia ir -> let k := pos g ia ir in
    (forall c, member (p_ens p) c -> 0 <= Q c k spin /\ lo <= V c k spin <= hi) ->
    (if p_ens p then Q Ca k spin + Q CA k spin + Q Cb k spin + Q CB k spin = 1 else Q Ca k spin + Q Cb k spin = 1) -> lo <= v0 k <= hi.
Proof.
  intros g w spin p ph e v0 H AB ES F V Q HF ia ir lo hi PT k B S.
  assert (M : forall c, In c (comps_ab p) -> member (p_ens p) c) by (intros c Hc; apply in_comps_ab in Hc; apply Hc).
  pose proof (guess_potential _ _ _ _ _ _ _ H F V Q (fun _ => 0) (fun c Hc => HF c (M c Hc)) ltac:(congruence) ia ir PT) as X. cbv zeta in X. rewrite AB, ES in X. fold k in X. rewrite X. clear X.
  assert (T : forall c, member (p_ens p) c -> lo * Q c k spin <= V c k spin * Q c k spin <= hi * Q c k spin) by (intros c Hc; destruct (B c Hc) as (B1 & B2); split; apply Rmult_le_compat_r; lra).
  unfold comps_ab, comps. rewrite AB. destruct (p_ens p); cbn [lsum].
  - pose proof (T Ca Logic.I). pose proof (T Cb Logic.I). pose proof (T CA eq_refl). pose proof (T CB eq_refl).
    replace lo with (lo * Q Ca k spin + lo * Q CA k spin + lo * Q Cb k spin + lo * Q CB k spin) at 1 by (rewrite <- !Rmult_plus_distr_l, S; ring).
    replace hi with (hi * Q Ca k spin + hi * Q CA k spin + hi * Q Cb k spin + hi * Q CB k spin) at 1 by (rewrite <- !Rmult_plus_distr_l, S; ring). lra.
  - pose proof (T Ca Logic.I). pose proof (T Cb Logic.I).
    replace lo with (lo * Q Ca k spin + lo * Q Cb k spin) at 1 by (rewrite <- !Rmult_plus_distr_l, S; ring).
    replace hi with (hi * Q Ca k spin + hi * Q Cb k spin) at 1 by (rewrite <- !Rmult_plus_distr_l, S; ring). lra.
Qed.
Print Assumptions C85_between.
(** With ab_sym the trial functions are listed twice: the pencil handed to scipy.linalg.eig is singular, every number solves it. *)
Theorem C85_symmetric_refuted : forall g p spin i l m v, po_ab (p_opt p) = true -> trial p spin i l -> l <> [] ->
  exists x : vec, (exists j, (j < List.length l)%nat /\ x j <> 0) /\ (forall k, sumR (List.length l) (fun j => x j * member_of l j k) = 0) /\
    forall e a, sumR (List.length l) (fun j => Fmat g m v l a j * x j) = e * sumR (List.length l) (fun j => Smat g l a j * x j).
Proof. exact guess_singular. Qed.
Print Assumptions C85_symmetric_refuted.
Lemma C85_witness : forall ab, exists p0 ph e v0, partition_init g22 1 1 1 one_spec 1 1 (two_opt ab) = Ok p0 /\ let p := solve22 p0 in
  p_ens p = false /\ po_ab (p_opt p) = ab /\ po_ess (p_opt p) = false /\ by_level p /\ trial p 0 0 (if ab then [left22; left22] else pair22) /\
  (forall c, member (p_ens p) c -> exists f, p_f p c = Some f /\ k_lv (f_ks f) = 1%nat /\ k_veff (f_ks f) = Some (fun _ _ => -1) /\ f_Q f = Some (fun _ _ => / 2)) /\
  initialguessinvert g22 pair_env 0 p = Ok (ph, e, v0).
Proof. exact w_guess. Qed.
Lemma C85_grid_witness : grid_ok g22 /\ (forall k, (k < Nelem g22)%nat -> 0 < gwi g22 k) /\ independent g22 pair22 /\ forall m c v, (forall k, (k < Nelem g22)%nat -> v k = c) -> eig_answers g22 pair_env m v pair22.
Proof. split; [exact SolverWitness.g22_ok|]. split; [intros k K; rewrite g22_gwi by auto; lra|]. split; [exact pair_independent|exact pair_answers]. Qed.

(** * C86: kinetic energy and its density with kinetic_part_type "inversion" *)
(** V.ep_kin is a square array: entry (i, j) takes the molecular part at point j and the fragment part at point i. *)
Theorem C86_outer_difference : forall g p F n e q p', ep_kinetic g p = Ok p' -> po_kin (p_opt p) = "inversion"%string ->
  (forall c, In c (comps_ab p) -> p_f p c = Some (F c) /\ k_n (f_ks (F c)) = Some (n c) /\ k_E (f_ks (F c)) = Some (e c) /\ f_Q (F c) = Some (q c) /\ (1 <= k_lv (f_ks (F c)))%nat /\ (1 <= k_cols (f_ks (F c)))%nat) ->
  exists iv iv' ts nf T (tm tf : nat -> num) t, p_inv p = Some iv /\ get_ts_WFI g iv = Ok (iv', ts) /\ p_nf p = Some nf /\ get_Ts g iv' = Ok (Fin T) /\
    (forall c, In c (comps_ab p) -> keds g (f_ks (F c)) (t c)) /\
    let two := if po_ess (p_opt p) then 2 else 1 in
    p_T p' "Ep_kin"%string = Some (SC (T - two * ((if po_ab (p_opt p) then 2 else 1) * lsum (comps_ab p) (fun c => f_scale (F c) * to_R (E_Ts (e c)))))) /\
    p_epk p' = Some (A2 (Nelem g) (fun i j => nsub (tm j) (tf i))) /\
    (forall j, tm j = ndiv (sumR (i_cols iv) (fun s => ts j s)) (sumR (p_pol p) (fun s => nf j s))) /\
    let S := fun k => lsum (comps_ab p) (fun c => wt p F q c k * last_ked (p_pol p) (f_ks (F c)) (t c) (n c) k) in
    let pos_at := fun k => forall c, In c (comps_ab p) -> sumR (p_pol p) (fun s => n c k s) <> 0 in
    forall ia ir, is_point g ia ir -> let k := pos g ia ir in let k' := pos g (Na g - 1 - ia) ir in
      pos_at k -> (po_ab (p_opt p) = true -> pos_at k') -> tf k = Fin (two * (S k + if po_ab (p_opt p) then S k' else 0)).
Proof. exact inversion_kinetic. Qed.
Print Assumptions C86_outer_difference.
(** With one level and one column the diagonal integrates to the energy up to the squared weights. *)
Theorem C86_diagonal : forall g p F n na nb nf q e t iv iv' ts p', grid_ok g -> settled g p F n na nb nf q -> po_kin (p_opt p) = "inversion"%string ->
  p_pol p = 1%nat -> po_ab (p_opt p) = false -> po_ess (p_opt p) = false ->
  (forall c, member (p_ens p) c -> k_E (f_ks (F c)) = Some (e c) /\ k_lv (f_ks (F c)) = 1%nat /\ k_cols (f_ks (F c)) = 1%nat /\ ked_of g (k_sol (f_ks (F c)) 0 0) (t c) /\ E_Ts (e c) = Fin (integrate1 g (t c)) /\
     forall k, (k < Nelem g)%nat -> n c k 0%nat <> 0) ->
  (forall k, (k < Nelem g)%nat -> nf k 0%nat <> 0) ->
  p_inv p = Some iv -> get_ts_WFI g iv = Ok (iv', ts) -> get_Ts g iv' = Ok (Fin (integrate1 g (fun k => sumR (i_cols iv) (fun s => ts k s)))) ->
  ep_kinetic g p = Ok p' ->
  exists E h, p_T p' "Ep_kin"%string = Some (SC E) /\ p_epk p' = Some (A2 (Nelem g) h) /\ (forall k, (k < Nelem g)%nat -> exists x, h k k = Fin x) /\
    E - integrate1 g (fun k => nf k 0%nat * to_R (h k k)) = - lsum (comps (p_ens p)) (fun c => f_scale (F c) * (1 - f_scale (F c)) * integrate1 g (t c)).
Proof. exact inversion_diagonal. Qed.
Print Assumptions C86_diagonal.
(** So an ensemble of components with positive kinetic energies and weights between 0 and 1 has too large a density. *)
Theorem C86_ensemble_refuted : forall g p F n na nb nf q e t iv iv' ts p', grid_ok g -> settled g p F n na nb nf q -> po_kin (p_opt p) = "inversion"%string ->
  p_pol p = 1%nat -> po_ab (p_opt p) = false -> po_ess (p_opt p) = false -> p_ens p = true ->
  (forall c, k_E (f_ks (F c)) = Some (e c) /\ k_lv (f_ks (F c)) = 1%nat /\ k_cols (f_ks (F c)) = 1%nat /\ ked_of g (k_sol (f_ks (F c)) 0 0) (t c) /\ E_Ts (e c) = Fin (integrate1 g (t c)) /\
     (forall k, (k < Nelem g)%nat -> n c k 0%nat <> 0) /\ 0 < f_scale (F c) < 1 /\ 0 < integrate1 g (t c)) ->
  (forall k, (k < Nelem g)%nat -> nf k 0%nat <> 0) ->
  p_inv p = Some iv -> get_ts_WFI g iv = Ok (iv', ts) -> get_Ts g iv' = Ok (Fin (integrate1 g (fun k => sumR (i_cols iv) (fun s => ts k s)))) ->
  ep_kinetic g p = Ok p' ->
  exists E h, p_T p' "Ep_kin"%string = Some (SC E) /\ p_epk p' = Some (A2 (Nelem g) h) /\ E < integrate1 g (fun k => nf k 0%nat * to_R (h k k)).
Proof.
  intros g p F n na nb nf q e t iv iv' ts p' G ST HK HP AB ES EN HC HN HI HT HG H.
  destruct (inversion_diagonal g p F n na nb nf q e t iv iv' ts p') as (E & h & A & B & _ & C); auto.
  { intros c _. destruct (HC c) as (C1 & C2 & C3 & C4 & C5 & C6 & _). auto 10. }
  exists E, h. split; [exact A|]. split; [exact B|]. rewrite EN in C. cbn [comps lsum] in C.
  assert (X : forall c, 0 < f_scale (F c) * (1 - f_scale (F c)) * integrate1 g (t c)) by (intros c; destruct (HC c) as (_ & _ & _ & _ & _ & _ & S & T); apply Rmult_lt_0_compat; [apply Rmult_lt_0_compat; lra|exact T]).
  pose proof (X Ca). pose proof (X Cb). pose proof (X CA). pose proof (X CB). lra.
Qed.
Print Assumptions C86_ensemble_refuted.
Lemma C86_witness : forall nua nub x, (nua = 1 <-> nub = 1) -> exists p0 p1 p2 p F n na nb nf q e t iv' ts p', partition_init g22 1 1 1 one_spec nua nub inv_opt = Ok p0 /\
  calc_protomolecule (give_n p0 (fun _ _ _ => 1)) = Ok p1 /\ calc_Q p1 = Ok p2 /\ p = set_inv (give_sol p2 (ksolver x) e) (Some (kinv x)) /\
  settled g22 p F n na nb nf q /\ po_kin (p_opt p) = "inversion"%string /\ p_pol p = 1%nat /\ po_ab (p_opt p) = false /\ po_ess (p_opt p) = false /\ (p_ens p = false <-> nua = 1) /\
  (forall c, member (p_ens p) c -> f_scale (F c) = weight (p_ens p) false nua nub c /\ k_E (f_ks (F c)) = Some e /\ k_lv (f_ks (F c)) = 1%nat /\ k_cols (f_ks (F c)) = 1%nat /\ ked_of g22 (k_sol (f_ks (F c)) 0 0) t /\ E_Ts e = Fin (integrate1 g22 t) /\ 0 < integrate1 g22 t /\
     forall k, (k < Nelem g22)%nat -> n c k 0%nat <> 0) /\
  (forall k, (k < Nelem g22)%nat -> nf k 0%nat <> 0) /\
  get_ts_WFI g22 (kinv x) = Ok (iv', ts) /\ get_Ts g22 iv' = Ok (Fin (integrate1 g22 (fun k => sumR (i_cols (kinv x)) (fun s => ts k s)))) /\
  ep_kinetic g22 p = Ok p'.
Proof. exact w_invkin. Qed.
