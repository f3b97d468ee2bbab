(** Properties of the overlap interpolation of the Hartree-exchange-correlation part and of the density behind the kinetic part. *)
From Coq Require Import Reals List Arith Lia Lra ZArith Bool String.
From Coquelicot Require Import Coquelicot.
From Verif Require Import Base BaseLemmas GridModel GridSpec GridProofs GridWitness GridMore HartreeModel SolverModel SolverSpec SolverProofs SolverThms SolverWitness SolverCases LibxcModel OptionsModel OptionsProofs KSModel KSSpec KSProofs KSThms KSLoop KSEnergy KSTotal KSWit
  InverterModel InverterSpec InverterOrb InverterLoop InverterRun InverterThms InverterMore InverterWit InverterStep PartitionModel PartitionSpec PartitionBase PartitionConstr PartitionDens PartitionFrame PartitionEnergy PartitionEp PartitionKin PartitionTotal PartitionLoop PartitionStep PartitionPass PartitionScf PartitionRun PartitionFinal PartitionOverlap PartitionModes PartitionNew PartitionGood PartitionWit PartitionWit2 PartitionRefute PartitionTwo PartitionTwoWit PartitionGuess PartitionGuessWit EmbedPot
  PartitionCorr PartitionCorrWit PartitionCorrCase PartitionTarget.
Import ListNotations.
Local Open Scope R_scope.

(** * C106: the correlated Hartree energy and the interpolation with the overlap *)
Theorem C106_correlated_hartree : forall g p p', EnsCorHar g p = Ok p' -> p_ens p = true /\
  exists (F F' : comp -> frag) (N V : comp -> mat), frags p F /\ frags p' F' /\
    (forall c, k_n (f_ks (F c)) = Some (N c) /\ V_vh (k_V (f_ks (F c))) = Some (V c) /\ fsame (F c) (F' c) /\ forall nm, nm <> "vhcor"%string -> f_V (F' c) nm = f_V (F c) nm) /\
    f_E (F' Ca) "Ehcor"%string = Some (half_repulsion g (p_pol p) (N Ca) (V CB)) /\ f_E (F' CA) "Ehcor"%string = Some (half_repulsion g (p_pol p) (N CA) (V Cb)) /\
    f_E (F' Cb) "Ehcor"%string = Some (half_repulsion g (p_pol p) (N Cb) (V CA)) /\ f_E (F' CB) "Ehcor"%string = Some (half_repulsion g (p_pol p) (N CB) (V Ca)) /\
    f_V (F' Ca) "vhcor"%string = Some (V CB) /\ f_V (F' CA) "vhcor"%string = Some (V Cb) /\ f_V (F' Cb) "vhcor"%string = Some (V CA) /\ f_V (F' CB) "vhcor"%string = Some (V Ca) /\
    p_E p' "Ehcor"%string = Some (corr_energy g (p_pol p) (fun c => f_scale (F c)) N V).
Proof. exact enscorhar_spec. Qed.
Print Assumptions C106_correlated_hartree.

Theorem C106_needs_ensemble : forall g p, p_ens p = false -> EnsCorHar g p = Err AttributeError.
Proof. exact enscorhar_needs_ensemble. Qed.
Print Assumptions C106_needs_ensemble.

Theorem C106_energies : forall g w p p', ep_hxc g w p = Ok p' -> exists h x c, E_is p' "Ep_h" h /\ E_is p' "Ep_x" x /\ E_is p' "Ep_c" c /\
  (po_hxc (p_opt p) = "exact"%string -> E_is p' "Ep_hxc" (h + x + c)) /\
  (po_hxc (p_opt p) = "hartree"%string -> E_is p' "Ep_hxc" h) /\
  (po_hxc (p_opt p) = "overlap_xc"%string -> exists F, E_is p' "F" F /\ overlap_state g p' F /\ E_is p' "Ep_hxc" ((1 - F) * h + F * (h + x + c))) /\
  (po_hxc (p_opt p) = "overlap_hxc"%string \/ po_hxc (p_opt p) = "overlap_hxc_2"%string ->
     p_ens p = true /\ exists F Eh, E_is p' "F" F /\ E_is p' "Ehcor" Eh /\ overlap_state g p' F /\ corr_state g p' Eh /\ E_is p' "Ep_hxc" ((1 - F) * Eh + F * (h + x + c))).
Proof. exact ep_hxc_modes. Qed.
Print Assumptions C106_energies.

Theorem C106_left : forall g w p p', vp_hxc g w p = Ok p' -> po_iso (p_opt p) = false -> overlap_mode p -> exists h x c F, E_is p' "Ep_h" h /\ E_is p' "Ep_x" x /\ E_is p' "Ep_c" c /\ E_is p' "F" F /\ overlap_state g p' F /\
  (po_hxc (p_opt p) = "overlap_xc"%string -> E_is p' "Ep_hxc" ((1 - F) * h + F * (h + x + c))) /\
  (po_hxc (p_opt p) = "overlap_hxc"%string -> p_ens p' = true /\ exists Eh, E_is p' "Ehcor" Eh /\ corr_state g p' Eh /\ E_is p' "Ep_hxc" ((1 - F) * Eh + F * (h + x + c))).
Proof. exact overlap_left_energy. Qed.
Print Assumptions C106_left.

Theorem C106_runs : forall g w p, evaluable g w p -> exists p', vp_hxc g w p = Ok p'.
Proof. exact overlap_runs. Qed.
Print Assumptions C106_runs.

Theorem C106_overlap_xc : forall g w p p' cc f k s q (Ff Hf Xf Cf : R -> R) t a b d dF F h x c v,
  vp_hxc g w p = Ok p' -> po_hxc (p_opt p) = "overlap_xc"%string -> member (p_ens p') cc -> p_f p' cc = Some f ->
  E_is p' "F" F -> E_is p' "Ep_x" x -> E_is p' "Ep_c" c ->
  f_V f "vp_h"%string = Some a -> f_V f "vp_x"%string = Some b -> f_V f "vp_c"%string = Some d -> f_V f "dFdn"%string = Some dF -> f_V f "vp_hxc"%string = Some v ->
  path q Ff t F (dF k s) -> path q Hf t h (a k s) -> path q Xf t x (b k s) -> path q Cf t c (d k s) ->
  is_derive (fun r => (1 - Ff r) * Hf r + Ff r * (Hf r + Xf r + Cf r)) t (q * v k s).
Proof. exact overlap_xc_consistent. Qed.
Print Assumptions C106_overlap_xc.

Theorem C106_overlap_hxc : forall g w p p' cc f k s q (Ff Hf Xf Cf Ef : R -> R) t a b d dF vc F h x c Eh v,
  vp_hxc g w p = Ok p' -> po_hxc (p_opt p) = "overlap_hxc"%string -> member (p_ens p') cc -> p_f p' cc = Some f ->
  E_is p' "F" F -> E_is p' "Ep_h" h -> E_is p' "Ep_x" x -> E_is p' "Ep_c" c -> E_is p' "Ehcor" Eh ->
  f_V f "vp_h"%string = Some a -> f_V f "vp_x"%string = Some b -> f_V f "vp_c"%string = Some d -> f_V f "dFdn"%string = Some dF -> f_V f "vhcor"%string = Some vc -> f_V f "vp_hxc"%string = Some v ->
  path q Ff t F (dF k s) -> path q Hf t h (a k s) -> path q Xf t x (b k s) -> path q Cf t c (d k s) -> path q Ef t Eh (vc k s) ->
  is_derive (fun r => (1 - Ff r) * Ef r + Ff r * (Hf r + Xf r + Cf r)) t (q * (v k s - 2 * Eh * dF k s)) /\
  (q <> 0 -> (is_derive (fun r => (1 - Ff r) * Ef r + Ff r * (Hf r + Xf r + Cf r)) t (q * v k s) <-> Eh * dF k s = 0)).
Proof. exact overlap_hxc_sign. Qed.
Print Assumptions C106_overlap_hxc.

Theorem C106_response : forall g pol U scale N c k s x, (k < Nelem g)%nat -> (s < pol)%nat -> reciprocal g U ->
  corr_energy g pol scale (replace1 N c k s x) (fun d => induced g pol U (replace1 N c k s x d)) - corr_energy g pol scale N (fun d => induced g pol U (N d)) =
    qweight g k * ((scale c + scale (opposite c)) / 2) * induced g pol U (N (opposite c)) k s * (x - N c k s).
Proof. exact corr_response. Qed.
Print Assumptions C106_response.

Theorem C106_weights : forall g pol U scale N c k s, (k < Nelem g)%nat -> (s < pol)%nat -> reciprocal g U -> qweight g k <> 0 -> induced g pol U (N (opposite c)) k s <> 0 ->
  (is_derive (fun x => corr_energy g pol scale (replace1 N c k s x) (fun d => induced g pol U (replace1 N c k s x d))) (N c k s) (qweight g k * scale c * induced g pol U (N (opposite c)) k s) <-> scale c = scale (opposite c)).
Proof. exact corr_potential. Qed.
Print Assumptions C106_weights.

Theorem C106_overlap_hxc_refuted : exists p p' F h x c Eh, evaluable g22 ex_env p /\ po_hxc (p_opt p) = "overlap_hxc"%string /\ vp_hxc g22 ex_env p = Ok p' /\ p_ens p' = true /\
  E_is p' "F" F /\ E_is p' "Ep_h" h /\ E_is p' "Ep_x" x /\ E_is p' "Ep_c" c /\ E_is p' "Ehcor" Eh /\ E_is p' "Ep_hxc" ((1 - F) * Eh + F * (h + x + c)) /\ 0 < Eh /\
  forall cc, exists f a b d dF vc v, p_f p' cc = Some f /\ f_V f "vp_h"%string = Some a /\ f_V f "vp_x"%string = Some b /\ f_V f "vp_c"%string = Some d /\ f_V f "dFdn"%string = Some dF /\ f_V f "vhcor"%string = Some vc /\ f_V f "vp_hxc"%string = Some v /\
    forall k s, 0 < dF k s /\ forall q (Ff Hf Xf Cf Ef : R -> R) t, q <> 0 -> path q Ff t F (dF k s) -> path q Hf t h (a k s) -> path q Xf t x (b k s) -> path q Cf t c (d k s) -> path q Ef t Eh (vc k s) ->
      ~ is_derive (fun r => (1 - Ff r) * Ef r + Ff r * (Hf r + Xf r + Cf r)) t (q * v k s).
Proof. exact h_sign. Qed.
Print Assumptions C106_overlap_hxc_refuted.

(** Ensembles of any two weights below one can be evaluated in both modes. *)
Lemma C106_witness : forall m nua nub, m = "overlap_xc"%string \/ m = "overlap_hxc"%string -> nua <> 1 -> nub <> 1 -> exists p p', evaluable g22 ex_env p /\ po_hxc (p_opt p) = m /\ p_ens p = true /\ vp_hxc g22 ex_env p = Ok p'.
Proof. intros m nua nub M A B. destruct (h_evaluable m nua nub M A B) as (p & E & O & _ & EN & _). destruct (overlap_runs _ _ _ E) as (p' & H). exists p, p'. auto. Qed.
(** The parts can vary as supposed. *)
Lemma C106_path_witness : forall q v m t, path q (fun r => v + q * m * (r - t)) t v m. Proof. exact path_linear. Qed.
(** An interaction that is symmetric under the quadrature, and a density with a potential other than zero. *)
Lemma C106_interaction_witness : reciprocal g22 (even_U g22) /\ (forall k, (k < Nelem g22)%nat -> qweight g22 k <> 0) /\ forall k s, (k < Nelem g22)%nat -> induced g22 2 (even_U g22) (fun _ _ => 1) k s <> 0.
Proof.
  split; [apply even_reciprocal|]. split.
  - intros k Hk. unfold qweight. apply Rgt_not_eq. apply Rmult_lt_0_compat; [exact (iprefac_pos g22 SolverWitness.g22_ok)|]. apply Rmult_lt_0_compat; [rewrite g22_gwi by exact Hk; lra|apply (gw_pos g22 k SolverWitness.g22_ok Hk)].
  - intros k s _. unfold induced, even_U. cbn [sumR]. replace (sumR (Nelem g22) (fun j => qweight g22 j * (0 + 1 + 1))) with (2 * integrate1 g22 (fun _ => 1 ^ 2)).
    + pose proof (const_norm 1 Rlt_0_1). lra.
    + unfold integrate1, qweight. rewrite <- !sumR_scal. apply sumR_ext. intros. ring.
Qed.

(** * C107: the inversion reproduces the density of the molecule *)
Theorem C107_density : forall g w p p' iv nf, vp_kinetic g w p = Ok p' -> po_kin (p_opt p) = "inversion"%string -> p_inv p = Some iv -> p_nf p = Some nf -> io_type (i_opt iv) = "orbitalinvert"%string -> io_tol (i_opt iv) <= 100 ->
  (p_pol p = 1 \/ p_pol p = 2)%nat -> (forall t, (t < p_pol p)%nat -> closed_levels (p_pol p) (i_sol iv 0%nat t)) ->
  let last := if po_ess (p_opt p) then 0%nat else (p_pol p - 1)%nat in
  exists iv' it r, p_inv p' = Some iv' /\ p_info p' = Some (OArr 1 1 (fun _ _ => Some (mkInfo it (Fin r)))) /\
    (r <= io_tol (i_opt iv) -> reproduces g (p_pol p) (io_tol (i_opt iv)) (i_sol iv 0%nat last) (i_sol iv' 0%nat last) (fun k => nf k last) /\
       (po_ess (p_opt p) = true -> i_sol iv' 0%nat 1%nat = i_sol iv' 0%nat 0%nat)).
Proof. exact kinetic_reached. Qed.
Print Assumptions C107_density.

Theorem C107_potentials : forall g w p p' iv, vp_kinetic g w p = Ok p' -> po_kin (p_opt p) = "inversion"%string -> po_ess (p_opt p) = false -> p_pol p = 1%nat -> p_inv p = Some iv -> io_type (i_opt iv) = "orbitalinvert"%string ->
  i_vs iv = None -> i_us iv = None -> i_cols iv = 1%nat -> closed_levels 1 (i_sol iv 0%nat 0%nat) -> (1 <= s_Nmo (i_sol iv 0%nat 0%nat))%nat ->
  exists u iv', inv_chempot p = Ok u /\ p_inv p' = Some iv' /\ forall c, member (p_ens p) c -> exists f v f' x, p_f p c = Some f /\ k_veff (f_ks f) = Some v /\ p_f p' c = Some f' /\ f_V f' "vp_kin"%string = Some x /\
    forall k, (k < Nelem g)%nat -> x k 0%nat = v k 0%nat - u - s_veff (i_sol iv' 0%nat 0%nat) k.
Proof. exact kinetic_potentials. Qed.
Print Assumptions C107_potentials.

Lemma C107_witness : forall e, exists p0 iv' p', partition_init g22 1 1 1 one_spec 1 1 (ask_opt "inversion" false) = Ok p0 /\ let p := given e (solve22 p0) in
  po_kin (p_opt p) = "inversion"%string /\ p_pol p = 1%nat /\ p_inv p = Some (held e) /\ p_nf p = Some (fun k _ => one_n0 k) /\ io_type (i_opt (held e)) = "orbitalinvert"%string /\ 0 < io_tol (i_opt (held e)) <= 100 /\ closed_levels 1 (i_sol (held e) 0%nat 0%nat) /\
  i_vs (held e) = None /\ i_us (held e) = None /\ i_cols (held e) = 1%nat /\ s_Nmo (i_sol (held e) 0%nat 0%nat) = 1%nat /\
  vp_kinetic g22 pair_env p = Ok p' /\ p_inv p' = Some iv' /\ p_info p' = Some (OArr 1 1 (fun _ _ => Some (mkInfo 1 (Fin 0)))).
Proof. exact target_case. Qed.
