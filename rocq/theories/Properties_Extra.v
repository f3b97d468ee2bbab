(** Properties C81-C84, C96: plots, the surprisal, the two-orbital kinetic functional and routines that cannot be used. *)
From Coq Require Import Reals List Arith Lia Lra ZArith Bool String.
From Coquelicot Require Import Coquelicot.
From Verif Require Import Base BaseLemmas GridModel GridSpec GridProofs GridWitness GridMore HartreeModel SolverModel SolverSpec SolverWitness LibxcModel OptionsModel KSModel KSSpec
  InverterModel PartitionModel PartitionSpec PartitionBase PartitionDens PartitionEnergy PartitionKin PartitionWit PartitionWit2 PartitionTwo PartitionTwoPot PartitionTwoDer PartitionTwoWit ExtraModel ExtraProofs.
Import ListNotations.
Local Open Scope R_scope.
Local Opaque sinh cosh.

(** * C81: plot arrays *)
(** Every entry of the picture belongs to a grid point: on the side X > 0 it shows the value, on the side X < 0 sym times the value. *)
Theorem C81_entries : forall g a s full Z X, plotter g a s = Ok (full, Z, X) -> forall i j, (i < Na g + 2)%nat -> (j < 2 * Nr g)%nat ->
  exists ia ir, is_point g ia ir /\ Z i j = gZ g (pos g ia ir) /\
    (X i j = gY g (pos g ia ir) /\ full i j = entry a (pos g ia ir) 0 \/ X i j = - gY g (pos g ia ir) /\ full i j = s * entry a (pos g ia ir) 0).
Proof. exact plot_every_entry. Qed.
Print Assumptions C81_entries.
(** Every grid point is shown on both sides, at the place of its indices. *)
Theorem C81_points : forall g a s full Z X, plotter g a s = Ok (full, Z, X) -> forall ia ir, is_point g ia ir ->
  let k := pos g ia ir in
  Z (S ia) (Nr g + ir)%nat = gZ g k /\ X (S ia) (Nr g + ir)%nat = gY g k /\ full (S ia) (Nr g + ir)%nat = entry a k 0 /\
  Z (S ia) (Nr g - 1 - ir)%nat = gZ g k /\ X (S ia) (Nr g - 1 - ir)%nat = - gY g k /\ full (S ia) (Nr g - 1 - ir)%nat = s * entry a k 0.
Proof. exact plot_every_point. Qed.
Print Assumptions C81_points.
(** The picture closes across the axis: the end rows repeat their neighbours with the sides exchanged. *)
Theorem C81_closed : forall g a s full Z X, grid_ok g -> plotter g a s = Ok (full, Z, X) -> forall i i' j, (j < 2 * Nr g)%nat ->
  (i = 0 /\ i' = 1 \/ i = Na g + 1 /\ i' = Na g)%nat ->
  Z i j = Z i' j /\ X i j = - X i' j /\ full i j = full i' (2 * Nr g - 1 - j)%nat.
Proof. exact plot_closed. Qed.
Print Assumptions C81_closed.
(** Along every inner row X increases strictly. *)
Theorem C81_ordered : forall g a s full Z X, grid_ok g -> plotter g a s = Ok (full, Z, X) -> forall i j j', (1 <= i <= Na g)%nat -> (j < j' < 2 * Nr g)%nat -> X i j < X i j'.
Proof. exact plot_ordered. Qed.
Print Assumptions C81_ordered.
(** It succeeds for one-dimensional arrays and single columns, and only for these. *)
Theorem C81_succeeds : forall g a s, grid_ok g -> (is_ok (plotter g a s) <-> GridSpec.shape a = None \/ GridSpec.shape a = Some 1%nat).
Proof.
  intros g a s G. split; [|apply plotter_ok; auto]. intros ([[full Z] X] & H). exact (proj1 (plotter_inv _ _ _ _ _ _ H)).
Qed.
Print Assumptions C81_succeeds.
Theorem C81_two_columns_refuted : forall g f s, grid_ok g -> plotter g (A2 2 f) s = Err ValueError.
Proof. intros g f s G. apply (plotter_columns g (A2 2 f) s 2 G eq_refl). discriminate. Qed.
Print Assumptions C81_two_columns_refuted.
Lemma C81_witness : exists full Z X, grid_ok g22 /\ plotter g22 (A1 (fun k => INR k)) (-1) = Ok (full, Z, X) /\ is_point g22 1 1 /\ full 2%nat 3%nat = 3 /\ full 2%nat 0%nat = - 3 /\ full 0%nat 0%nat = 2.
Proof.
  destruct (plotter_ok g22 (A1 (fun k => INR k)) (-1) g22_ok (or_introl eq_refl)) as ([[full Z] X] & H). exists full, Z, X. split; [apply g22_ok|]. split; auto.
  assert (P : is_point g22 1 1) by (split; cbn; lia). assert (P0 : is_point g22 0 1) by (split; cbn; lia). split; auto.
  destruct (plot_every_point _ _ _ _ _ _ H 1 1 P)%nat as (_ & _ & A & _ & _ & B). destruct (plot_every_point _ _ _ _ _ _ H 0 1 P0)%nat as (_ & _ & C & _).
  destruct (plot_closed _ _ _ _ _ _ g22_ok H 0 1 0)%nat as (_ & _ & D); [cbn; lia|auto|]. change (Nr g22) with 2%nat in *. change (pos g22 1 1) with 3%nat in *. change (pos g22 0 1) with 2%nat in *. cbn [entry] in *.
  cbn in A, B, C, D. rewrite D. split; [rewrite A; ring|]. split; [rewrite B; ring|]. rewrite C. ring.
Qed.

(** * C82: the surprisal *)
(** A call raises after V.s has been stored, or before anything is stored. *)
Theorem C82_never_returns_refuted : forall g p, let (p', e) := vp_surprise g p in
  (exists s va vb, surprise g p = Ok (s, va, vb) /\ e = ValueError /\ p_V p' "s"%string = Some (fun k _ => s k)) \/ (surprise g p = Err e /\ p' = p).
Proof. exact surprise_left. Qed.
Print Assumptions C82_never_returns_refuted.
(** V.s is the entropy in bits of the assignment of an electron to the fragments, and the potentials computed after it are its
    derivatives with respect to the two fragment densities. *)
Theorem C82_derivative : forall g p s va vb, surprise g p = Ok (s, va, vb) ->
  exists na nb nf, p_na p = Some na /\ p_nb p = Some nb /\ p_nf p = Some nf /\
   forall k, (k < Nelem g)%nat -> let a := sum_cols (p_pol p) na k in let b := sum_cols (p_pol p) nb k in
     sum_cols (p_pol p) nf k = a + b ->
     s k = mix_entropy a b /\ is_derive (fun x => mix_entropy x b) a (va k) /\ is_derive (fun x => mix_entropy a x) b (vb k).
Proof. exact surprise_spec. Qed.
Print Assumptions C82_derivative.
Theorem C82_bounds : forall g p s va vb na nb nf, surprise g p = Ok (s, va, vb) -> p_na p = Some na -> p_nb p = Some nb -> p_nf p = Some nf -> 
  (forall k j, nf k j = na k j + nb k j) -> forall k, (k < Nelem g)%nat -> 0 < s k <= 1 /\ (s k = 1 <-> sum_cols (p_pol p) na k = sum_cols (p_pol p) nb k).
Proof. exact surprise_bits. Qed.
Print Assumptions C82_bounds.
Theorem C82_defined : forall g p na nb nf, p_na p = Some na -> p_nb p = Some nb -> p_nf p = Some nf ->
  (forall k, (k < Nelem g)%nat -> 0 < sum_cols (p_pol p) na k /\ 0 < sum_cols (p_pol p) nb k /\ 0 < sum_cols (p_pol p) nf k) -> exists s va vb, surprise g p = Ok (s, va, vb).
Proof. exact surprise_total. Qed.
Print Assumptions C82_defined.
(** Fragment densities 4 and 1. *)
Lemma C82_witness : exists p s va vb na nb nf, prepared false 1 1 (v41 1) p /\ surprise g22 p = Ok (s, va, vb) /\ p_na p = Some na /\ p_nb p = Some nb /\ p_nf p = Some nf /\
  (forall k j, nf k j = na k j + nb k j) /\ p_pol p = 1%nat /\ forall k, na k 0%nat = 4 /\ nb k 0%nat = 1.
Proof.
  destruct (w_two_energy 1) as (p & F & na & nb & nf & q & p' & H & ST & P & _ & _ & ES & _ & W & _). destruct ST as (_ & PM & _). pose proof (w_group _ _ _ _ _ _ 1 1 PM ES W eq_refl) as V.
  destruct PM as (A & B & C & _ & _ & N).
  assert (V' : forall k, na k 0%nat = 4 /\ nb k 0%nat = 1) by (intros k; destruct (V k); split; lra).
  destruct (surprise_total g22 p na nb nf A B C) as (s & va & vb & E). { intros k _. rewrite P, !sum_cols_one, N. destruct (V' k) as (-> & ->). lra. }
  exists p, s, va, vb, na, nb, nf. repeat (split; [assumption|]). assumption.
Qed.

(** * C83: two-orbital kinetic energy *)
(** Two orbitals that hold half of the electrons each and reproduce the density; Ep_kin is their kinetic energy minus the weighted
    von Weizsaecker energies of KSa and KSb. *)
Theorem C83_energy : forall g p F n na nb nf q p', grid_ok g -> settled g p F n na nb nf q -> p_pol p = 1%nat -> po_kin (p_opt p) = "twoorbital"%string ->
  ep_kinetic g p = Ok p' ->
  exists f1 f2 : vec,
    p_V p' "phi1"%string = Some (fun k _ => f1 k) /\ p_V p' "phi2"%string = Some (fun k _ => f2 k) /\
    (forall k, (k < Nelem g)%nat -> f1 k ^ 2 + f2 k ^ 2 = nf k 0%nat) /\
    integrate1 g (fun k => f1 k ^ 2) = integrate1 g (fun k => nf k 0%nat) / 2 /\
    integrate1 g (fun k => f2 k ^ 2) = integrate1 g (fun k => nf k 0%nat) / 2 /\
    p_T p' "Ep_kin"%string = Some (SC (kin_energy g f1 + kin_energy g f2 -
      share (po_ess (p_opt p)) F (if po_ab (p_opt p) then [Ca; Ca] else [Ca; Cb]) (fun c => vw_energy g (fun k => n c k 0%nat)))).
Proof. exact two_energy. Qed.
Print Assumptions C83_energy.
(** The density V.ep_kin integrates to this energy with squared weights. *)
Theorem C83_density : forall g p F n na nb nf q p', grid_ok g -> settled g p F n na nb nf q -> p_pol p = 1%nat -> po_kin (p_opt p) = "twoorbital"%string ->
  po_ab (p_opt p) = false -> po_ess (p_opt p) = false -> ep_kinetic g p = Ok p' ->
  exists (f1 f2 : vec) t, p_V p' "phi1"%string = Some (fun k _ => f1 k) /\ p_V p' "phi2"%string = Some (fun k _ => f2 k) /\ p_epk p' = Some (A2 1 t) /\
    (forall k, (k < Nelem g)%nat -> exists x, t k 0%nat = Fin x) /\
    integrate1 g (fun k => nf k 0%nat * to_R (t k 0%nat)) =
    kin_energy g f1 + kin_energy g f2 - lsum [Ca; Cb] (fun c => f_scale (F c) ^ 2 * vw_energy g (fun k => n c k 0%nat)).
Proof. exact two_density. Qed.
Print Assumptions C83_density.
(** Without an ensemble it integrates to Ep_kin. *)
Theorem C83_density_integrates : forall g p F n na nb nf q p', grid_ok g -> settled g p F n na nb nf q -> p_pol p = 1%nat -> po_kin (p_opt p) = "twoorbital"%string ->
  po_ab (p_opt p) = false -> po_ess (p_opt p) = false -> (forall c, member (p_ens p) c -> f_scale (F c) = weight (p_ens p) false (p_nua p) (p_nub p) c) -> p_ens p = false -> ep_kinetic g p = Ok p' ->
  exists e t, p_T p' "Ep_kin"%string = Some (SC e) /\ p_epk p' = Some (A2 1 t) /\ integrate1 g (fun k => nf k 0%nat * to_R (t k 0%nat)) = e.
Proof.
  intros g p F n na nb nf q p' G S P K AB ES W EN H. destruct (two_energy _ _ _ _ _ _ _ _ _ G S P K H) as (f1 & f2 & A1 & A2 & _ & _ & _ & A3).
  destruct (two_density _ _ _ _ _ _ _ _ _ G S P K AB ES H) as (h1 & h2 & t & B1 & B2 & B3 & _ & B4). rewrite A1 in B1. rewrite A2 in B2. injection B1 as B1. injection B2 as B2.
  assert (E1 : f1 = h1) by exact (f_equal (fun f k => f k 0%nat) B1). assert (E2 : f2 = h2) by exact (f_equal (fun f k => f k 0%nat) B2). subst h1 h2.
  do 2 eexists. split; [exact A3|]. split; [exact B3|]. rewrite B4, AB, ES. unfold share. cbn [lsum]. rewrite !W, EN by exact Logic.I. unfold weight. ring.
Qed.
Print Assumptions C83_density_integrates.
(** In an ensemble it does not, whenever the von Weizsaecker energies are positive. *)
Theorem C83_density_ensemble_refuted : forall g p F n na nb nf q p', grid_ok g -> settled g p F n na nb nf q -> p_pol p = 1%nat -> po_kin (p_opt p) = "twoorbital"%string ->
  po_ab (p_opt p) = false -> po_ess (p_opt p) = false -> (forall c, c = Ca \/ c = Cb -> 0 < f_scale (F c) < 1 /\ 0 < vw_energy g (fun k => n c k 0%nat)) -> ep_kinetic g p = Ok p' ->
  exists e t, p_T p' "Ep_kin"%string = Some (SC e) /\ p_epk p' = Some (A2 1 t) /\ e < integrate1 g (fun k => nf k 0%nat * to_R (t k 0%nat)).
Proof.
  intros g p F n na nb nf q p' G S P K AB ES W H. destruct (two_energy _ _ _ _ _ _ _ _ _ G S P K H) as (f1 & f2 & A1 & A2 & _ & _ & _ & A3).
  destruct (two_density _ _ _ _ _ _ _ _ _ G S P K AB ES H) as (h1 & h2 & t & B1 & B2 & B3 & _ & B4). rewrite A1 in B1. rewrite A2 in B2. injection B1 as B1. injection B2 as B2.
  assert (E1 : f1 = h1) by exact (f_equal (fun f k => f k 0%nat) B1). assert (E2 : f2 = h2) by exact (f_equal (fun f k => f k 0%nat) B2). subst h1 h2.
  do 2 eexists. split; [exact A3|]. split; [exact B3|]. rewrite B4, AB, ES. unfold share. cbn [lsum].
  destruct (W Ca) as (X1 & X2); auto. destruct (W Cb) as (Y1 & Y2); auto. 
  set (s := f_scale (F Ca)) in *. set (u := f_scale (F Cb)) in *. set (x := vw_energy g (fun k => n Ca k 0%nat)) in *. set (y := vw_energy g (fun k => n Cb k 0%nat)) in *.
  assert (0 < s * (1 - s) * x) by (apply Rmult_lt_0_compat; auto; apply Rmult_lt_0_compat; lra). assert (0 < u * (1 - u) * y) by (apply Rmult_lt_0_compat; auto; apply Rmult_lt_0_compat; lra). lra.
Qed.
Print Assumptions C83_density_ensemble_refuted.
(** With ab_sym the contribution of fragment A is doubled and its mirror image added. *)
Theorem C83_density_symmetric_refuted : forall g p F n na nb nf q p', grid_ok g -> settled g p F n na nb nf q -> p_pol p = 1%nat -> po_kin (p_opt p) = "twoorbital"%string ->
  po_ab (p_opt p) = true -> po_ess (p_opt p) = false -> ep_kinetic g p = Ok p' ->
  exists (f1 f2 : vec) t, p_V p' "phi1"%string = Some (fun k _ => f1 k) /\ p_V p' "phi2"%string = Some (fun k _ => f2 k) /\ p_epk p' = Some (A2 1 t) /\
   forall k, (k < Nelem g)%nat -> t k 0%nat = Fin ((f1 k * half_lap g f1 k + f2 k * half_lap g f2 k) / gw g k / nf k 0%nat
     - (2 * two_part g F q n Ca k + mirror1 g (two_part g F q n Ca) k)).
Proof. exact two_density_ab. Qed.
Print Assumptions C83_density_symmetric_refuted.
Lemma C83_witness : forall nu, exists p F na nb nf q p', prepared false nu nu (v41 1) p /\ settled g22 p F (fun c k _ => v41 1 c k) na nb nf q /\ p_pol p = 1%nat /\
  po_kin (p_opt p) = "twoorbital"%string /\ po_ab (p_opt p) = false /\ po_ess (p_opt p) = false /\ (p_ens p = false <-> nu = 1) /\
  (forall c, member (p_ens p) c -> f_scale (F c) = weight (p_ens p) false nu nu c) /\ ep_kinetic g22 p = Ok p'.
Proof. exact w_two_energy. Qed.
Lemma C83_witness_positive : forall c, 0 < vw_energy g22 (fun k => v41 1 c k).
Proof.
  intros c. assert (E : vw_energy g22 (fun k => v41 1 c k) = kin_energy g22 (fun k => sqrt (v41 1 c k))) by reflexivity. rewrite E. apply kin_const22.
  exists (sqrt (match c with Ca | CA => 4 * 1 | _ => 1 end)). split; [apply sqrt_lt_R0; destruct c; lra|reflexivity].
Qed.
Lemma C83_witness_symmetric : exists p F na nb nf q p', prepared true 1 1 vmir p /\ settled g22 p F (fun c k _ => vmir c k) na nb nf q /\ p_pol p = 1%nat /\
  po_kin (p_opt p) = "twoorbital"%string /\ po_ab (p_opt p) = true /\ po_ess (p_opt p) = false /\ ep_kinetic g22 p = Ok p'.
Proof. exact w_two_ab. Qed.

(** * C84: two-orbital kinetic potential *)
(** The second column of V.vt is the rate of the kinetic energies of the two orbitals with respect to the density of fragment B,
    in the sense of a symmetric kinetic operator; the first column misses the rate with respect to the density of A by the
    displayed term. *)
Theorem C84_gradients : forall g w p F n p', densities p F n -> p_ens p = false -> po_kin (p_opt p) = "twoorbital"%string -> vp_kinetic g w p = Ok p' ->
  exists na nb v1 v2 x, p_na p = Some na /\ p_nb p = Some nb /\ p_vt p' = Some (2%nat, x) /\ (forall k, x k 0%nat = Fin (v1 k) /\ x k 1%nat = Fin (v2 k)) /\
   let n1 := fun k => na k 0%nat in let n2 := fun k => nb k 0%nat in let f := two_diff g n1 n2 in forall h,
    (exists a b, rate g (fun n => two_diff g n1 n) n2 h a /\ rate g (fun n => two_rest g n1 n) n2 h b /\
      kin_rate g f a + kin_rate g (two_rest g n1 n2) b = integrate1 g (fun k => h k * v2 k)) /\
    (exists a b, rate g (fun n => two_diff g n n2) n1 h a /\ rate g (fun n => two_rest g n n2) n1 h b /\
      kin_rate g f a + kin_rate g (two_rest g n1 n2) b = integrate1 g (fun k => h k * v1 k) +
        (lap_total g f - kin_energy g f) * integrate1 g (fun k => h k * (f k / sqrt (integrate1 g (fun j => (sqrt (n1 j) - sqrt (n2 j)) ^ 2) * n1 k)))).
Proof. exact two_gradients. Qed.
Print Assumptions C84_gradients.
(** The potential of a fragment is half of the rate of its von Weizsaecker energy, which enters Ep_kin in full. *)
Theorem C84_fragment_half_refuted : forall g w p F n p', grid_ok g -> densities p F n -> p_ens p = false -> po_kin (p_opt p) = "twoorbital"%string -> vp_kinetic g w p = Ok p' ->
  forall c, c = Ca \/ c = Cb -> exists f y u, p_f p' c = Some f /\ f_vt f = Some y /\ (forall k, y k 0%nat = Fin (u k)) /\ forall h,
    exists a, rate g (fun m => fun k => sqrt (m k)) (fun k => n c k 0%nat) h a /\ integrate1 g (fun k => h k * u k) = kin_rate g (fun k => sqrt (n c k 0%nat)) a / 2.
Proof. exact two_fragment_half. Qed.
Print Assumptions C84_fragment_half_refuted.
(** By how much the potentials change when the fragments are interchanged. *)
Theorem C84_exchange : forall g w p q F G n m p' q' na nb, densities p F n -> densities q G m -> p_ens p = false -> p_ens q = false ->
  po_kin (p_opt p) = "twoorbital"%string -> po_kin (p_opt q) = "twoorbital"%string -> interchanged p q n m -> p_na p = Some na -> p_nb p = Some nb ->
  vp_kinetic g w p = Ok p' -> vp_kinetic g w q = Ok q' ->
  exists fa fb ga gb xa xb ya yb, p_f p' Ca = Some fa /\ p_f p' Cb = Some fb /\ p_f q' Ca = Some ga /\ p_f q' Cb = Some gb /\
    f_V fa "vp_kin"%string = Some xa /\ f_V fb "vp_kin"%string = Some xb /\ f_V ga "vp_kin"%string = Some ya /\ f_V gb "vp_kin"%string = Some yb /\
    let a := fun k => na k 0%nat in let b := fun k => nb k 0%nat in
    let C := integrate1 g (fun j => (sqrt (a j) - sqrt (b j)) ^ 2) in let f := two_diff g a b in
    0 < C /\ (forall k, (k < Nelem g)%nat -> 0 < a k /\ 0 < b k) /\
    forall k, (k < Nelem g)%nat ->
      yb k 0%nat - xa k 0%nat = / sqrt (C * a k) * f k * (lap_total g f - kin_energy g f) /\
      ya k 0%nat - xb k 0%nat = - (/ sqrt (C * b k) * f k * (lap_total g f + kin_energy g f)).
Proof. exact two_exchange. Qed.
Print Assumptions C84_exchange.
Theorem C84_exchange_refuted : forall g w p q F G n m p' q' na nb, densities p F n -> densities q G m -> p_ens p = false -> p_ens q = false ->
  po_kin (p_opt p) = "twoorbital"%string -> po_kin (p_opt q) = "twoorbital"%string -> interchanged p q n m -> p_na p = Some na -> p_nb p = Some nb ->
  vp_kinetic g w p = Ok p' -> vp_kinetic g w q = Ok q' ->
  kin_energy g (two_diff g (fun k => na k 0%nat) (fun k => nb k 0%nat)) <> 0 ->
  exists fa fb ga gb xa xb ya yb k, p_f p' Ca = Some fa /\ p_f p' Cb = Some fb /\ p_f q' Ca = Some ga /\ p_f q' Cb = Some gb /\
    f_V fa "vp_kin"%string = Some xa /\ f_V fb "vp_kin"%string = Some xb /\ f_V ga "vp_kin"%string = Some ya /\ f_V gb "vp_kin"%string = Some yb /\
    (k < Nelem g)%nat /\ (yb k 0%nat <> xa k 0%nat \/ ya k 0%nat <> xb k 0%nat).
Proof. exact two_exchange_refuted. Qed.
Print Assumptions C84_exchange_refuted.
Lemma C84_witness : forall w, exists p q F G na nb p' q', let x := w_den in
  prepared false 1 1 (v41 x) p /\ prepared false 1 1 (v14 x) q /\ densities p F (fun c k _ => v41 x c k) /\ densities q G (fun c k _ => v14 x c k) /\ p_ens p = false /\ p_ens q = false /\
  po_kin (p_opt p) = "twoorbital"%string /\ po_kin (p_opt q) = "twoorbital"%string /\ interchanged p q (fun c k _ => v41 x c k) (fun c k _ => v14 x c k) /\ p_na p = Some na /\ p_nb p = Some nb /\
  vp_kinetic g22 w p = Ok p' /\ vp_kinetic g22 w q = Ok q' /\ kin_energy g22 (two_diff g22 (fun k => na k 0%nat) (fun k => nb k 0%nat)) <> 0.
Proof. exact w_exchange. Qed.

(** * C96: routines that cannot be used *)
(** The reduced gradient is not defined for any array: one exception per shape. *)
Theorem C96_reduced_gradient_refuted : forall pw g n, reduced_grad pw g n = Err (match n with A1 _ => IndexError | A2 1 _ => ValueError | A2 2 _ => IndexError | A2 _ _ => UnboundLocalError end).
Proof. intros pw g [f|[|[|[|c]]] n]; reflexivity. Qed.
Print Assumptions C96_reduced_gradient_refuted.
(** A solver made by Pssolver belongs to an array with at least one column, so asking it for the collected kinetic energy densities raises. *)
Theorem C96_collected_densities_refuted : forall lv cols Nmo N opt sol i j, Pssolver lv cols Nmo N opt = Ok sol -> (i < lv)%nat -> (j < cols)%nat -> get_ked_WFI (s_pol (sol i j)) = Err AttributeError.
Proof. exact collected_raises. Qed.
Print Assumptions C96_collected_densities_refuted.
(** The two kinetic enhancement factors with parameters return no value for any array and any parameters. *)
Theorem C96_enhancement_factors_refuted : forall tail s k, (forall v, TW_paramke s k <> Ok v) /\ (forall v, PW91k_paramke tail s k <> Ok v) /\
  (forall k0 k1 l, k = k0 :: k1 :: l -> k0 <> 0 -> TW_paramke s k = Err ValueError /\ PW91k_paramke tail s k = Err ValueError).
Proof.
  intros tail s k. repeat split; intros.
  - destruct k as [|k0 [|k1 l]]; cbn; try discriminate. destruct (Req_EM_T k0 0); discriminate.
  - destruct k as [|k0 l]; discriminate.
  - subst k. cbn. destruct (Req_EM_T k0 0); [contradiction|reflexivity].
  - subst k. reflexivity.
Qed.
Print Assumptions C96_enhancement_factors_refuted.
Lemma C96_witness : exists sol, Pssolver 1 2 (fun _ _ => 1%nat) (fun _ _ => 1) [] = Ok sol /\ s_pol (sol 0%nat 1%nat) = 2%nat.
Proof. exact collected_case. Qed.
