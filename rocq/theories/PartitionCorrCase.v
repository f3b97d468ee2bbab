(** Partition: the response of the correlated Hartree energy, and an ensemble on which overlap_hxc is evaluated. *)
From Coq Require Import Reals List Arith Lia Lra ZArith Bool String.
From Coquelicot Require Import Coquelicot.
From Verif Require Import Base BaseLemmas GridModel GridSpec GridProofs GridWitness GridMore HartreeModel SolverModel SolverSpec SolverProofs SolverThms SolverWitness SolverCases LibxcModel OptionsModel OptionsProofs KSModel KSSpec KSProofs KSThms KSLoop KSEnergy KSTotal KSWit
  InverterModel InverterWit PartitionModel PartitionSpec PartitionBase PartitionConstr PartitionDens PartitionFrame PartitionEnergy PartitionEp PartitionKin PartitionTotal PartitionLoop PartitionStep PartitionPass PartitionScf PartitionRun PartitionFinal PartitionOverlap PartitionModes PartitionNew PartitionGood PartitionWit PartitionWit2 PartitionRefute PartitionCorr PartitionCorrWit.
Import ListNotations.
Local Open Scope R_scope.
Local Opaque sinh cosh.

(** * Response of the correlated Hartree energy *)
(** The component of the other fragment with the complementary number of electrons. *)
Definition opposite (c : comp) : comp := match c with Ca => CB | CA => Cb | Cb => CA | CB => Ca end.
(** The potential of a density through the interaction U, the same for both spins. *)
Definition induced (g : grid) (pol : nat) (U : nat -> nat -> R) (n : mat) : mat := fun k _ => sumR (Nelem g) (fun j => U k j * sumR pol (fun s => n j s)).
(** U is symmetric under the quadrature. *)
Definition reciprocal (g : grid) (U : nat -> nat -> R) : Prop := forall k j, (k < Nelem g)%nat -> (j < Nelem g)%nat -> qweight g k * U k j = qweight g j * U j k.
(** The densities with one entry of one component replaced. *)
Definition replace1 (N : comp -> mat) (c : comp) (k s : nat) (x : R) : comp -> mat := fun d => if comp_eqb d c then updated (N d) k s x else N d.

Lemma updated_sum : forall pol n k s x j, (s < pol)%nat -> sumR pol (fun t => updated n k s x j t) = sumR pol (fun t => n j t) + (if (j =? k)%nat then x - n k s else 0).
Proof.
  intros pol n k s x j Hs. unfold updated. destruct (Nat.eqb_spec j k) as [->|Hj]; cbn [andb]; [|rewrite Rplus_0_r; reflexivity].
  rewrite <- (sumR_delta pol s (fun _ => x - n k s)) by exact Hs. rewrite <- sumR_plus. apply sumR_ext. intros t _. destruct (Nat.eqb_spec t s) as [->|]; ring.
Qed.
Lemma half_updated : forall g pol n v k s x, (k < Nelem g)%nat -> (s < pol)%nat -> half_repulsion g pol (updated n k s x) v = half_repulsion g pol n v + qweight g k * (x - n k s) * v k s / 2.
Proof.
  intros g pol n v k s x Hk Hs. unfold half_repulsion.
  replace (integrate1 g (fun j => sumR pol (fun t => updated n k s x j t * v j t))) with (integrate1 g (fun j => sumR pol (fun t => n j t * v j t)) + qweight g k * (x - n k s) * v k s); [field|].
  unfold integrate1, qweight. replace (iprefac g * (gwi g k * gw g k) * (x - n k s) * v k s) with (iprefac g * (gwi g k * gw g k * ((x - n k s) * v k s))) by ring. rewrite <- Rmult_plus_distr_l. f_equal.
  rewrite <- (sumR_delta (Nelem g) k (fun j => gwi g j * gw g j * ((x - n k s) * v k s))) by exact Hk. rewrite <- sumR_plus. apply sumR_ext. intros j _. unfold updated.
  destruct (Nat.eqb_spec j k) as [->|Hj]; cbn [andb]; [|ring].
  rewrite Rmult_1_l, <- Rmult_plus_distr_l. f_equal. rewrite <- (sumR_delta pol s (fun t => (x - n k s) * v k t)) by exact Hs. rewrite <- sumR_plus. apply sumR_ext. intros t _. destruct (Nat.eqb_spec t s) as [->|]; ring.
Qed.
Lemma induced_updated : forall g pol U n m k s x, (k < Nelem g)%nat -> (s < pol)%nat -> reciprocal g U -> half_repulsion g pol m (induced g pol U (updated n k s x)) = half_repulsion g pol m (induced g pol U n) + qweight g k * (x - n k s) * induced g pol U m k s / 2.
Proof.
  intros g pol U n m k s x Hk Hs HU. unfold half_repulsion.
  replace (integrate1 g (fun j => sumR pol (fun t => m j t * induced g pol U (updated n k s x) j t))) with (integrate1 g (fun j => sumR pol (fun t => m j t * induced g pol U n j t)) + qweight g k * (x - n k s) * induced g pol U m k s); [field|].
  assert (A : forall j t, induced g pol U (updated n k s x) j t = induced g pol U n j t + U j k * (x - n k s)).
  { intros j t. unfold induced. rewrite <- (sumR_delta (Nelem g) k (fun i => U j i * (x - n k s))) by exact Hk. rewrite <- sumR_plus. apply sumR_ext. intros i _. rewrite updated_sum by exact Hs. destruct (Nat.eqb_spec i k) as [->|]; ring. }
  unfold integrate1. replace (qweight g k * (x - n k s) * induced g pol U m k s) with (sumR (Nelem g) (fun j => iprefac g * (gwi g j * gw g j * (sumR pol (fun t => m j t) * (U j k * (x - n k s)))))).
  - rewrite <- !sumR_scal, <- sumR_plus. apply sumR_ext. intros j _. rewrite <- !Rmult_plus_distr_l. do 2 f_equal. rewrite (Rmult_comm (sumR pol _)), <- sumR_scal, <- sumR_plus. apply sumR_ext. intros t _. rewrite A. ring.
  - unfold induced. rewrite <- sumR_scal. apply sumR_ext. intros j Hj. pose proof (HU k j Hk Hj) as E. unfold qweight in *. transitivity (iprefac g * (gwi g j * gw g j) * U j k * (sumR pol (fun t => m j t) * (x - n k s))); [ring|]. rewrite <- E. ring.
Qed.
(** Changing one density entry of component c changes the energy by the mean of the two weights times the potential that EnsCorHar
    stores for c. *)
Theorem corr_response : forall g pol U scale N c k s x, (k < Nelem g)%nat -> (s < pol)%nat -> reciprocal g U ->
  corr_energy g pol scale (replace1 N c k s x) (fun d => induced g pol U (replace1 N c k s x d)) - corr_energy g pol scale N (fun d => induced g pol U (N d)) =
    qweight g k * ((scale c + scale (opposite c)) / 2) * induced g pol U (N (opposite c)) k s * (x - N c k s).
Proof.
  intros g pol U scale N c k s x Hk Hs HU. unfold corr_energy, replace1. destruct c; cbn [comp_eqb opposite]; rewrite half_updated, induced_updated by auto; field.
Qed.
(** The stored potential is the derivative per unit of the component's weight exactly when the two components of the pair have the
    same weight. *)
Theorem corr_potential : forall g pol U scale N c k s, (k < Nelem g)%nat -> (s < pol)%nat -> reciprocal g U -> qweight g k <> 0 -> induced g pol U (N (opposite c)) k s <> 0 ->
  (is_derive (fun x => corr_energy g pol scale (replace1 N c k s x) (fun d => induced g pol U (replace1 N c k s x d))) (N c k s) (qweight g k * scale c * induced g pol U (N (opposite c)) k s) <-> scale c = scale (opposite c)).
Proof.
  intros g pol U scale N c k s Hk Hs HU HQ HI. set (E0 := corr_energy g pol scale N (fun d => induced g pol U (N d))). set (sl := qweight g k * ((scale c + scale (opposite c)) / 2) * induced g pol U (N (opposite c)) k s).
  assert (D : is_derive (fun x => corr_energy g pol scale (replace1 N c k s x) (fun d => induced g pol U (replace1 N c k s x d))) (N c k s) sl).
  { apply (is_derive_ext (fun x => E0 + sl * (x - N c k s))).
    - intros x. pose proof (corr_response g pol U scale N c k s x Hk Hs HU) as X. fold E0 in X. fold sl in X. lra.
    - auto_derive; [exact Logic.I|ring]. }
  split.
  - intros D'. pose proof (eq_trans (eq_sym (is_derive_unique _ _ _ D')) (is_derive_unique _ _ _ D)) as E. unfold sl in E. apply (Rmult_eq_reg_l (qweight g k * induced g pol U (N (opposite c)) k s)); [|apply Rmult_integral_contrapositive_currified; assumption]. lra.
  - intros E. replace (qweight g k * scale c * induced g pol U (N (opposite c)) k s) with sl; [exact D|]. unfold sl. rewrite <- E. field.
Qed.

(** * An ensemble on the 2 x 2 grid *)
Definition h_opt (m : string) : dict := [("kinetic_part_type"%string, VS "none"); ("k_family"%string, VS "lda"); ("hxc_part_type"%string, VS m)].
Definition filled (p : part) : part :=
  let u := fun _ _ : nat => 1 in let w := fun _ : nat => 1 in
  set_dens (with_f p (fun c => match p_f p c with Some f => Some (fQ (fk f (set_EV (set_n (f_ks f) (Some u)) (Some one_energy) (mkV (Some u) (Some u) (Some u) (Some w) (Some w) (Some w)))) (Some u)) | None => None end)) u u (fun _ _ => 2).
Lemma h_new : forall m nua nub, m = "overlap_xc"%string \/ m = "overlap_hxc"%string -> nua <> 1 -> nub <> 1 -> exists p F, partition_init g22 1 1 2 w_spec nua nub (h_opt m) = Ok p /\ frags p F /\ p_ens p = true /\ p_pol p = 2%nat /\
  po_int (p_opt p) = "dft"%string /\ po_kin (p_opt p) = "none"%string /\ po_iso (p_opt p) = false /\ po_hxc (p_opt p) = m /\ po_fam (p_opt p) = "lda"%string /\ forall c, f_scale (F c) = weight true false nua nub c.
Proof.
  intros m nua nub M N1 N2. assert (C : exists d, configure PartitionOptions (h_opt m) = Ok d /\ exists k, configure KohnShamOptions (ks_dict d) = Ok k) by (destruct M as [-> | ->]; eexists; (split; [reflexivity|]); eexists; reflexivity).
  destruct C as (d & C & k & C2). destruct (w_init 1 1 nua nub (h_opt m) d k C C2) as (p & H); [destruct M as [-> | ->]; injection C as <-; discriminate|reflexivity|split; intros; contradiction|].
  destruct (init_new _ _ _ _ _ _ _ _ _ H) as (F & HF & _ & W & _). pose proof (init_inv _ _ _ _ _ _ _ _ _ H) as (d' & C' & O & _ & PP & _ & _ & _ & _ & _ & _ & _ & _ & EN & _).
  rewrite C in C'. injection C' as <-. assert (EN' : p_ens p = true) by (destruct EN as [(X & _)|(_ & _ & X)]; [contradiction|exact X]).
  assert (Q : po_int (p_opt p) = "dft"%string /\ po_kin (p_opt p) = "none"%string /\ po_iso (p_opt p) = false /\ po_hxc (p_opt p) = m /\ po_fam (p_opt p) = "lda"%string /\ po_ess (p_opt p) = false).
  { rewrite O. destruct M as [-> | ->]; injection C as <-; repeat (split; [reflexivity|]); reflexivity. }
  destruct Q as (Q1 & Q2 & Q3 & Q4 & Q5 & Q6). exists p, F. do 9 (split; [assumption|]). intros c. assert (Hc : member (p_ens p) c) by (rewrite EN'; destruct c; cbn; auto). destruct (W c Hc) as (_ & _ & _ & _ & X). rewrite EN', Q6 in X. exact X.
Qed.
Theorem h_evaluable : forall m nua nub, m = "overlap_xc"%string \/ m = "overlap_hxc"%string -> nua <> 1 -> nub <> 1 -> exists p, evaluable g22 ex_env p /\ po_hxc (p_opt p) = m /\ po_iso (p_opt p) = false /\ p_ens p = true /\ p_pol p = 2%nat /\
  p_na p = Some (fun _ _ => 1) /\ p_nb p = Some (fun _ _ => 1) /\ forall c, exists f, p_f p c = Some f /\ f_scale f = weight true false nua nub c /\ k_n (f_ks f) = Some (fun _ _ => 1) /\ V_vh (k_V (f_ks f)) = Some (fun _ _ => 1).
Proof.
  intros m nua nub M N1 N2. destruct (h_new m nua nub M N1 N2) as (p & F & _ & HF & EN & PO & O1 & O2 & O3 & O4 & O5 & W). exists (filled p).
  assert (ME : forall c, member (p_ens p) c) by (intros c; rewrite EN; destruct c; cbn; auto).
  assert (FC : forall c, p_f (filled p) c = Some (fQ (fk (F c) (set_EV (set_n (f_ks (F c)) (Some (fun _ _ => 1))) (Some one_energy) (mkV (Some (fun _ _ => 1)) (Some (fun _ _ => 1)) (Some (fun _ _ => 1)) (Some (fun _ => 1)) (Some (fun _ => 1)) (Some (fun _ => 1))))) (Some (fun _ _ => 1)))).
  { intros c. unfold filled. cbv zeta. cbn [set_dens with_f p_f]. rewrite (HF c (ME c)). reflexivity. }
  split; [|split; [exact O4|split; [exact O3|split; [exact EN|split; [exact PO|split; [reflexivity|split; [reflexivity|]]]]]]].
  - split; [exact O1|]. split; [exact O2|]. split; [exact O3|]. split.
    { destruct M as [M|M]; [left|right; split; [|exact EN]]; change (p_opt (filled p)) with (p_opt p); congruence. }
    split.
    { intros c _. eexists. split; [apply FC|]. unfold solved. cbn [fQ fk f_ks set_EV set_n k_n k_E k_V f_Q V_vh V_vx V_vc V_eh V_ex V_ec]. split; [eexists; reflexivity|]. split; [eexists; reflexivity|]. split.
      - exists one_energy, 1, 1. repeat (split; [reflexivity|]). split; eexists; reflexivity.
      - repeat (split; [eexists; reflexivity|]). eexists; reflexivity. }
    split.
    { split; intros n; [|eexists; reflexivity]. change (p_opt (filled p)) with (p_opt p). change (p_pol (filled p)) with (p_pol p). rewrite PO, O5. do 3 eexists. repeat (split; [reflexivity|]). reflexivity. }
    split; [eexists; reflexivity|]. do 2 eexists. split; [reflexivity|]. split; [reflexivity|]. change (p_pol (filled p)) with (p_pol p). rewrite PO. intros k _. cbn [sumR]. lra.
  - intros c. eexists. split; [apply FC|]. split; [apply W|]. split; reflexivity.
Qed.
(** On it overlap_hxc is evaluated and its potential is not the derivative of its energy, at any entry, whatever the parts vary like. *)
Theorem h_sign : exists p p' F h x c Eh, evaluable g22 ex_env p /\ po_hxc (p_opt p) = "overlap_hxc"%string /\ vp_hxc g22 ex_env p = Ok p' /\ p_ens p' = true /\
  E_is p' "F" F /\ E_is p' "Ep_h" h /\ E_is p' "Ep_x" x /\ E_is p' "Ep_c" c /\ E_is p' "Ehcor" Eh /\ E_is p' "Ep_hxc" ((1 - F) * Eh + F * (h + x + c)) /\ 0 < Eh /\
  forall cc, exists f a b d dF vc v, p_f p' cc = Some f /\ f_V f "vp_h"%string = Some a /\ f_V f "vp_x"%string = Some b /\ f_V f "vp_c"%string = Some d /\ f_V f "dFdn"%string = Some dF /\ f_V f "vhcor"%string = Some vc /\ f_V f "vp_hxc"%string = Some v /\
    forall k s, 0 < dF k s /\ forall q (Ff Hf Xf Cf Ef : R -> R) t, q <> 0 -> path q Ff t F (dF k s) -> path q Hf t h (a k s) -> path q Xf t x (b k s) -> path q Cf t c (d k s) -> path q Ef t Eh (vc k s) ->
      ~ is_derive (fun r => (1 - Ff r) * Ef r + Ff r * (Hf r + Xf r + Cf r)) t (q * v k s).
Proof.
  destruct (h_evaluable "overlap_hxc" (1 / 2) (1 / 2)) as (p & EV & M & ISO & EN & PO & NA & NB & FC); [auto|lra|lra|]. destruct (overlap_runs _ _ _ EV) as (p' & H). pose proof (vp_hxc_same _ _ _ _ H) as S. pose proof S as (_ & PO' & _ & _ & _ & _ & EN' & _ & _ & NA' & NB' & _ & _ & SS).
  destruct (overlap_left_energy _ _ _ _ H ISO (or_intror (conj M EN))) as (h & x & c & F & E1 & E2 & E3 & E4 & OS & _ & HX). destruct (HX M) as (EP & Eh & E5 & CS & E6).
  assert (FC' : forall c, exists f, p_f p' c = Some f /\ f_scale f = 1 / 2 /\ k_n (f_ks f) = Some (fun _ _ => 1) /\ V_vh (k_V (f_ks f)) = Some (fun _ _ => 1)).
  { intros d. destruct (FC d) as (f & X1 & X2 & X3 & X4). pose proof (SS d) as Y. rewrite X1 in Y. destruct (p_f p' d) as [f'|]; [|contradiction]. exists f'. split; [reflexivity|]. destruct Y as (-> & -> & _). rewrite X2. split; [|auto]. unfold weight. destruct d; lra. }
  assert (ME : forall c, member (p_ens p') c) by (intros d; rewrite EP; destruct d; cbn; auto).
  assert (PE : 0 < Eh).
  { destruct CS as (F0 & N & V & A & B & _ & _ & _ & _ & ->). unfold corr_energy, half_repulsion. rewrite PO', PO.
    assert (Y : forall c, f_scale (F0 c) = 1 / 2 /\ N c = (fun _ _ => 1) /\ V c = (fun _ _ => 1)). { intros d. destruct (FC' d) as (f & X1 & X2 & X3 & X4). rewrite (A d (ME d)) in X1. injection X1 as <-. destruct (B d) as (B1 & B2). rewrite X3 in B1. rewrite X4 in B2. injection B1 as <-. injection B2 as <-. auto. }
    rewrite !(fun c => proj1 (Y c)), !(fun c => proj1 (proj2 (Y c))), !(fun c => proj2 (proj2 (Y c))). rewrite (integrate1_ext g22 (fun _ => sumR 2 (fun _ => 1 * 1)) (fun _ => 2 * 1 ^ 2)) by (intros; cbn [sumR]; ring). rewrite integrate1_scal. pose proof (const_norm 1 Rlt_0_1). lra. }
  exists p, p', F, h, x, c, Eh. split; [exact EV|]. split; [exact M|]. split; [exact H|]. split; [exact EP|]. do 6 (split; [assumption|]). split; [exact PE|].
  intros cc. destruct (vp_overlap_hxc _ _ _ _ H M) as (F1 & h1 & x1 & c1 & Eh1 & _ & _ & _ & _ & _ & L). destruct (L cc (ME cc)) as (f & a & b & d & dF & vc & Z0 & Z1 & Z2 & Z3 & Z4 & Z5 & Z6).
  eexists f, a, b, d, dF, vc, _. do 6 (split; [eassumption|]). split; [exact Z6|]. intros k s.
  assert (PD : 0 < dF k s).
  { destruct OS as (na & nb & A & B & _ & D). destruct (D cc (ME cc)) as (f2 & Y1 & Y2). rewrite Z0 in Y1. injection Y1 as <-. rewrite Z4 in Y2. injection Y2 as ->. rewrite NA', NA in A. rewrite NB', NB in B. injection A as <-. injection B as <-.
    destruct (FC' cc) as (f3 & X1 & X2 & _). rewrite Z0 in X1. injection X1 as <-. rewrite X2. apply Rmult_lt_0_compat; [apply Rmult_lt_0_compat; [apply Rdiv_lt_0_compat; [lra|apply sqrt_lt_R0; apply PI_RGT_0]|apply exp_pos]|].
    unfold dSdn. replace (other_dens cc (fun _ _ : nat => 1) (fun _ _ : nat => 1) k s) with 1 by (destruct cc; reflexivity). replace (own_dens cc (fun _ _ : nat => 1) (fun _ _ : nat => 1) k s) with 1 by (destruct cc; reflexivity).
    unfold ndiv. destruct (Req_EM_T 1 0); [lra|]. destruct (Rlt_dec (1 / 1) 0); [lra|]. replace (1 / 1) with 1 by lra. rewrite sqrt_1. lra. }
  split; [exact PD|]. intros q Ff Hf Xf Cf Ef t Hq P1 P2 P3 P4 P5 D.
  pose proof (proj2 (overlap_hxc_sign _ _ _ _ _ _ k s q Ff Hf Xf Cf Ef t _ _ _ _ _ _ _ _ _ _ _ H M (ME cc) Z0 E4 E1 E2 E3 E5 Z1 Z2 Z3 Z4 Z5 Z6 P1 P2 P3 P4 P5) Hq) as Y. apply Y in D. apply (Rmult_lt_0_compat _ _ PE) in PD. lra.
Qed.
(** Such variations exist. *)
Lemma path_linear : forall q v m t, path q (fun r => v + q * m * (r - t)) t v m.
Proof. intros q v m t. split; [ring|]. auto_derive; [exact Logic.I|ring]. Qed.
(** A symmetric interaction on the 2 x 2 grid: the same potential everywhere. *)
Definition even_U (g : grid) : nat -> nat -> R := fun _ j => qweight g j.
Lemma even_reciprocal : forall g, reciprocal g (even_U g). Proof. intros g k j _ _. unfold even_U. ring. Qed.
