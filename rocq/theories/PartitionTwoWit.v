(** Concrete cases for the two-orbital kinetic functional: constant fragment densities on a four-point grid. *)
From Coq Require Import Reals List Arith Lia Lra ZArith Bool String.
From Verif Require Import Base BaseLemmas GridModel GridSpec GridProofs FDProofs OpProofs MaxPrinciple GridWitness GridMore HartreeModel SolverModel SolverSpec SolverProofs SolverThms SolverWitness SolverCases LibxcModel OptionsModel OptionsProofs KSModel KSSpec KSProofs KSThms KSLoop KSEnergy KSTotal KSWit
  InverterModel InverterWit PartitionModel PartitionSpec PartitionBase PartitionConstr PartitionDens PartitionFrame PartitionEnergy PartitionEp PartitionTotal PartitionKin PartitionLoop PartitionStep PartitionPass PartitionScf PartitionRun PartitionFinal PartitionOverlap PartitionModes PartitionNew PartitionGood PartitionWit PartitionWit2 PartitionTwo PartitionTwoPot.
Import ListNotations.
Local Open Scope R_scope.
Local Opaque sinh cosh.

(** The Laplacian of a constant: zero inside, and the flux to the outside at the outermost points. *)
Lemma half_lap_const : forall g c ia ir, grid_ok g -> fd_ok g 1 -> (1 <= Na g)%nat -> is_point g ia ir ->
  half_lap g (fun _ => c) (pos g ia ir) = if (ir + 1 =? Nr g)%nat then / 2 * cN g ia ir * c else 0.
Proof.
  intros g c ia ir G F NA P. unfold half_lap.
  change (sumR (Nelem g) (fun j => elap g (pos g ia ir) j * c)) with (gapply g (elap g) (fun _ => c) (pos g ia ir)).
  rewrite (elap_form g 1) by (auto; destruct P; lia). rewrite lap_form_nb by auto.
  unfold nbE, nbW, nbN, aline, rline. destruct (ia + 1 =? Na g)%nat, (ia =? 0)%nat, (ir =? 0)%nat, (ir + 1 =? Nr g)%nat; lra.
Qed.
Lemma half_lap22 : forall c k, 0 <= c -> (k < Nelem g22)%nat -> 0 <= half_lap g22 (fun _ => c) k.
Proof.
  intros c k C K. destruct (pos_surj g22 k K) as (ia & ir & P & ->). rewrite half_lap_const by first [exact g22_ok|exact g22_fd|exact P|cbn; lia].
  pose proof (cN_pos g22 g22_ok ia ir P) as X. destruct (ir + 1 =? Nr g22)%nat; [|lra]. assert (0 <= cN g22 ia ir * c) by (apply Rmult_le_pos; lra). lra.
Qed.
Lemma kin_const22 : forall f, (exists c, 0 < c /\ forall k, (k < Nelem g22)%nat -> f k = c) -> 0 < kin_energy g22 f.
Proof.
  intros f (c & C & E). rewrite (kin_energy_ext g22 f (fun _ => c)) by auto. unfold kin_energy, integrate1.
  apply Rmult_lt_0_compat; [apply iprefac_pos, g22_ok|].
  assert (P : forall k, (k < Nelem g22)%nat -> 0 <= c * (half_lap g22 (fun _ => c) k / gw g22 k) * gw g22 k * gwi g22 k).
  { intros k K. pose proof (gw_pos g22 k g22_ok K). rewrite g22_gwi by auto. pose proof (half_lap22 c k ltac:(lra) K).
    replace (c * (half_lap g22 (fun _ => c) k / gw g22 k) * gw g22 k * (9 / 16)) with (9 / 16 * (c * half_lap g22 (fun _ => c) k)) by (field; lra).
    apply Rmult_le_pos; [lra|]. apply Rmult_le_pos; lra. }
  assert (X : 0 < c * (half_lap g22 (fun _ => c) (pos g22 1 1) / gw g22 (pos g22 1 1)) * gw g22 (pos g22 1 1) * gwi g22 (pos g22 1 1)).
  { assert (PT : is_point g22 1 1) by (split; cbn; lia). assert (K : (pos g22 1 1 < Nelem g22)%nat) by (cbn; lia). pose proof (gw_pos g22 _ g22_ok K). rewrite g22_gwi by auto.
    rewrite half_lap_const by first [exact g22_ok|exact g22_fd|exact PT|cbn; lia]. change (1 + 1 =? Nr g22)%nat with true. cbv iota. pose proof (cN_pos g22 g22_ok 1 1 PT) as Y.
    replace (c * (/ 2 * cN g22 1 1 * c / gw g22 (pos g22 1 1)) * gw g22 (pos g22 1 1) * (9 / 16)) with (9 / 32 * (c * (cN g22 1 1 * c))) by (field; lra).
    apply Rmult_lt_0_compat; [lra|]. apply Rmult_lt_0_compat; auto. apply Rmult_lt_0_compat; auto. }
  change (pos g22 1 1) with 3%nat in X. rewrite g22_n in *. cbn [sumR].
  pose proof (P 0%nat ltac:(lia)). pose proof (P 1%nat ltac:(lia)). pose proof (P 2%nat ltac:(lia)). lra.
Qed.

(** Assigning the densities of the components. *)
Definition give_n (p : part) (v : comp -> mat) : part := with_f p (fun c => option_map (fun f => fk f (set_n (f_ks f) (Some (v c)))) (p_f p c)).
(** After calc_protomolecule and calc_Q the object is consistent. *)
Lemma settled_of : forall g p F n p1 p2, densities p F n -> calc_protomolecule p = Ok p1 -> calc_Q p1 = Ok p2 ->
  (po_ab (p_opt p) = true -> forall c, member (p_ens p) c -> of_a c -> mirrored g (n c) (n (twin c))) ->
  p_opt p2 = p_opt p /\ p_pol p2 = p_pol p /\ p_ens p2 = p_ens p /\
  exists G na nb nf q, settled g p2 G n na nb nf q /\ forall c, f_scale (G c) = f_scale (F c).
Proof.
  intros g p F n p1 p2 D H1 H2 M. destruct (proto_same_f _ _ H1) as (F2 & S2). destruct (Q_inv _ _ H2) as (nf & N & W & B & _).
  assert (EN : p_ens p1 = p_ens p) by apply S2. assert (E' : p_ens p2 = p_ens p) by (rewrite W; exact EN). assert (EO : p_opt p2 = p_opt p) by (rewrite W; apply S2). assert (EP : p_pol p2 = p_pol p) by (rewrite W; apply S2).
  do 3 (split; [assumption|]).
  destruct (proto_density _ _ _ _ D H1) as (na & nb & nf' & P1 & P2 & P3 & _ & P5 & P6 & _ & P7). rewrite N in P3. injection P3 as <-.
  set (q := fun c k s => to_R (ndiv (f_scale (F c) * n c k s) (nf k s))).
  exists (fun c => fQ (F c) (Some (q c))), na, nb, nf, q. split; [|reflexivity]. destruct D as (D1 & D2).
  assert (X : forall c, member (p_ens p) c -> p_f p2 c = Some (fQ (F c) (Some (q c)))).
  { intros c Hc. pose proof Hc as Hc'. rewrite <- EN in Hc'. destruct (B c Hc') as (f & m & B1 & B2 & B3). rewrite B3. rewrite F2, (D1 c Hc) in B1. injection B1 as <-. rewrite (D2 c Hc) in B2. injection B2 as <-. reflexivity. }
  unfold settled, densities, frags, protomolecule. rewrite E', EO, EP. split; [split; [exact X|intros c Hc; apply (D2 c Hc)]|]. split; [|split].
  - rewrite W. cbn [with_f p_na p_nb p_nf]. repeat (split; [assumption|]). assumption.
  - intros c Hc. split; [reflexivity|]. intros k s. unfold q. cbn [fQ f_scale]. split; intros Z; [rewrite ndiv_nz by auto; reflexivity|rewrite Z; apply ndiv_z].
  - exact M.
Qed.

Definition two_opt (ab : bool) : dict := [("kinetic_part_type"%string, VS "twoorbital"); ("ab_sym"%string, VB ab)].
(** A new object whose component densities are v c, after calc_protomolecule and calc_Q. *)
Definition prepared (ab : bool) (nua nub : R) (v : comp -> vec) (p : part) : Prop :=
  exists p0 p1, partition_init g22 1 1 1 one_spec nua nub (two_opt ab) = Ok p0 /\ calc_protomolecule (give_n p0 (fun c k _ => v c k)) = Ok p1 /\ calc_Q p1 = Ok p.
Lemma w_prepared : forall ab nua nub v, (nua = 1 <-> nub = 1) -> (ab = true -> mirrored1 g22 (v Ca) (v Cb) /\ mirrored1 g22 (v CA) (v CB)) -> exists p G na nb nf q, prepared ab nua nub v p /\
  p_pol p = 1%nat /\ po_kin (p_opt p) = "twoorbital"%string /\ po_ab (p_opt p) = ab /\ po_ess (p_opt p) = false /\ (p_ens p = false <-> nua = 1) /\
  settled g22 p G (fun c k _ => v c k) na nb nf q /\ (forall c, member (p_ens p) c -> f_scale (G c) = weight (p_ens p) false nua nub c).
Proof.
  intros ab nua nub v NU AB.
  assert (C : exists d, configure PartitionOptions (two_opt ab) = Ok d /\ exists k, configure KohnShamOptions (ks_dict d) = Ok k) by (eexists; (split; [reflexivity|]); eexists; reflexivity). destruct C as (d & C & k & C2).
  destruct (init_exists g22 1 one_spec 1 1 nua nub (two_opt ab) d k) as (p0 & I); auto.
  { intros c. exists 1%nat, 1%nat. repeat (split; [reflexivity|]); intros; cbn; lra. } { injection C as <-. discriminate. }
  pose proof (init_inv _ _ _ _ _ _ _ _ _ I) as (d' & C' & O & _ & P & _ & _ & _ & _ & _ & _ & _ & _ & EN & HF). rewrite C in C'. injection C' as <-.
  assert (Q : po_kin (p_opt p0) = "twoorbital"%string /\ po_ab (p_opt p0) = ab /\ po_ess (p_opt p0) = false) by (rewrite O; injection C as <-; repeat split). destruct Q as (Q1 & Q2 & Q3).
  destruct (init_new _ _ _ _ _ _ _ _ _ I) as (F & FF & _).
  set (v' := fun c k (_ : nat) => v c k). set (p1 := give_n p0 v').
  assert (D : densities p1 (fun c => fk (F c) (set_n (f_ks (F c)) (Some (v' c)))) v').
  { split; intros c M; [|reflexivity]. unfold p1, give_n. cbn [with_f p_f]. rewrite (FF c M). reflexivity. }
  assert (AF : all_f (fun f => some (k_n (f_ks f))) p1). { intros c M. destruct D as (D1 & D2). exists (fk (F c) (set_n (f_ks (F c)) (Some (v' c)))). split; [apply D1; exact M|]. eexists. reflexivity. }
  destruct (PartitionGood.proto_total 0 p1 AF) as (p2 & E2 & PF & PE & _ & _ & SN & PO). destruct (PartitionGood.Q_total p2) as (p3 & E3).
  { intros c M. rewrite PF. apply AF. rewrite <- PE. exact M. } { exact SN. }
  destruct (settled_of g22 p1 _ v' p2 p3 D E2 E3) as (S1 & S2 & S3 & G & na & nb & nf & q & ST & SC).
  { intros A c M [-> | ->]; intros ia ir s PT; unfold v', twin; change (p_opt p1) with (p_opt p0) in A; rewrite Q2 in A; destruct (AB A); auto. }
  exists p3, G, na, nb, nf, q. split; [exists p0, p2; auto|]. change (p_opt p1) with (p_opt p0) in *. change (p_pol p1) with (p_pol p0) in *. change (p_ens p1) with (p_ens p0) in *.
  rewrite S1, S2, S3. do 4 (split; [assumption|]). split; [destruct EN as [(E1 & _ & E4 & _)|(E1 & _ & E4)]; rewrite E4; split; intros; auto; congruence|]. split; [exact ST|].
  intros c M. rewrite SC. cbn [fk f_scale]. destruct (HF c M) as (f & _ & FE). rewrite (FF c M) in FE. injection FE as FE. rewrite FE, Q3. reflexivity.
Qed.

Definition vol22 : R := integrate1 g22 (fun _ => 1).
Lemma vol22_pos : 0 < vol22. Proof. apply g22_int_pos. intros; lra. Qed.
Lemma int_const22 : forall c, integrate1 g22 (fun _ => c) = c * vol22.
Proof. intros c. unfold vol22. rewrite <- integrate1_scal. apply integrate1_ext. intros; ring. Qed.
Lemma all_pos_const : forall f n, (forall k, (k < n)%nat -> 0 < f k) -> all_pos n f = true.
Proof. intros f n H. unfold all_pos. apply forallb_forall. intros k K. apply in_seq in K. destruct (Rlt_dec 0 (f k)) as [|N]; auto. exfalso. apply N, H. lia. Qed.

(** At every point the two densities are a and b, in some order. *)
Definition values (a b : R) (n1 n2 : vec) : Prop := forall k, n1 k = a /\ n2 k = b \/ n1 k = b /\ n2 k = a.
Lemma val_sq : forall a b n1 n2 k, values a b n1 n2 -> (sqrt (n1 k) - sqrt (n2 k)) ^ 2 = (sqrt a - sqrt b) ^ 2.
Proof. intros a b n1 n2 k V. destruct (V k) as [(-> & ->)|(-> & ->)]; ring. Qed.
Lemma val_sum : forall a b n1 n2 k, values a b n1 n2 -> n1 k + n2 k = a + b.
Proof. intros a b n1 n2 k V. destruct (V k) as [(-> & ->)|(-> & ->)]; ring. Qed.
Lemma val_pos : forall a b n1 n2 k, 0 < a -> 0 < b -> values a b n1 n2 -> 0 < n1 k /\ 0 < n2 k.
Proof. intros a b n1 n2 k A B V. destruct (V k) as [(-> & ->)|(-> & ->)]; auto. Qed.
Lemma C22_val : forall a b n1 n2, values a b n1 n2 -> integrate1 g22 (fun k => (sqrt (n1 k) - sqrt (n2 k)) ^ 2) = (sqrt a - sqrt b) ^ 2 * vol22.
Proof. intros. rewrite <- int_const22. apply integrate1_ext. intros. apply val_sq. auto. Qed.
Lemma C22_pos : forall a b, 0 < a -> 0 < b -> a <> b -> 0 < (sqrt a - sqrt b) ^ 2 * vol22.
Proof.
  intros a b A B AB. apply Rmult_lt_0_compat; [|apply vol22_pos]. assert (SN : sqrt a - sqrt b <> 0) by (intros X; apply AB; apply sqrt_inj; lra).
  destruct (Rtotal_order (sqrt a - sqrt b) 0) as [|[|]]; [|contradiction|]; replace ((sqrt a - sqrt b) ^ 2) with ((sqrt a - sqrt b) * (sqrt a - sqrt b)) by ring; nra.
Qed.
Lemma two_phi22 : forall a b n1 n2, 0 < a -> 0 < b -> a <> b -> values a b n1 n2 -> exists f, two_phi g22 n1 n2 = Ok f.
Proof.
  intros a b n1 n2 A B AB E. unfold two_phi. cbv zeta. pose proof vol22_pos as V. unfold two_C. rewrite (C22_val a b) by auto. pose proof (C22_pos a b A B AB) as CP. set (C := (sqrt a - sqrt b) ^ 2 * vol22) in *.
  assert (I : integrate1 g22 (fun k => n1 k + n2 k) = (a + b) * vol22) by (rewrite <- int_const22; apply integrate1_ext; intros; apply val_sum; auto). rewrite I.
  assert (IP : 0 < (a + b) * vol22) by (apply Rmult_lt_0_compat; lra).
  rewrite (all_pos_const n1), (all_pos_const n2) by (intros; eapply (val_pos a b n1 n2); eauto). destruct (Rlt_dec 0 C); [|lra]. destruct (Rle_dec 0 ((a + b) * vol22)); [|lra]. cbn [andb].
  match goal with |- exists _, (if negb ?b then _ else _) = _ => assert (X : b = true) end.
  { apply forallb_forall. intros k _. destruct (Rle_dec _ _) as [|N]; auto. exfalso. apply N. rewrite (val_sum a b) by auto.
    replace ((sqrt ((a + b) * vol22 / 2) * (sqrt (n1 k) - sqrt (n2 k)) / sqrt C) ^ 2) with ((a + b) / 2); [lra|].
    unfold Rdiv. rewrite !Rpow_mult_distr, (val_sq a b), pow_inv, !pow2_sqrt by (auto; apply Rlt_le; auto; lra). unfold C in *. field. split; [lra|]. intros Z. unfold pow in CP. rewrite Rmult_1_r in CP. rewrite Z in CP. lra. }
  rewrite X. eexists. reflexivity.
Qed.
Lemma two_pot22 : forall a b n1 n2, 0 < a -> 0 < b -> a <> b -> / vol22 < (a + b) / 2 -> values a b n1 n2 -> exists v1 v2, two_pot g22 n1 n2 = Ok (v1, v2).
Proof.
  intros a b n1 n2 A B AB L E. unfold two_pot. cbv zeta. pose proof vol22_pos as V. unfold two_C. rewrite (C22_val a b) by auto. pose proof (C22_pos a b A B AB) as CP. set (C := (sqrt a - sqrt b) ^ 2 * vol22) in *.
  rewrite (all_pos_const n1), (all_pos_const n2) by (intros; eapply (val_pos a b n1 n2); eauto). destruct (Rlt_dec 0 C); [|lra]. cbn [andb].
  rewrite all_pos_const; [cbn [negb]; eauto|]. intros k K. rewrite (val_sum a b) by auto.
  replace (((sqrt (n1 k) - sqrt (n2 k)) / sqrt C) ^ 2) with (/ vol22); [lra|].
  unfold Rdiv. rewrite !Rpow_mult_distr, (val_sq a b), pow_inv, !pow2_sqrt by (auto; apply Rlt_le; auto; lra). unfold C in *. field. split; [lra|]. intros Z. unfold pow in CP. rewrite Rmult_1_r in CP. rewrite Z in CP. lra.
Qed.

(** With positive component densities Ep_kin and V.ep_kin are computed. *)
Lemma epk_total : forall g p F n na nb nf q f, settled g p F n na nb nf q -> p_pol p = 1%nat -> po_kin (p_opt p) = "twoorbital"%string ->
  two_phi g (fun k => na k 0%nat) (fun k => nb k 0%nat) = Ok f -> (forall c k, member (p_ens p) c -> 0 < n c k 0%nat) -> exists p', ep_kinetic g p = Ok p'.
Proof.
  intros g p F n na nb nf q f ((D1 & D2) & (PA & PB & PF & _) & HQ & _) P1 K TP PN. unfold ep_kinetic. rewrite K. cbn [String.eqb Ascii.eqb Bool.eqb orb]. cbv zeta.
  unfold epk_two. rewrite PA, PB, PF, P1. cbn [have bind]. rewrite TP. cbn [bind]. destruct f as [f1 f2].
  assert (AP : forall c, member (p_ens p) c -> all_pos (Nelem g) (sum_cols 1 (n c)) = true) by (intros c M; apply all_pos_const; intros k _; rewrite sum_cols_one; auto).
  destruct (HQ Ca Logic.I) as (QA & _). destruct (HQ Cb Logic.I) as (QB & _). unfold get_f.
  destruct (po_ab (p_opt p)); cbn [forL]; rewrite (D1 Ca Logic.I); cbn [have bind]; rewrite (D2 Ca Logic.I); cbn [axis1 bind]; unfold getQ; rewrite QA; cbn [bind]; rewrite (AP Ca Logic.I); cbn [negb bind]; [eexists; reflexivity|].
  rewrite (D1 Cb Logic.I); cbn [have bind]; rewrite (D2 Cb Logic.I); cbn [axis1 bind]; rewrite QB; cbn [bind]; rewrite (AP Cb Logic.I); cbn [negb bind]. eexists; reflexivity.
Qed.
(** Fragment A has density 4 and fragment B density 1, with or without an ensemble. *)
Definition v41 (x : R) : comp -> vec := fun c _ => match c with Ca | CA => 4 * x | _ => x end.
Lemma w_group : forall p F n na nb nf x nu, protomolecule p F n na nb nf -> po_ess (p_opt p) = false -> (forall c, member (p_ens p) c -> f_scale (F c) = weight (p_ens p) false nu nu c) ->
  (n = fun c k _ => v41 x c k) -> forall k, na k 0%nat = 4 * x /\ nb k 0%nat = x.
Proof.
  intros p F n na nb nf x nu (_ & _ & _ & VA & VB & _) ES W -> k. rewrite VA, VB. unfold group, weight in *. rewrite ES.
  destruct (p_ens p); cbn [lsum v41]; rewrite !W by (cbn; auto); split; ring.
Qed.
Theorem w_two_energy : forall nu, exists p F na nb nf q p', prepared false nu nu (v41 1) p /\ settled g22 p F (fun c k _ => v41 1 c k) na nb nf q /\ p_pol p = 1%nat /\
  po_kin (p_opt p) = "twoorbital"%string /\ po_ab (p_opt p) = false /\ po_ess (p_opt p) = false /\ (p_ens p = false <-> nu = 1) /\
  (forall c, member (p_ens p) c -> f_scale (F c) = weight (p_ens p) false nu nu c) /\ ep_kinetic g22 p = Ok p'.
Proof.
  intros nu. destruct (w_prepared false nu nu (v41 1)) as (p & G & na & nb & nf & q & H & P & K & AB & ES & EN & ST & W); [tauto|discriminate|].
  pose proof ST as (_ & PM & _). pose proof (w_group _ _ _ _ _ _ 1 nu PM ES W eq_refl) as V.
  destruct (two_phi22 4 1 (fun k => na k 0%nat) (fun k => nb k 0%nat)) as (f & TP); try lra. { intros k. left. destruct (V k). split; lra. }
  destruct (epk_total _ _ _ _ _ _ _ _ _ ST P K TP) as (p' & E). { intros c k _. unfold v41. destruct c; lra. }
  exists p, G, na, nb, nf, q, p'. repeat (split; [assumption|]). assumption.
Qed.
(** With ab_sym: densities exchanged by the mirror operation. *)
Definition vmir : comp -> vec := fun c k => match c with Ca | CA => if Nat.even k then 4 else 1 | _ => if Nat.even k then 1 else 4 end.
Theorem w_two_ab : exists p F na nb nf q p', prepared true 1 1 vmir p /\ settled g22 p F (fun c k _ => vmir c k) na nb nf q /\ p_pol p = 1%nat /\
  po_kin (p_opt p) = "twoorbital"%string /\ po_ab (p_opt p) = true /\ po_ess (p_opt p) = false /\ ep_kinetic g22 p = Ok p'.
Proof.
  destruct (w_prepared true 1 1 vmir) as (p & G & na & nb & nf & q & H & P & K & AB & ES & EN & ST & W); [tauto| |].
  { intros _. split; intros ia ir [A B]; change (Na g22) with 2%nat in *; change (Nr g22) with 2%nat in *; destruct ia as [|[|]]; try lia; destruct ir as [|[|]]; try lia; reflexivity. }
  pose proof ST as (_ & (PA & PB & PF & VA & VB & _) & _).
  assert (E0 : p_ens p = false) by (apply EN; reflexivity).
  destruct (two_phi22 4 1 (fun k => na k 0%nat) (fun k => nb k 0%nat)) as (f & TP); try lra.
  { intros k. rewrite VA, VB. unfold group, weight in *. rewrite ES, E0 in *. cbn [lsum vmir]. rewrite !W by (cbn; auto). destruct (Nat.even k); [left|right]; split; ring. }
  destruct (epk_total _ _ _ _ _ _ _ _ _ ST P K TP) as (p' & E). { intros c k _. unfold vmir. destruct c; destruct (Nat.even k); lra. }
  exists p, G, na, nb, nf, q, p'. repeat (split; [assumption|]). assumption.
Qed.

Lemma finite_exists : forall n c f, (forall k s, exists x, f k s = Fin x) -> exists m, finite n c f = Ok m.
Proof.
  intros n c f H. unfold finite. match goal with |- exists _, (if ?b then _ else _) = _ => assert (X : b = true) end.
  { apply forallb_forall. intros k _. apply forallb_forall. intros s _. destruct (H k s) as (x & ->). reflexivity. }
  rewrite X. eauto.
Qed.
Lemma vpk_total : forall g w p F n na nb v1 v2, densities p F n -> p_ens p = false -> p_pol p = 1%nat -> po_kin (p_opt p) = "twoorbital"%string -> p_na p = Some na -> p_nb p = Some nb ->
  two_pot g (fun k => na k 0%nat) (fun k => nb k 0%nat) = Ok (v1, v2) -> (forall c k, 0 < n c k 0%nat) -> exists p', vp_kinetic g w p = Ok p'.
Proof.
  intros g w p F n na nb v1 v2 (D1 & D2) EN P1 K NA NB TP PN. unfold vp_kinetic. rewrite K. cbn [String.eqb Ascii.eqb Bool.eqb orb]. cbv zeta. unfold vpk_two. rewrite NA, NB, P1, EN. cbn [have bind Nat.eqb comps forL get_f].
  unfold frags in D1. rewrite EN in D1, D2. assert (FR : forall c, exists v, two_frag g (fun k => n c k 0%nat) = Ok v) by (intros c; unfold two_frag; rewrite all_pos_const by auto; eauto).
  destruct (FR Ca) as (ua & UA). destruct (FR Cb) as (ub & UB).
  unfold get_f. rewrite (D1 Ca Logic.I). cbn [have bind]. rewrite (D2 Ca Logic.I). cbn [need bind]. rewrite UA. cbn [bind]. 
  change (p_f (set_frag p Ca (fvt (F Ca) (fun k _ => Fin (ua k)))) Cb) with (p_f p Cb). rewrite (D1 Cb Logic.I). cbn [have bind]. rewrite (D2 Cb Logic.I). cbn [need bind]. rewrite UB. cbn [bind]. rewrite TP. cbn [bind fst snd].
  unfold vpk_finish. match goal with |- context [po_kin (p_opt ?x)] => change (po_kin (p_opt x)) with (po_kin (p_opt p)) end. rewrite K. cbn [String.eqb Ascii.eqb Bool.eqb orb].
  cbn [p_vt set_vt have bind fst snd get_f p_f set_frag comp_eqb f_vt fvt nsub nadd Nat.eqb].
  match goal with |- context [finite ?a ?b ?f] => destruct (finite_exists a b f) as (xa & FA) end. { intros; eexists; reflexivity. } rewrite FA. cbn [bind].
  match goal with |- context [finite ?a ?b ?f] => destruct (finite_exists a b f) as (xb & FB) end. { intros; eexists; reflexivity. } rewrite FB. cbn [bind]. eexists. reflexivity.
Qed.
Definition v14 (x : R) : comp -> vec := fun c _ => match c with Ca | CA => x | _ => 4 * x end.
(** Two objects that differ in the order of the fragments. *)
Theorem w_exchange : forall w, exists p q F G na nb p' q', let x := w_den in
  prepared false 1 1 (v41 x) p /\ prepared false 1 1 (v14 x) q /\ densities p F (fun c k _ => v41 x c k) /\ densities q G (fun c k _ => v14 x c k) /\ p_ens p = false /\ p_ens q = false /\
  po_kin (p_opt p) = "twoorbital"%string /\ po_kin (p_opt q) = "twoorbital"%string /\ interchanged p q (fun c k _ => v41 x c k) (fun c k _ => v14 x c k) /\ p_na p = Some na /\ p_nb p = Some nb /\
  vp_kinetic g22 w p = Ok p' /\ vp_kinetic g22 w q = Ok q' /\ kin_energy g22 (two_diff g22 (fun k => na k 0%nat) (fun k => nb k 0%nat)) <> 0.
Proof.
  intros w. pose proof w_den_pos as X. pose proof vol22_pos as V. assert (WV : w_den = / vol22) by reflexivity.
  destruct (w_prepared false 1 1 (v41 w_den)) as (p & F & na & nb & nf & r & H & P & K & _ & ES & EN & ST & W); [tauto|discriminate|].
  destruct (w_prepared false 1 1 (v14 w_den)) as (q & G & ma & mb & mf & r' & H' & P' & K' & _ & ES' & EN' & ST' & W'); [tauto|discriminate|].
  assert (E0 : p_ens p = false) by (apply EN; reflexivity). assert (E1 : p_ens q = false) by (apply EN'; reflexivity).
  destruct ST as (D & PM & _). destruct ST' as (D' & PM' & _). pose proof (w_group _ _ _ _ _ _ w_den 1 PM ES W eq_refl) as VP. destruct PM as (PA & PB & _). 
  assert (VQ : forall k, ma k 0%nat = w_den /\ mb k 0%nat = 4 * w_den).
  { destruct PM' as (_ & _ & _ & VA & VB & _). intros k. rewrite VA, VB. unfold group, weight in *. rewrite ES', E1 in *. cbn [lsum v14]. rewrite !W' by (cbn; auto). split; ring. }
  destruct PM' as (PA' & PB' & _).
  destruct (two_pot22 (4 * w_den) w_den (fun k => na k 0%nat) (fun k => nb k 0%nat)) as (v1 & v2 & TP); try lra. { intros k. left. apply VP. }
  destruct (two_pot22 w_den (4 * w_den) (fun k => ma k 0%nat) (fun k => mb k 0%nat)) as (u1 & u2 & TQ); try lra. { intros k. left. apply VQ. }
  destruct (vpk_total g22 w p F _ na nb v1 v2 D E0 P K PA PB TP) as (p' & HP). { intros c k. unfold v41. destruct c; lra. }
  destruct (vpk_total g22 w q G _ ma mb u1 u2 D' E1 P' K' PA' PB' TQ) as (q' & HQ). { intros c k. unfold v14. destruct c; lra. }
  exists p, q, F, G, na, nb, p', q'. cbv zeta. do 8 (split; [assumption|]). split.
  { split; [|split; reflexivity]. exists na, nb, ma, mb. do 4 (split; [assumption|]). split; intros k; destruct (VP k), (VQ k); congruence. }
  do 4 (split; [assumption|]). apply Rgt_not_eq, kin_const22.
  exists ((sqrt (4 * w_den) - sqrt w_den) / sqrt (integrate1 g22 (fun j => (sqrt (na j 0%nat) - sqrt (nb j 0%nat)) ^ 2))).
  assert (S : sqrt w_den < sqrt (4 * w_den)) by (apply sqrt_lt_1; lra).
  split; [|intros k _; unfold two_diff; destruct (VP k) as (-> & ->); reflexivity].
  apply Rdiv_lt_0_compat; [lra|]. apply sqrt_lt_R0. apply g22_int_pos. intros k _. destruct (VP k) as (-> & ->). apply pow_lt. lra.
Qed.
