(** Cases in which the partition code does not do what is asked of it: the energy of fragment B of an ensemble, the density
    of an ensemble with ab_sym and different nu_a, nu_b, the Hartree energy density of an ensemble with ab_sym. *)
From Coq Require Import Reals List Arith Lia Lra ZArith Bool String.
From Verif Require Import Base BaseLemmas GridModel GridSpec GridProofs GridWitness GridMore HartreeModel SolverModel SolverSpec SolverProofs SolverThms SolverWitness SolverCases LibxcModel OptionsModel OptionsProofs KSModel KSSpec KSProofs KSThms KSLoop KSEnergy KSTotal KSWit
  InverterModel InverterWit PartitionModel PartitionSpec PartitionBase PartitionConstr PartitionDens PartitionFrame PartitionEnergy PartitionEp PartitionTotal PartitionLoop PartitionStep PartitionPass PartitionScf PartitionRun PartitionFinal PartitionOverlap PartitionModes PartitionNew PartitionGood PartitionWit PartitionWit2.
Import ListNotations.
Local Open Scope R_scope.
Local Opaque sinh cosh.

(** ** The energy of fragment B *)
Lemma eb_wrong : forall g w p F e p', energies p F e -> energy g w p = Ok p' -> p_ens p = true -> po_ab (p_opt p) = false ->
  (p_E p' "Eb"%string = Some (share (po_ess (p_opt p)) F [Cb; CB] (fun c => to_R (E_E (e c)))) <-> f_scale (F Cb) * to_R (E_E (e Cb)) = f_scale (F CB) * to_R (E_E (e CB))).
Proof.
  intros g w p F e p' HE H EN AB. destruct (energy_parts _ _ _ _ _ _ HE H) as (_ & E & _). rewrite E. unfold of_B, b_list. rewrite AB, EN. unfold share. cbn [lsum]. split.
  - intros Q. injection Q as Q. destruct (po_ess (p_opt p)); lra.
  - intros Q. f_equal. rewrite Q. reflexivity.
Qed.
(** The object p with the given densities, fractions Q, energies and Hartree energy densities of the components. *)
Definition by_hand (n q : comp -> mat) (e : kse) (h : vec) (p : part) : part :=
  with_f p (fun c => match p_f p c with Some f => Some (fQ (fk f (set_EV (set_n (f_ks f) (Some (n c))) (Some e) (mkV None None None None None (Some h)))) (Some (q c))) | None => None end).
Definition one_energy : kse := mkE (fun _ => 1) (fun _ => Fin 1) (Fin 1) [1] 1 1 (Some 1) (Some 1) 1 1 (Fin 1) 0 (Fin 1).
Definition F_hand (n q : comp -> mat) (h : vec) (F : comp -> frag) (c : comp) : frag := fQ (fk (F c) (set_EV (set_n (f_ks (F c)) (Some (n c))) (Some one_energy) (mkV None None None None None (Some h)))) (Some (q c)).
Lemma hand_frags : forall n q h p F, frags p F -> frags (by_hand n q one_energy h p) (F_hand n q h F).
Proof. intros n q h p F H c Hc. cbn [by_hand with_f p_f p_ens] in *. rewrite (H c Hc). reflexivity. Qed.
Lemma energy_isolated : forall g w p F e, energies p F e -> po_iso (p_opt p) = true ->
  (forall c, member (p_ens p) c -> exists E T Eh Vh, E_E (e c) = Fin E /\ E_Ts (e c) = Fin T /\ E_Eh (e c) = Some Eh /\ E_Vhxc (e c) = Some Vh) -> exists p', energy g w p = Ok p'.
Proof.
  intros g w p F e (HF & HE) ISO HV.
  assert (S : forall dft l a, (forall c, In c l -> member (p_ens p) c) -> exists b, forL l (es_step dft p) a = Ok b).
  { intros dft l. induction l as [|c l IH]; intros a Hl; cbn [forL]; [eauto|]. assert (M := Hl c (or_introl eq_refl)). destruct (HV c M) as (E & T & Eh & Vh & V1 & V2 & V3 & V4).
    unfold es_step at 1. unfold get_f. rewrite (HF c M). cbn [have bind]. rewrite (HE c M). cbn [have bind]. rewrite V1, V2. cbn [fin bind]. destruct dft; [rewrite V3, V4; cbn [have bind]|]; apply IH; intros; apply Hl; right; auto. }
  assert (V : forall q l a, p_f q = p_f p -> (forall c, In c l -> member (p_ens p) c) -> exists b, forL l (fun c acc => do f <- get_f q c; do x <- have (k_E (f_ks f)); Ok (acc ++ E_evals x)%list) a = Ok b).
  { intros q l a Hq. revert a. induction l as [|c l IH]; intros a Hl; cbn [forL]; [eauto|]. assert (M := Hl c (or_introl eq_refl)). unfold get_f at 1. rewrite Hq, (HF c M). cbn [have bind]. rewrite (HE c M). cbn [have bind]. apply IH. intros; apply Hl; right; auto. }
  assert (LA : forall c, In c (comps_a (p_ens p)) -> member (p_ens p) c) by (intros c Hc; destruct (p_ens p), c; cbn in *; intuition congruence).
  assert (LB : forall c, In c (comps_b (p_ens p)) -> member (p_ens p) c) by (intros c Hc; destruct (p_ens p), c; cbn in *; intuition congruence).
  assert (LE : forall c, In c (energy_b (p_ens p)) -> member (p_ens p) c) by (intros c Hc; destruct (p_ens p), c; cbn in *; intuition congruence).
  unfold energy. destruct (S (String.eqb (po_int (p_opt p)) "dft") (comps_a (p_ens p)) es0 LA) as (a & ->). cbn [bind].
  assert (B : exists b, (if po_ab (p_opt p) then Ok a else forL (energy_b (p_ens p)) (es_step (String.eqb (po_int (p_opt p)) "dft") p) es0) = Ok b) by (destruct (po_ab (p_opt p)); [eauto|apply S; auto]).
  destruct B as (b & ->). cbn [bind]. unfold partition_energy. match goal with |- context [if po_iso (p_opt ?q) then _ else _] => change (po_iso (p_opt q)) with (po_iso (p_opt p)) end. rewrite ISO. cbn [bind].
  match goal with |- context [attr (p_T ?q) "Ep"] => assert (T : attr (p_T q) "Ep" = Ok (SC 0)) by reflexivity; rewrite T; clear T end. cbn [bind]. unfold evals_of.
  match goal with |- exists p', bind (forL ?l (fun c acc => do f <- get_f ?q c; _) ?x) _ = _ => destruct (V q l x eq_refl LA) as (ea & ->) end. cbn [bind].
  match goal with |- exists p', bind (if _ then _ else forL ?l (fun c acc => do f <- get_f ?q c; _) ?x) _ = _ => destruct (V q l x eq_refl LB) as (eb & ->) end. destruct (po_ab (p_opt p)); cbn [bind]; eauto.
Qed.
Lemma wrong_run : forall Za Zb, exists p F e p', energies p F e /\ energy g22 ex_env p = Ok p' /\ p_ens p = true /\ po_ab (p_opt p) = false /\ p_Za p = Za /\ p_Zb p = Zb /\
  (forall c, member true c -> f_scale (F c) = weight true false (1 / 2) (1 / 4) c /\ E_E (e c) = Fin 1) /\
  p_E p' "Ea"%string = Some 1 /\ p_E p' "Eb"%string = Some (1 / 2).
Proof.
  intros Za Zb. assert (NU : 1 / 2 = 1 <-> 1 / 4 = 1) by lra.
  assert (C : exists d, configure PartitionOptions w_iso = Ok d /\ exists k, configure KohnShamOptions (ks_dict d) = Ok k) by (eexists; (split; [reflexivity|]); eexists; reflexivity).
  destruct C as (d & C & k & C2). destruct (w_init Za Zb (1/2) (1/4) w_iso d k C C2) as (p & H); [injection C as <-; discriminate|injection C as <-; discriminate|exact NU|].
  destruct (init_new _ _ _ _ _ _ _ _ _ H) as (F & HF & _ & W & _).
  pose proof (init_inv _ _ _ _ _ _ _ _ _ H) as (d' & C' & O & _ & PP & PA & PB & _ & _ & _ & _ & _ & _ & EN & _). rewrite C in C'. injection C' as <-.
  assert (I : po_iso (p_opt p) = true /\ po_ab (p_opt p) = false /\ po_ess (p_opt p) = false /\ po_int (p_opt p) = "dft"%string) by (rewrite O; injection C as <-; repeat split). destruct I as (I & AB & ES & IN).
  assert (EN' : p_ens p = true) by (destruct EN as [(X & _)|(_ & _ & X)]; [lra|exact X]).
  set (z := fun (_ : comp) (_ _ : nat) => 0). pose proof (hand_frags z z (fun _ => 0) p F HF) as HH. set (p1 := by_hand z z one_energy (fun _ => 0) p) in *. set (F1 := F_hand z z (fun _ => 0) F) in *.
  assert (HE : energies p1 F1 (fun _ => one_energy)) by (split; [exact HH|reflexivity]).
  assert (X : exists p', energy g22 ex_env p1 = Ok p').
  { apply (energy_isolated g22 ex_env p1 F1 (fun _ => one_energy)); [exact HE|exact I|]. intros c _. exists 1, 1, 1, 1. repeat split. }
  destruct X as (p' & X). exists p1, F1, (fun _ => one_energy), p'. split; [exact HE|]. split; [exact X|]. split; [exact EN'|]. split; [exact AB|]. split; [exact PA|]. split; [exact PB|].
  assert (W' : forall c, member true c -> f_scale (F1 c) = weight true false (1 / 2) (1 / 4) c) by (intros c Hc; rewrite <- EN' in Hc; destruct (W c Hc) as (_ & _ & _ & _ & W'); rewrite EN', ES in W'; exact W').
  split; [intros c Hc; split; [apply W'; exact Hc|reflexivity]|].
  destruct (energy_parts _ _ _ _ _ _ HE X) as (E1 & E2 & _). rewrite E1, E2. unfold of_A, of_B, b_list, share. replace (p_ens p1) with true by (symmetry; exact EN'). replace (po_ess (p_opt p1)) with false by (symmetry; exact ES). replace (po_ab (p_opt p1)) with false by (symmetry; exact AB).
  cbn [lsum map fold_right]. rewrite (W' Ca Logic.I), (W' CA eq_refl), (W' CB eq_refl). unfold weight. cbn [one_energy E_E to_R]. split; f_equal; lra.
Qed.

(** ** The density with ab_sym when nu_a and nu_b differ *)
(** An ensemble with ab_sym built with different nu_a, nu_b. *)
Lemma two_nu : forall Z nua nub, nua <> 1 -> nub <> 1 -> exists p F, partition_init g22 Z Z 2 w_spec nua nub (w_opt "none" true false) = Ok p /\ frags p F /\ p_ens p = true /\ po_ab (p_opt p) = true /\ po_ess (p_opt p) = false /\ p_pol p = 2%nat /\
  (forall c, f_scale (F c) = weight true false nua nub c) /\ (forall c, f_frozen (F c) = None).
Proof.
  intros Z nua nub N1 N2. destruct (w_setup "none" true false Z Z nua nub) as (p & H & _ & AB & ES & _); auto; [split; intros; contradiction|].
  destruct (init_new _ _ _ _ _ _ _ _ _ H) as (F & HF & _ & W & _). pose proof (init_inv _ _ _ _ _ _ _ _ _ H) as (d' & C' & O & _ & PP & PA & PB & _ & _ & _ & _ & _ & _ & EN & FR).
  assert (EN' : p_ens p = true) by (destruct EN as [(X & _)|(_ & _ & X)]; [contradiction|exact X]).
  exists p, F. repeat (split; [assumption|]). split.
  - intros c. assert (M : member (p_ens p) c) by (rewrite EN'; destruct c; cbn; auto). destruct (W c M) as (_ & _ & _ & _ & W'). rewrite W', EN', ES. reflexivity.
  - intros c. assert (M : member (p_ens p) c) by (rewrite EN'; destruct c; cbn; auto). destruct (FR c M) as (f & I & X). destruct (frag_init_inv _ _ _ _ _ _ _ I) as (k & -> & _). rewrite (HF c M) in X. injection X as ->. reflexivity.
Qed.
Definition left_dens (k s : nat) : R := if (k mod 2 =? 0)%nat then 1 else 0.
Definition right_dens (k s : nat) : R := if (k mod 2 =? 0)%nat then 0 else 1.
Lemma left_right : mirrored g22 left_dens right_dens /\ mirrored g22 (fun _ _ => 0) (fun _ _ => 0).
Proof.
  split; intros ia ir s (H1 & H2); [|reflexivity]. unfold left_dens, right_dens, pos. change (Na g22) with 2%nat in *.
  assert (E : forall x, ((x + ir * 2) mod 2 = x mod 2)%nat) by (intros; apply Nat.mod_add; lia).
  destruct ia as [|[|ia]]; [| |lia]; rewrite ?(Nat.mul_comm _ 2), ?(Nat.mul_comm 2 _); cbn [Nat.sub]; rewrite ?E; try (rewrite (Nat.add_comm (ir * 2)), E); reflexivity.
Qed.
Lemma not_symmetric : forall Z nua nub, nua <> 1 -> nub <> 1 -> nua <> nub -> exists p F n p' nf, densities p F n /\ po_ab (p_opt p) = true /\ p_ens p = true /\ (forall c, f_scale (F c) = weight true false nua nub c) /\
  (forall c, member (p_ens p) c -> of_a c -> mirrored g22 (n c) (n (twin c))) /\ p_Za p = Z /\ calc_protomolecule p = Ok p' /\ p_nf p' = Some nf /\ ~ mirrored g22 nf nf.
Proof.
  intros Z nua nub N1 N2 N3. destruct (two_nu Z nua nub N1 N2) as (p & F & H & HF & EN & AB & ES & PO & W & _). pose proof (init_inv _ _ _ _ _ _ _ _ _ H) as (_ & _ & _ & _ & _ & PA & _).
  set (n := fun c => match c with Ca => left_dens | Cb => right_dens | _ => fun _ _ => 0 end). pose proof (hand_frags n n (fun _ => 0) p F HF) as HH. set (p1 := by_hand n n one_energy (fun _ => 0) p) in *. set (F1 := F_hand n n (fun _ => 0) F) in *.
  assert (D : densities p1 F1 n) by (split; [exact HH|reflexivity]). destruct (proto_spec _ _ _ D) as (na & nb & E & VA & VB).
  exists p1, F1, n, (set_dens p1 na nb (fun k s => na k s + nb k s)), (fun k s => na k s + nb k s). split; [exact D|]. split; [exact AB|]. split; [exact EN|]. split; [exact W|]. split; [|split; [exact PA|split; [exact E|split; [reflexivity|]]]].
  - intros c _ Hc. destruct c; try (destruct Hc; discriminate); try discriminate Hc; try contradiction; apply left_right.
  - intros M. specialize (M 0%nat 0%nat 0%nat). cbv beta in M. rewrite !VA, !VB in M. change (p_ens p1) with (p_ens p) in M. change (po_ess (p_opt p1)) with (po_ess (p_opt p)) in M. rewrite EN, ES in M. unfold group in M. cbn [comps_a comps_b lsum] in M.
    change (f_scale (F1 Ca)) with (f_scale (F Ca)) in M. change (f_scale (F1 CA)) with (f_scale (F CA)) in M. change (f_scale (F1 Cb)) with (f_scale (F Cb)) in M. change (f_scale (F1 CB)) with (f_scale (F CB)) in M. rewrite !W in M. unfold weight in M.
    change (pos g22 0 0) with 0%nat in M. change (pos g22 (Na g22 - 1 - 0) 0) with 1%nat in M. unfold n, left_dens, right_dens in M. change (1 mod 2)%nat with 1%nat in M. change (0 mod 2)%nat with 0%nat in M. cbn [Nat.eqb Nat.modulo Nat.divmod snd Nat.sub] in M.
    assert (IP : is_point g22 0 0) by (split; change (Na g22) with 2%nat; change (Nr g22) with 2%nat; lia). specialize (M IP). lra.
Qed.

(** ** The Hartree energy density with ab_sym in an ensemble *)
Lemma hartree_twice : forall g p F q h a k, frags p F -> has_Q p F q -> (forall c, member (p_ens p) c -> V_eh (k_V (f_ks (F c))) = Some (h c)) ->
  forL (comps_ab p) (ehf_step g p) (fun _ => 0) = Ok a -> (k < Nelem g)%nat -> po_ab (p_opt p) = true -> p_ens p = true ->
  (a k = lsum [Ca; CA] (fun c => qpart (p_pol p) F q h c k + mirror1 g (qpart (p_pol p) F q h c) k) <-> qpart (p_pol p) F q h Ca k + mirror1 g (qpart (p_pol p) F q h Ca) k = 0).
Proof. intros g p F q h a k HF HQ HV H Hk AB EN. rewrite (ehf_spec _ _ _ _ _ _ HF HQ HV H k Hk), AB, EN. cbn [lsum]. lra. Qed.
Lemma hartree_wrong : exists p F q h a, frags p F /\ has_Q p F q /\ (forall c, member (p_ens p) c -> V_eh (k_V (f_ks (F c))) = Some (h c)) /\
  forL (comps_ab p) (ehf_step g22 p) (fun _ => 0) = Ok a /\ po_ab (p_opt p) = true /\ p_ens p = true /\
  forall k, (k < Nelem g22)%nat -> a k = 3 / 2 /\ lsum [Ca; CA] (fun c => qpart (p_pol p) F q h c k + mirror1 g22 (qpart (p_pol p) F q h c) k) = 1.
Proof.
  destruct (two_nu 1 (1 / 2) (1 / 2)) as (p & F & H & HF & EN & AB & ES & PO & W & FZ); [lra|lra|].
  set (q := fun (_ : comp) (_ _ : nat) => 1 / 8). pose proof (hand_frags q q (fun _ => 1) p F HF) as HH. set (p1 := by_hand q q one_energy (fun _ => 1) p) in *. set (F1 := F_hand q q (fun _ => 1) F) in *.
  assert (HQ : has_Q p1 F1 q) by (intros c _; reflexivity). assert (HV : forall c, member (p_ens p1) c -> V_eh (k_V (f_ks (F1 c))) = Some (fun _ => 1)) by reflexivity.
  assert (E : exists a, forL (comps_ab p1) (ehf_step g22 p1) (fun _ => 0) = Ok a).
  { unfold comps_ab. change (po_ab (p_opt p1)) with (po_ab (p_opt p)). change (p_ens p1) with (p_ens p). rewrite AB, EN. assert (M : forall c, p_f p1 c = Some (F1 c)) by (intros c; apply HH; change (p_ens p1) with (p_ens p); rewrite EN; destruct c; cbn; auto).
    cbn [comps_a forL]. unfold ehf_step, get_f. rewrite !M. cbn [have bind]. unfold active. change (f_frozen (F1 Ca)) with (f_frozen (F Ca)). change (f_frozen (F1 CA)) with (f_frozen (F CA)). rewrite !FZ. change (getQ (F1 Ca)) with (Ok (q Ca)). change (getQ (F1 CA)) with (Ok (q CA)). cbn [bind].
    change (V_eh (k_V (f_ks (F1 Ca)))) with (Some (fun _ : nat => 1)). change (V_eh (k_V (f_ks (F1 CA)))) with (Some (fun _ : nat => 1)). cbn [have bind]. eauto. }
  destruct E as (a & E). exists p1, F1, q, (fun _ _ => 1), a. repeat (split; [first [exact HH|exact HQ|exact HV|exact E|exact AB|exact EN]|]).
  assert (Q : forall c k, qpart (p_pol p1) F1 q (fun _ _ => 1) c k = 1 / 4).
  { intros c k. unfold qpart. change (f_frozen (F1 c)) with (f_frozen (F c)). rewrite FZ. change (p_pol p1) with (p_pol p). rewrite PO. cbn [sumR]. unfold q. lra. }
  intros k Hk. rewrite (ehf_spec g22 p1 F1 q (fun _ _ => 1) a HH HQ HV E k Hk). change (po_ab (p_opt p1)) with (po_ab (p_opt p)). change (p_ens p1) with (p_ens p). rewrite AB, EN. unfold mirror1, mirror_flat, ravel3, square. cbn [lsum]. rewrite !Q. split; lra.
Qed.
