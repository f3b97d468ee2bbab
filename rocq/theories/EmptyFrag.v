(** A fragment without nucleus and electrons has no influence on the other fragment. *)
From Coq Require Import Reals List Arith Lia Lra ZArith Bool String FunctionalExtensionality.
From Verif Require Import Base BaseLemmas GridModel GridSpec GridProofs HartreeModel SolverModel SolverSpec SolverProofs LibxcModel OptionsModel KSModel KSSpec KSProofs KSThms KSLoop KSEnergy KSTotal
  InverterModel InverterThms PartitionModel PartitionSpec PartitionBase PartitionConstr PartitionDens PartitionFrame PartitionEnergy PartitionLoop PartitionStep PartitionKeep PartitionPass PartitionScf PartitionRun PartitionFinal PartitionCount PartitionNew SelfConsistent NonInteracting Isolated EmbedPot EmbedEnergy.
Import ListNotations.
Local Open Scope R_scope.

(** No electrons are asked for. *)
Definition no_electrons (s : fspec) : Prop := forall i j, (i < fs_lv s)%nat -> (j < fs_cols s)%nat -> fs_N s i j = 0.

(** * Solvers without electrons *)
Lemma nocc_none : forall s, s_N s = 0 -> nocc s = (0%Z, 0).
Proof.
  intros s H. assert (Z : forall c, floorZ (0 / c) = 0%Z) by (intros c; unfold Rdiv; rewrite Rmult_0_l; apply (floorZ_IZR 0)). assert (Y : floorZ 0 = 0%Z) by apply (floorZ_IZR 0).
  unfold nocc. rewrite H. cbv zeta beta. destruct (s_m s =? 0)%Z, (s_pol s =? 1)%nat; rewrite ?Z, ?Y; f_equal; unfold Rdiv; rewrite ?Rmult_0_l; ring.
Qed.
Lemma dens_none : forall g s x, s_N s = 0 -> dens g s x = 0.
Proof.
  intros g s x H. unfold dens, calc_density. rewrite (nocc_none s H). cbn [Z.to_nat dens_loop bind]. unfold nonzero. destruct (Req_EM_T 0 0) as [_|N]; [|destruct N; reflexivity]. rewrite andb_false_r. cbn [bind]. rewrite shell_scale_form. ring.
Qed.
Lemma eks_none : forall s, s_N s = 0 -> eks_of s = 0.
Proof.
  intros s H. unfold eks_of, calc_eks. rewrite (nocc_none s H). cbn [Z.to_nat eks_loop bind]. unfold nonzero. destruct (Req_EM_T 0 0) as [_|N]; [|destruct N; reflexivity]. rewrite andb_false_r. cbn [bind]. rewrite shell_scale_form. ring.
Qed.
Lemma kinetic_none : forall g k, (forall i j, place k i j -> s_N (k_sol k i j) = 0) -> kinetic g k = 0.
Proof.
  intros g k H. unfold kinetic. apply sumR_zero. intros i Hi. apply sumR_zero. intros j Hj. rewrite eks_none by (apply H; split; auto). unfold pot_of.
  rewrite (integrate1_ext g _ (fun _ => 0)); [rewrite integrate1_zero; ring|]. intros x _. rewrite dens_none by (apply H; split; auto). ring.
Qed.
Lemma ks_density_none : forall g w it dif l k k' n, (forall i j, place k i j -> s_N (k_sol k i j) = 0) -> ks_density g w it dif l k = Ok (k', n) -> forall x j, n x j = 0.
Proof.
  intros g w it dif l k k' n HN H. apply density_inv in H. destruct H as (sol & n0 & -> & A1 & _ & S & ->). apply sum_dens_spec in S. destruct S as (_ & S2).
  assert (E : forall x j, n0 x j = 0).
  { intros x j. rewrite S2. destruct (Nat.ltb_spec j (k_cols k)); [|reflexivity]. apply sumR_zero. intros i Hi. destruct (A1 i j) as (r & _ & ->); [split; auto|]. apply dens_none. cbn [set_result s_N]. apply HN. split; auto. }
  intros x j. destruct (o_sym (k_opt k)); [|apply E]. unfold sym_avgR, sym_avg, mirror2, mirror1, mirror_flat, ravel3, square, flattenF. rewrite !E. field.
Qed.

(** * Runs *)
Lemma init_none : forall g Za Zb pol spec nua nub opt p c f, partition_init g Za Zb pol spec nua nub opt = Ok p -> member (p_ens p) c -> no_electrons (spec c) -> p_f p c = Some f ->
  k_n (f_ks f) = None /\ forall i j, place (f_ks f) i j -> s_N (k_sol (f_ks f) i j) = 0.
Proof.
  intros g Za Zb pol spec nua nub opt p c f H Hc NE F. apply init_inv in H. destruct H as (d & _ & _ & _ & _ & _ & _ & _ & _ & _ & _ & _ & _ & _ & FR). destruct (FR c Hc) as (f0 & FI & F0). rewrite F in F0. injection F0 as ->.
  apply frag_init_inv in FI. destruct FI as (k & -> & _ & _ & _ & L & C & N & _ & _ & _ & _ & _ & _ & _ & _ & _ & _ & _ & S). cbn [fscale new_frag f_ks]. split; auto. intros i j P. destruct (S i j P) as (_ & -> & _). destruct P as (P1 & P2). apply NE; congruence.
Qed.
(** A component without electrons has no density. *)
Theorem empty_density : forall g w Za Zb pol spec nua nub opt p sched d o n l s c, partition_init g Za Zb pol spec nua nub opt = Ok p -> passes g w sched d p o n l s -> computed p c -> no_electrons (spec c) ->
  exists f m, p_f (q_p s) c = Some f /\ k_n (f_ks f) = Some m /\ forall x j, m x j = 0.
Proof.
  intros g w Za Zb pol spec nua nub opt p sched d o n l s c H P Hc NE. destruct (run_static _ _ _ _ _ _ _ _ _ P) as (_ & _ & _ & _ & _ & _ & _ & _ & _ & _ & R). destruct (R c (proj1 Hc)) as (f0 & _ & F0 & _).
  destruct (init_none _ _ _ _ _ _ _ _ _ _ _ H (proj1 Hc) NE F0) as (N0 & S0).
  apply (run_density _ _ _ _ _ _ _ _ _ P c f0 (fun m => forall x j, m x j = 0)); auto.
  - intros _ m N. congruence.
  - intros k1 k2 it dif sc m F D. eapply ks_density_none; [|exact D]. intros i j Hp. destruct F as (_ & _ & _ & _ & F5 & F6 & _ & F8). destruct (F8 i j) as (_ & _ & -> & _). apply S0. unfold place in *. rewrite <- F5, <- F6. exact Hp.
  - intros al a b _ Ha Hb x j. rewrite Ha, Hb. ring.
Qed.

Lemma kinetic_pot_det : forall g w p n v v', kinetic_pot g w p n v -> kinetic_pot g w p n v' -> forall x j, v x j = v' x j.
Proof.
  intros g w p n v v' [(A & B)|(A & T & t & B)] [(C & D)|(C & T' & t' & D)] x j; try congruence; rewrite A in C; discriminate C.
Qed.
Lemma repulsion_pot_det : forall g w p n v v', repulsion_pot g w p n v -> repulsion_pot g w p n v' -> forall x j, v x j = v' x j.
Proof.
  intros g w p n v v' [(A & B & C)|(A & xx & cc & vh & B1 & B2 & B3 & B4)] [(D & E & F)|(D & xx' & cc' & vh' & E1 & E2 & E3 & E4)] x j; try congruence; try (rewrite A in D; discriminate D).
  rewrite B1 in E1. injection E1 as <-. rewrite B2 in E2. injection E2 as <-. rewrite B3 in E3. injection E3 as <-. destruct B4 as [(B4 & B5)|(B4 & B5)], E4 as [(E4 & E5)|(E4 & E5)]; try (rewrite B4 in E4; discriminate E4); rewrite B5, E5; reflexivity.
Qed.
Lemma coulomb_none : forall g k, coulomb g 0 0 k = 0.
Proof. intros. unfold coulomb, Rdiv. ring. Qed.

(** A partition whose fragment B has neither nucleus nor electrons, nothing else unusual. *)
Definition lone (g : grid) (Za : R) (pol : nat) (spec : comp -> fspec) (opt : dict) (p : part) : Prop := partition_init g Za 0 pol spec 1 1 opt = Ok p /\ (pol <= 2)%nat /\ no_electrons (spec Cb) /\
  po_sym (p_opt p) = false /\ explicit p /\ po_iso (p_opt p) = false /\ po_ab (p_opt p) = false /\ po_ess (p_opt p) = false.
Lemma lone_ens : forall g Za pol spec opt p, lone g Za pol spec opt p -> p_ens p = false.
Proof. intros g Za pol spec opt p (H & _). apply init_inv in H. destruct H as (d & _ & _ & _ & _ & _ & _ & _ & _ & _ & _ & _ & _ & E & _). destruct E as [(_ & _ & E & _)|(E & _)]; [exact E|destruct E; reflexivity]. Qed.
Lemma lone_weight : forall g Za pol spec opt p c f, lone g Za pol spec opt p -> member false c -> p_f p c = Some f -> f_scale f = 1.
Proof.
  intros g Za pol spec opt p c f L Hc F. pose proof (lone_ens _ _ _ _ _ _ L) as E. destruct L as (H & _ & _ & _ & _ & _ & _ & ES). apply init_inv in H. destruct H as (d & _ & _ & _ & _ & _ & _ & _ & _ & _ & _ & _ & _ & _ & FR).
  destruct (FR c) as (f0 & _ & F0); [rewrite E; exact Hc|]. rewrite F in F0. injection F0 as ->. cbn [fscale f_scale]. rewrite E, ES. unfold weight. try ring.
Qed.
(** The molecular density is that of fragment A. *)
Lemma lone_density : forall g w Za pol spec opt p sched d o n l s, lone g Za pol spec opt p -> passes g w sched d p o n l s -> ps_target o = false -> exists F m na nb nf q, settled g (q_p s) F m na nb nf q /\ p_f (q_p s) Ca = Some (F Ca) /\
  k_n (f_ks (F Ca)) = Some nf /\ (forall x j, m Cb x j = 0) /\ forall x j, q Cb x j = 0.
Proof.
  intros g w Za pol spec opt p sched d o n l s L P T. pose proof (lone_ens _ _ _ _ _ _ L) as E. pose proof L as (H & HP & NE & SY & EX & IS & AB & ES).
  destruct (run_settled _ _ _ _ _ _ _ _ _ P T) as (F & m & na & nb & nf & q & ST & _). exists F, m, na, nb, nf, q. split; [exact ST|]. destruct ST as ((D1 & D2) & (P1 & P2 & P3 & P4 & P5 & P6) & QF & _).
  destruct (run_static _ _ _ _ _ _ _ _ _ P) as (O & PP & _ & _ & _ & _ & EE & _ & _ & _ & R). rewrite EE, E in *. rewrite O, ES in *.
  destruct (empty_density _ _ _ _ _ _ _ _ _ _ _ _ _ _ _ _ Cb H P) as (fb & mb & B1 & B2 & B3); [split; [rewrite E; exact Logic.I|congruence]|exact NE|].
  assert (CA : member false Ca) by exact Logic.I. assert (CB : member false Cb) by exact Logic.I.
  assert (MB : forall x j, m Cb x j = 0). { intros x j. rewrite (D1 Cb CB) in B1. injection B1 as <-. rewrite (D2 Cb CB) in B2. injection B2 as ->. apply B3. }
  assert (SA : f_scale (F Ca) = 1 /\ f_scale (F Cb) = 1).
  { split; [destruct (R Ca CA) as (f0 & f1 & F0 & F1 & _ & SC & _); rewrite (D1 Ca CA) in F1|destruct (R Cb CB) as (f0 & f1 & F0 & F1 & _ & SC & _); rewrite (D1 Cb CB) in F1]; injection F1 as <-; rewrite SC; [exact (lone_weight _ _ _ _ _ _ Ca f0 L CA F0)|exact (lone_weight _ _ _ _ _ _ Cb f0 L CB F0)]. }
  destruct SA as (SA & SB). split; [apply D1, CA|]. split; [|split; [exact MB|]].
  - rewrite (D2 Ca CA). f_equal. apply functional_extensionality. intros x. apply functional_extensionality. intros j. rewrite P6, P4, P5. unfold group. cbn [lsum]. rewrite SA, SB, MB. ring.
  - intros x j. destruct (QF Cb CB) as (_ & Q). destruct (Q x j) as (Q1 & Q2). destruct (Req_dec (nf x j) 0) as [Z|Z]; [apply Q2, Z|]. rewrite (Q1 Z), MB. unfold Rdiv. ring.
Qed.

(** Neither its own embedding potential nor the common partition potential acts on fragment A. *)
Theorem empty_pass : forall g w Za pol spec opt p sched d o n l s0 s, lone g Za pol spec opt p -> passes g w sched d p o n l s0 -> psc_body g w o (sched (q_iter s0)) s0 = Ok s -> ps_target o = false ->
  exists f0 nf f v vp, p_f (q_p s0) Ca = Some f0 /\ k_n (f_ks f0) = Some nf /\ p_nf (q_p s0) = Some nf /\ p_f (q_p s) Ca = Some f /\ f_V f "vp"%string = Some v /\ p_V (q_p s) "vp"%string = Some vp /\
    forall k j, (k < Nelem g)%nat -> (j < pol)%nat -> v k j = 0 /\ vp k j = 0.
Proof.
  intros g w Za pol spec opt p sched d o n l s0 s L P B T. pose proof (lone_ens _ _ _ _ _ _ L) as E. destruct (lone_density _ _ _ _ _ _ _ _ _ _ _ _ _ L P T) as (F & m & na & nb & nf & q & ST & FA & NA & MB & QB).
  pose proof L as (H & HP & NE & SY & EX & IS & AB & ES). destruct (run_static _ _ _ _ _ _ _ _ _ P) as (O & PP & _ & _ & _ & _ & EE & _). assert (P1 : p_pol p = pol) by (apply init_inv in H; destruct H as (d0 & _ & _ & _ & X & _); exact X).
  assert (NF : p_nf (q_p s0) = Some nf) by (destruct ST as (_ & (_ & _ & X & _) & _); exact X).
  destruct (embedding_functional _ _ _ _ _ _ _ _ _ _ _ _ _ _ _ _ _ H HP SY EX IS P B) as (nf' & t & h & Y1 & Y2 & Y3 & Y4). rewrite NF in Y1. injection Y1 as <-.
  destruct (Y4 Ca) as (f0 & m0 & tc & hc & f & v & A1 & A2 & A3 & A4 & A5 & A6 & _ & A8); [split; [rewrite E; exact Logic.I|congruence]|]. rewrite FA in A1. injection A1 as <-. rewrite NA in A2. injection A2 as <-.
  destruct (pass_common _ _ _ _ _ _ _ _ _ _ _ _ B ltac:(rewrite O; exact IS) ltac:(rewrite O; exact AB) ST) as (vp & u & V1 & V2 & V3). rewrite EE, E, O, ES in *.
  destruct (V2 Ca Logic.I) as (f2 & G1 & G2). rewrite A5 in G1. injection G1 as <-. rewrite A6 in G2. injection G2 as UA.
  exists (F Ca), nf, f, v, vp. do 6 (split; [assumption|]). intros k j Hk Hj.
  assert (Z : v k j = 0). { rewrite A8 by assumption. rewrite (kinetic_pot_det _ _ _ _ _ _ Y2 A3), (repulsion_pot_det _ _ _ _ _ _ Y3 A4), coulomb_none. ring. }
  split; [exact Z|]. rewrite V3 by (auto; rewrite PP, P1; exact Hj). cbn [lsum]. rewrite <- UA, Z, QB. ring.
Qed.

(** * The remaining fragment runs like a separate calculation *)
Lemma shot_pol : forall g w k v k2 n i j, shot g w k v k2 n -> place k i j -> (j < k_pol k)%nat.
Proof.
  intros g w k v k2 n i j (it & dif & l & k1 & F & _ & D) Hp. apply density_inv in D. destruct D as (sol & n0 & _ & _ & _ & S & _). apply sum_dens_spec in S. destruct S as (S1 & _). destruct F as (_ & _ & _ & F4 & F5 & F6 & _).
  rewrite <- F4. apply (S1 i j). unfold place. rewrite F5, F6. exact Hp.
Qed.
(** The potential may be changed off the grid. *)
Lemma shot_det_pol : forall g w k v v' k2 k2' n n', steady g w -> (forall x j, (x < Nelem g)%nat -> (j < k_pol k)%nat -> v x j = v' x j) -> shot g w k v k2 n -> shot g w k v' k2' n' ->
  n' = n /\ forall i j, place k i j -> exists s s' r, k_sol k2 i j = set_result s r /\ k_sol k2' i j = set_result s' r /\ same_static s s' /\ forall x, (x < Nelem g)%nat -> s_veff s' x = s_veff s x.
Proof.
  intros g w k v v' k2 k2' n n' ST HV S S'. apply (shot_det g w k v (fun x j => if (j <? k_pol k)%nat then v' x j else v x j)); auto.
  - intros x j Hx. destruct (Nat.ltb_spec j (k_pol k)); auto.
  - pose proof S' as S0. destruct S' as (it & dif & l & k1 & F & V & D). exists it, dif, l, k1. split; auto. split; auto. intros i j Hp x. pose proof (shot_pol _ _ _ _ _ _ i j S0 Hp) as Q. apply Nat.ltb_lt in Q. rewrite Q. apply V, Hp.
Qed.

Theorem lone_iterates : forall g w Za pol spec opt p sched d o n l s f0 a, steady g (pe_env w) -> lone g Za pol spec opt p -> passes g w sched d p o n l s -> ps_cont o = false -> ps_target o = false ->
  p_f p Ca = Some f0 -> step_size (ps_alpha o) Ca = Some a -> forall m e, iterate g (pe_env w) (f_ks f0) (fun _ _ => 0) a n m e ->
  exists f v, p_f (q_p s) Ca = Some f /\ k_n (f_ks f) = Some m /\ k_vext (f_ks f) = Some v /\ (forall x j, (x < Nelem g)%nat -> (j < pol)%nat -> v x j = 0) /\ ((0 < n)%nat -> exists E, k_E (f_ks f) = Some E /\ E_E E = e).
Proof.
  intros g w Za pol spec opt p sched d o n l s f0 a ST L H HC T F0 HA. pose proof (lone_ens _ _ _ _ _ _ L) as EN. assert (Hc : computed p Ca) by (split; [rewrite EN; exact Logic.I|intros; left; reflexivity]).
  assert (PK : (k_pol (f_ks f0) =? pol)%nat = true). { apply Nat.eqb_eq. pose proof L as (IN & _). pose proof (init_uniform _ _ _ _ _ _ _ _ _ IN Ca f0 (proj1 Hc) F0) as (-> & _). apply init_inv in IN. destruct IN as (d0 & _ & _ & _ & X & _). exact X. }
  induction H as [p0 nf O S N|n l s s' HP IH TT B]; intros m e IT.
  - cbn [q_p]. destruct (start_frag _ _ _ _ _ _ S Ca Hc) as (f & fi & f1 & f' & X1 & X2 & X3 & X4 & X5). rewrite F0 in X1. injection X1 as <-.
    pose proof (guess_frag_inv _ _ _ _ _ _ X3) as (_ & m0 & N1 & Y). rewrite HC in Y. destruct Y as (_ & _ & _ & _ & VX & _).
    unfold guess_frag in X3. rewrite HC in X3. destruct (set_effective_potential _) as [k1|] eqn:E1; [|discriminate]. cbn [bind] in X3. destruct (ks_density _ _ _ _ _ _) as [[k2 n2]|] eqn:D; [|discriminate]. cbn [bind fst snd] in X3.
    unfold frag_chempot in X3. cbn [fk f_ks] in X3. destruct (calc_chempot _) as [k2'|] eqn:C'; [|discriminate]. cbn [bind] in X3. injection X3 as <-. apply chempot_keep in C'. destruct C' as (u & ->). cbn [fhomo fk f_ks set_u set_n k_n] in N1. injection N1 as <-.
    inversion IT as [k9 n9 SH|]; subst. assert (SH2 : shot g (pe_env w) (f_ks f0) (fun x j => k_vnuc (f_ks f0) x j + 0) k2 n2).
    { pose proof (eff_frame _ _ E1) as F1. apply eff_pot in E1. destruct E1 as (ve & vh & A1 & A2 & A3 & A4 & _). cbn [set_vhxc set_vext k_vext k_vhxc k_vnuc] in A1, A2, A3, A4. injection A1 as <-. injection A2 as <-. rewrite X2 in *.
      exists (ps_iter o), (Fin 0), (sched 0%Z Ca), k1. split; [exact F1|]. split; [|exact D]. intros i j Hp x. destruct (A4 i j Hp) as (_ & ->). cbn [set_veff s_veff]. unfold add3. ring. }
    destruct (shot_det _ _ _ _ _ _ _ _ _ ST (fun x j _ => eq_refl) SH SH2) as (-> & _).
    exists f', (fun _ _ => 0). split; auto. rewrite X5. split; [reflexivity|]. split; [exact VX|]. split; [reflexivity|lia].
  - inversion IT as [|i m1 e1 vh2 k22 nout2 e2 IT1 RP SH ENG]; subst. destruct (IH _ _ IT1) as (f & v & I1 & I2 & I3 & I4 & _). pose proof (run_static _ _ _ _ _ _ _ _ _ HP) as (R1 & _ & _ & _ & _ & _ & R7 & _ & _ & _ & R).
    destruct (R Ca (proj1 Hc)) as (f0' & ff & Y1 & Y2 & Y3 & _ & Y5 & _). rewrite F0 in Y1. injection Y1 as <-. rewrite I1 in Y2. injection Y2 as <-. rewrite HA in Y5. injection Y5 as ->.
    destruct (empty_pass _ _ _ _ _ _ _ _ _ _ _ _ _ _ L HP B T) as (fz & nfz & fz' & vz & vpz & _ & _ & _ & EF & EV & EP & EZ).
    assert (IS : po_iso (p_opt (q_p s)) = false) by (rewrite R1; apply L).
    apply PartitionLoop.body_inv in B. destruct B as (pa & ra & fla & WA & _ & ->). assert (Qa : q_p (psc_next o s pa ra fla) = pa) by (destruct ra as [[? ?] ?]; reflexivity). rewrite Qa in *. clear Qa.
    assert (C' : In Ca (comps_ab (q_p s))) by (apply computed_in; unfold computed; rewrite R1, R7; exact Hc).
    destruct (work_frag _ _ _ _ _ _ _ WA) as (pa3 & pav & va & U1 & U2 & _ & U4 & _ & _ & U5). destruct (U5 Ca C') as (g1 & g2 & g3 & g4 & g5 & V1 & V2 & V3 & V4 & V5 & V6 & V7 & V8 & _ & _ & _ & _ & V13).
    rewrite I1 in V1. injection V1 as <-. rewrite V7 in EF. injection EF as <-. rewrite (U4 IS) in EP. injection EP as <-. rewrite V13 in EV.
    apply hxc_frag_inv in V2. destruct V2 as ((L1 & L1' & L3 & L4 & L5 & L6) & L7 & L8 & L9 & _ & _ & k & vv & L12 & L13 & L14 & L15 & _).
    assert (KS : f_ks g3 = f_ks g2 /\ f_alpha g3 = f_alpha g2) by (destruct V5 as (K1 & _ & _ & K4 & _); auto). destruct KS as (KS & KA).
    assert (VX : exists v', k_vext (f_ks g4) = Some v' /\ forall x j, (x < Nelem g)%nat -> (j < pol)%nat -> v' x j = 0).
    { apply step_inv in V6. destruct V6 as (_ & x & _ & _ & _ & _ & G1 & _ & _ & _ & G5 & _). rewrite G5. unfold new_vext in G1. unfold attr in G1. rewrite EV in G1. cbn [have bind] in G1.
      destruct (f_frozen g3) as [[|]|]; [| |]; [injection G1 as <-; exists v; split; [rewrite KS, L9; exact I3|exact I4]| |]; (destruct (ps_sdft o); injection G1 as <-; eexists; (split; [reflexivity|]); intros x' j' Hx Hj; destruct (EZ x' j' Hx Hj); assumption). }
    apply step_energy in V6. destruct V6 as (k0 & k1 & k2 & n1 & nout & k3 & k4 & E & S1 & S2 & S3 & S4 & S5 & S6 & S7 & S8 & S9 & S10 & S11 & S12). rewrite KS, KA in *.
    destruct VX as (vx & VX1 & VX2). assert (NE : n1 = m1) by congruence. subst n1. rewrite L3 in S7.
    assert (F1 : frame (f_ks f) k1) by (eapply frame_trans; [exact L1|]; eapply frame_trans; [exact S2|]; apply eff_frame, S1).
    assert (RP1 : repulsion g (pe_env w) (f_ks f0) m1 vv) by (exists (f_ks f), k; split; [exact Y3|]; auto).
    assert (SH1 : shot g (pe_env w) (f_ks f0) (fun x j => k_vnuc (f_ks f0) x j + vx x j + vv x j) k2 nout).
    { exists (ps_iter o), (q_dif s), (sched (q_iter s) Ca), k1. split; [eapply frame_trans; eauto|]. split; [|exact S5]. intros i j Hp x. apply eff_pot in S1. destruct S1 as (ve & vh & A1 & A2 & A3 & A4 & _).
      assert (F0k : frame (f_ks f0) k0) by (eapply frame_trans; [exact Y3|]; eapply frame_trans; [exact L1|exact S2]).
      assert (Hp' : place k0 i j) by (destruct F0k as (_ & _ & _ & _ & J5 & J6 & _); unfold place in *; rewrite J5, J6; exact Hp). destruct (A4 i j Hp') as (_ & ->). cbn [set_veff s_veff]. unfold add3.
      destruct F0k as (_ & _ & _ & _ & _ & _ & -> & _). assert (ve = vx) as -> by congruence. assert (VH : vh x j = vv x j). { apply L15. rewrite <- S3. exact A2. } rewrite VH. ring. }
    pose proof (repulsion_det _ _ _ _ _ _ RP RP1) as RD.
    assert (VVV : forall x j, (x < Nelem g)%nat -> (j < k_pol (f_ks f0))%nat -> (fun x j => k_vnuc (f_ks f0) x j + 0 + vh2 x j) x j = (fun x j => k_vnuc (f_ks f0) x j + vx x j + vv x j) x j) by (intros x j Hx Hj; cbv beta; apply Nat.eqb_eq in PK; rewrite RD, VX2 by (auto; congruence); ring).
    destruct (shot_det_pol _ _ _ _ _ _ _ _ _ ST VVV SH SH1) as (EQ & QQ).
    subst nout. assert (EO : energy_of g (pe_env w) (f_ks f0) k2 (fun x j => (1 - f_alpha f) * m1 x j + f_alpha f * nout2 x j) (E_E E)).
    { exists k3, k4, E. split; [eapply frame_trans; [exact Y3|]; eapply frame_trans; [exact F1|]; eapply frame_trans; [eapply density_frame; exact S5|exact S8]|]. split; [intros; rewrite S9; reflexivity|]. split; [exact S7|]. auto. }
    exists g5, vx. split; [exact V7|]. split; [|split; [|split]].
    + pose proof (energy_keep _ _ _ _ S10) as (EE & VV & K4). rewrite V8, S11, K4. cbn [set_EV k_n]. exact S7.
    + rewrite V8. exact VX1.
    + exact VX2.
    + intros _. exists E. split; [rewrite V8, S11; exact S12|]. symmetry. eapply energy_of_det; eauto.
Qed.

Theorem lone_as_kohnsham : forall g w Za pol spec opt p sched d o n l s f0 a ko ksched k st, steady g (pe_env w) -> lone g Za pol spec opt p -> passes g w sched d p o n l s -> ps_cont o = false -> ps_target o = false ->
  p_f p Ca = Some f0 -> step_size (ps_alpha o) Ca = Some a ->
  scf_trace g (pe_env w) ko ksched k st -> frame (f_ks f0) k -> k_vext k = None -> so_cont ko = false -> so_flip ko = false -> so_alpha ko = a -> c_iter st = (Z.of_nat n + 1)%Z ->
  exists f m, p_f (q_p s) Ca = Some f /\ k_n (f_ks f) = Some m /\ k_n (c_ks st) = Some m /\ p_nf (q_p s) = Some m /\ ((0 < n)%nat -> exists E, k_E (f_ks f) = Some E /\ c_oldE st = E_E E).
Proof.
  intros g w Za pol spec opt p sched d o n l s f0 a ko ksched k st ST L HP HC T F0 HA TR F V KC KF KA IT.
  destruct (ks_iterates _ _ _ _ _ _ KC KF TR) as (m & B1 & _ & B3). rewrite IT, KA in B3. replace (Z.to_nat (Z.of_nat n + 1 - 1)) with n in B3 by lia.
  apply (iterate_frame _ _ _ (f_ks f0)) in B3; [|apply frame_sym; exact F]. replace (outer k) with (fun _ _ : nat => 0) in B3 by (unfold outer; rewrite V; reflexivity).
  destruct (lone_iterates _ _ _ _ _ _ _ _ _ _ _ _ _ _ _ ST L HP HC T F0 HA _ _ B3) as (f & v & A1 & A2 & _ & _ & A5).
  destruct (lone_density _ _ _ _ _ _ _ _ _ _ _ _ _ L HP T) as (FF & mm & na & nb & nf & q & SE & FA & NA & _). rewrite A1 in FA. injection FA as ->. rewrite A2 in NA. injection NA as <-.
  exists (FF Ca), m. split; auto. split; auto. split; auto. split; [destruct SE as (_ & (_ & _ & X & _) & _); exact X|]. intros Hn. destruct (A5 Hn) as (X & X1 & X2). exists X. auto.
Qed.

(** * Energy *)
(** The components computed in a pass have been given their energies. *)
Lemma pass_evaluated : forall g w sched d p o n l s c f, passes g w sched d p o (S n) l s -> computed p c -> p_f (q_p s) c = Some f -> exists k e, ks_energy g (pe_env w) k = Ok (f_ks f) /\ k_E (f_ks f) = Some e.
Proof.
  intros g w sched d p o n l s c f H (Hc & Hab) F. destruct (run_static _ _ _ _ _ _ _ _ _ H) as (R1 & _ & _ & _ & _ & _ & R7 & _).
  destruct (pass_ready _ _ _ _ _ _ _ _ _ H) as (p5 & FF & e & E1 & E2 & E3 & E4 & _). destruct (psame_f _ _ _ _ E2 F) as (f5 & F5 & FS). assert (O5 : p_opt p5 = p_opt p) by (destruct E2 as (<- & _); exact R1). assert (N5 : p_ens p5 = p_ens p) by (destruct E2 as (_ & _ & _ & _ & _ & _ & <- & _); exact R7).
  assert (C5 : computed p5 c) by (unfold computed; rewrite O5, N5; split; auto). destruct (E4 c C5) as (k0 & K). rewrite (proj1 E3 c (proj1 C5)) in F5. injection F5 as <-. assert (FK : f_ks f = f_ks (FF c)) by (destruct FS as (X & _); exact X).
  rewrite FK. exists k0, (e c). split; [exact K|]. apply (proj2 E3 c (proj1 C5)).
Qed.

Lemma kinetic_int_none : forall g w p T, kinetic_int g w p (fun _ _ => 0) T -> T = 0.
Proof.
  intros g w p T [(_ & H)|(_ & t & v & H)]; [exact H|]. unfold get_xc in H. destruct (get_xc_dictionary _ _ _ _ _ _) as [d|]; [|discriminate]. cbn [bind] in H. cbv zeta in H. assert (E : T = integrate1 g (sum_cols (p_pol p) (fun k _ => xc_zk d k * 0))) by congruence.
  rewrite E, (integrate1_ext g _ (fun _ => 0)); [apply integrate1_zero|]. intros k _. unfold sum_cols. apply sumR_zero. intros. ring.
Qed.
(** The total energy is that of fragment A, apart from the change of exchange and correlation in the pass. *)
Theorem lone_energy : forall g w Za pol spec opt p sched d o n l s0 s, lone g Za pol spec opt p -> po_hxc (p_opt p) = "exact"%string -> po_int (p_opt p) = "dft"%string ->
  passes g w sched d p o n l s0 -> psc_test o s0 = Ok true -> psc_body g w o (sched (q_iter s0)) s0 = Ok s -> ps_target o = false ->
  exists f E n0 n1 x0 c0 x1 c1, p_f (q_p s) Ca = Some f /\ k_E (f_ks f) = Some E /\ p_nf (q_p s0) = Some n0 /\ p_nf (q_p s) = Some n1 /\
    get_xc g (e_lib (pe_env w)) (po_fam (p_opt p)) (po_xid (p_opt p)) pol n0 = Ok x0 /\ get_xc g (e_lib (pe_env w)) (po_fam (p_opt p)) (po_cid (p_opt p)) pol n0 = Ok c0 /\
    get_xc g (e_lib (pe_env w)) (po_fam (p_opt p)) (po_xid (p_opt p)) pol n1 = Ok x1 /\ get_xc g (e_lib (pe_env w)) (po_fam (p_opt p)) (po_cid (p_opt p)) pol n1 = Ok c1 /\
    p_T (q_p s) "E"%string = Some (SC (to_R (E_E E) + (fst (fst x0) - fst (fst x1)) + (fst (fst c0) - fst (fst c1)))).
Proof.
  intros g w Za pol spec opt p sched d o n l s0 s L HX HI P TT B T. pose proof (lone_ens _ _ _ _ _ _ L) as EN. pose proof L as (H & HP & NE & SY & EX & IS & AB & ES).
  destruct (run_explicit _ _ _ _ _ _ _ _ _ _ _ _ _ _ _ _ _ H HP SY (proj1 EX) HX HI IS AB EN P TT B T) as (nf0 & nf & T0 & n0 & TT' & e & vh & x & c & Y1 & Y2 & Y3 & Y4 & Y5 & Y6 & Y7 & Y8).
  pose proof (pass_step _ _ _ _ _ _ _ _ _ _ P TT B) as P1.
  destruct (lone_density _ _ _ _ _ _ _ _ _ _ _ _ _ L P T) as (F0 & m0 & na0 & nb0 & nf0' & q0 & ST0 & FA0 & NA0 & MB0 & _). destruct (lone_density _ _ _ _ _ _ _ _ _ _ _ _ _ L P1 T) as (F1 & m1 & na1 & nb1 & nf1 & q1 & ST1 & FA1 & NA1 & MB1 & _).
  assert (nf0' = nf0) as -> by (destruct ST0 as (_ & (_ & _ & X & _) & _); congruence). assert (nf1 = nf) as -> by (destruct ST1 as (_ & (_ & _ & X & _) & _); congruence).
  destruct (run_static _ _ _ _ _ _ _ _ _ P1) as (O1 & PP1 & _ & _ & _ & _ & EE1 & _ & _ & _ & R1). destruct (run_static _ _ _ _ _ _ _ _ _ P) as (O0 & PP0 & _ & _ & _ & _ & EE0 & _).
  pose proof (init_inv _ _ _ _ _ _ _ _ _ H) as (dd & _ & _ & _ & PP & _ & _ & _ & _ & _ & VA & _). pose proof (run_uniform _ _ _ _ _ _ _ _ _ P1 (init_uniform _ _ _ _ _ _ _ _ _ H)) as U. destruct (init_new _ _ _ _ _ _ _ _ _ H) as (FN & HFN & HB & _ & HN & _). specialize (HN SY HP).
  destruct (Y4 Ca (or_introl eq_refl)) as (fa & fa' & A1 & A2 & A3 & A4 & A5). destruct (Y4 Cb (or_intror eq_refl)) as (fb & fb' & B1 & B2 & B3 & B4 & B5).
  rewrite FA0 in A1. injection A1 as <-. rewrite NA0 in A2. injection A2 as A2. rewrite FA1 in A4. injection A4 as <-.
  (* kinetic energies *)
  assert (KT : T0 = TT' Ca). { rewrite <- A2 in A3. destruct Y3 as [(Z1 & Z2)|(Z1 & t & v & Z2)], A3 as [(Z3 & Z4)|(Z3 & t' & v' & Z4)]; try congruence; rewrite Z1 in Z3; discriminate Z3. }
  assert (NB : n0 Cb = fun _ _ => 0).
  { destruct ST0 as ((D1 & D2) & _). assert (CB : member (p_ens (q_p s0)) Cb) by (rewrite EE0, EN; exact Logic.I). rewrite (D1 Cb CB) in B1. injection B1 as <-. rewrite (D2 Cb CB) in B2. injection B2 as <-. apply functional_extensionality. intros y. apply functional_extensionality. intros j. apply MB0. }
  assert (KB : TT' Cb = 0) by (eapply kinetic_int_none; rewrite <- NB; exact B3).
  assert (CCA : computed p Ca) by (split; [rewrite EN; exact Logic.I|intros; left; reflexivity]). assert (CCB : computed p Cb) by (split; [rewrite EN; exact Logic.I|congruence]).
  destruct (pass_evaluated _ _ _ _ _ _ _ _ _ _ _ P1 CCB B4) as (kb & eb & KB1 & KB2). rewrite B5 in KB2. injection KB2 as <-.
  assert (TB : to_R (E_Ts (e Cb)) = 0).
  { pose proof (energy_keep _ _ _ _ KB1) as (E9 & V9 & K9). apply energy_inv in KB1. destruct KB1 as (E & n' & ve & H1 & _ & _ & _ & H5 & _). rewrite B5 in H1. injection H1 as <-. rewrite H5. cbn [to_R]. apply kinetic_none. intros i j Hp.
    destruct (R1 Cb (proj1 CCB)) as (f0 & f1 & G0 & G1 & G2 & _). rewrite B4 in G1. injection G1 as <-. destruct (init_none _ _ _ _ _ _ _ _ _ _ _ H (proj1 CCB) NE G0) as (_ & S0). rewrite K9 in G2. destruct G2 as (_ & _ & _ & _ & I5 & I6 & _ & I8). cbn [set_EV k_lv k_cols k_sol] in *.
    destruct (I8 i j) as (_ & _ & -> & _). apply S0. unfold place in *. rewrite <- I5, <- I6. exact Hp. }
  (* energy of fragment A *)
  destruct (pass_evaluated _ _ _ _ _ _ _ _ _ _ _ P1 CCA FA1) as (ka & ea & KA1 & KA2). rewrite A5 in KA2. injection KA2 as <-.
  destruct (U Ca (F1 Ca) ltac:(rewrite EE1; apply CCA) FA1) as (U1 & U2 & U3 & U4 & U5 & U6). rewrite O1 in U2, U3, U4, U5, U6. rewrite PP1, PP in U1.
  destruct (R1 Ca (proj1 CCA)) as (f0 & f1 & G0 & G1 & G2 & _). rewrite FA1 in G1. injection G1 as <-. rewrite (HFN Ca (proj1 CCA)) in G0. injection G0 as <-. destruct (HB Ca (proj1 CCA)) as (_ & _ & HZ). pose proof (HN Ca (proj1 CCA)) as HV. rewrite PP, VA in HV.
  pose proof (energy_keep _ _ _ _ KA1) as (E9 & V9 & K9).
  assert (X : k_n ka = Some nf /\ k_opt ka = k_opt (f_ks (F1 Ca)) /\ k_Za ka = k_Za (f_ks (F1 Ca)) /\ k_Zb ka = k_Zb (f_ks (F1 Ca)) /\ k_pol ka = pol /\ k_vnuc ka = k_vnuc (f_ks (F1 Ca))) by (rewrite K9 in NA1, U1 |- *; simpl in *; repeat split; auto).
  destruct X as (X1 & X2 & X3 & X4 & X5 & X6). apply energy_inv in KA1. destruct KA1 as (E & n' & ve & H1 & H2 & _ & _ & H5 & _ & _ & _ & H9 & _ & H11 & H12). rewrite A5 in H1. injection H1 as <-. rewrite X1 in H2. injection H2 as <-.
  rewrite X2, U2, HI in H12. destruct H12 as [[W _]|(_ & vv & vh' & Ex & ex & vx & Ec & ec & vc & Eh & _ & _ & Z3 & Z4 & Z5 & Z6 & Z7 & Z8 & _)]; [discriminate W|]. rewrite U3, U5, X5 in Z4. rewrite U4, U5, X5 in Z5. rewrite X5 in Z3, Z7.
  exists (F1 Ca), (e Ca), nf0, nf, x, c, (Ex, ex, vx), (Ec, ec, vc). do 8 (split; [assumption|]). rewrite Y8. do 2 f_equal. rewrite Z8, H5, TB, KB, KT. cbn [to_R fst].
  destruct G2 as (_ & I2 & I3 & _ & _ & _ & I7 & _).
  assert (VN : E_Enuc (e Ca) = integrate1 g (fun k => sumR pol (fun s => nf k s) * (coulomb g Za 0 k + coulomb g 0 0 k))).
  { rewrite H9, X5, X6. unfold interaction. rewrite <- pair_integral_sum. unfold pair_integral, sum_cols. apply integrate1_ext. intros k Hk. rewrite coulomb_none, Rplus_0_r, <- sumR_scal_r. apply sumR_ext. intros j Hj. rewrite I7, HV by exact Hj. reflexivity. }
  assert (HH : Eh = 1 / 2 * integrate1 g (fun k => sumR pol (fun s => nf k s) * entry vh k 0)).
  { rewrite Z7. f_equal. apply integrate1_ext. intros k Hk. f_equal. unfold v_hartree in Y5, Z3. destruct (_ || _)%bool; [discriminate|]. cbv zeta in Y5, Z3. cbn [Nat.eqb] in Y5. destruct (pol =? 0)%nat eqn:P0; [discriminate|]. injection Y5 as <-. injection Z3 as <-. cbn [entry Nat.eqb].
    apply Nat.eqb_neq in P0. destruct pol; [congruence|]. reflexivity. }
  assert (VZ : E_Vnn (e Ca) = 0) by (rewrite H11, X3, X4, I2, I3, HZ; unfold Rdiv; ring). rewrite VZ, VN, HH. unfold Rdiv. ring.
Qed.
