(** The total energy, the residual and the number of passes of two interacting partitions that differ by the exchange
    of the two nuclei. *)
From Coq Require Import Reals List Arith Lia Lra ZArith Bool String FunctionalExtensionality.
From Verif Require Import Base BaseLemmas GridModel GridSpec GridProofs GridMore HartreeModel HartreeSpec HartreeProofs LinAlg HartreeThms SolverModel SolverSpec SolverProofs SolverResp FDProofs LibxcModel LibxcSpec OptionsModel KSModel KSSpec KSProofs KSThms KSLoop KSEnergy KSTotal
  InverterModel PartitionModel PartitionSpec PartitionBase PartitionConstr PartitionDens PartitionFrame PartitionEnergy PartitionEp PartitionPot PartitionLoop PartitionStep PartitionKeep PartitionPass PartitionScf PartitionRun PartitionFinal PartitionModes PartitionMain PartitionCount
  SelfConsistent NonInteracting Isolated Transport MirrorRun MirrorPart EmbedPot EmbedEnergy MirrorEmbed.
Import ListNotations.
Local Open Scope R_scope.
Notation refl_image g pol := (image g (across g) (fun j : nat => j) pol).

Lemma of_reflect : forall g pol n n', reflected g pol n n' -> refl_image g pol n n'.
Proof. intros g pol n n' H x s Hx Hs. rewrite (H x s Hx Hs). symmetry. apply (across_at g (fun y => n y s) x Hx). Qed.
Lemma kinetic_int_image : forall g w p p' n n' T T', mirror_setting g w -> (p_pol p = 1 \/ p_pol p = 2)%nat -> local_embedding w p -> p_opt p' = p_opt p -> p_pol p' = p_pol p -> refl_image g (p_pol p) n n' ->
  kinetic_int g w p n T -> kinetic_int g w p' n' T' -> T' = T.
Proof.
  intros g w p p' n n' T T' MS HP LE OO PP I K K'. unfold kinetic_int in K'. rewrite OO, PP in K'. destruct K as [(A & B)|(A & t & v & B)]; destruct K' as [(A' & B')|(A' & t' & v' & B')]; try (exfalso; congruence); [congruence|].
  destruct (proj2 LE A) as (F & L1 & L2). set (k := probe (p_pol p) (po_kfam (p_opt p)) (po_kid (p_opt p)) (po_kid (p_opt p))).
  assert (LK : local_functionals w k) by (intros id [-> | ->]; exists F; auto). destruct (hxc_across g w k MS LK HP) as (HX & _).
  exact (proj1 (HX (po_kid (p_opt p)) n n' T t v T' t' v' (or_introl eq_refl) I B B')).
Qed.
Lemma xc_int_image : forall g w p n n' id x x', mirror_setting g w -> (p_pol p = 1 \/ p_pol p = 2)%nat -> local_embedding w p -> id = po_xid (p_opt p) \/ id = po_cid (p_opt p) -> refl_image g (p_pol p) n n' ->
  get_xc g (e_lib w) (po_fam (p_opt p)) id (p_pol p) n = Ok x -> get_xc g (e_lib w) (po_fam (p_opt p)) id (p_pol p) n' = Ok x' -> fst (fst x') = fst (fst x).
Proof.
  intros g w p n n' id x x' MS HP LE Hid I B B'. set (k := probe (p_pol p) (po_fam (p_opt p)) (po_xid (p_opt p)) (po_cid (p_opt p))).
  assert (LK : local_functionals w k) by (intros i Hi; exact (proj1 LE i Hi)). destruct (hxc_across g w k MS LK HP) as (HX & _). destruct x as [[x1 x2] x3], x' as [[x1' x2'] x3'].
  exact (proj1 (HX id n n' _ _ _ _ _ _ Hid I B B')).
Qed.
Lemma total_image : forall g pol n n' x, refl_image g pol n n' -> (x < Nelem g)%nat -> sumR pol (fun s => n' x s) = sumR pol (fun s => n (across g x) s).
Proof. intros g pol n n' x I Hx. apply sumR_ext. intros j Hj. apply I; assumption. Qed.
Lemma hartree_int_image : forall g w pol n n' v v', mirror_setting g w -> refl_image g pol n n' ->
  v_hartree g (e_spL w) (e_spU w) (A1 (fun k => sumR pol (fun s => n k s))) = Ok v -> v_hartree g (e_spL w) (e_spU w) (A1 (fun k => sumR pol (fun s => n' k s))) = Ok v' ->
  integrate1 g (fun k => sumR pol (fun s => n' k s) * entry v' k 0%nat) = integrate1 g (fun k => sumR pol (fun s => n k s) * entry v k 0%nat).
Proof.
  intros g w pol n n' v v' MS I E E'.
  assert (Q : forall f, v_hartree g (e_spL w) (e_spU w) (A1 f) = v_hartree g (e_spL w) (e_spU w) (A2 1 (fun k _ => f k))).
  { intros f. unfold v_hartree. replace (sum_cols 1 (fun k _ => f k)) with f; [reflexivity|]. apply functional_extensionality. intros k. unfold sum_cols. cbn. ring. }
  rewrite Q in E, E'. assert (I1 : refl_image g 1 (fun k _ => sumR pol (fun s => n k s)) (fun k _ => sumR pol (fun s => n' k s))) by (intros x j Hx _; apply (total_image g pol n n' x I Hx)).
  destruct (hartree_across g w 1 _ _ _ _ MS (or_introl eq_refl) I1 E E') as (_ & H).
  rewrite <- (proj2 (proj2 (across_map g w MS)) (fun k => sumR pol (fun s => n k s) * entry v k 0%nat)). apply integrate1_ext. intros x Hx. rewrite (total_image g pol n n' x I Hx), (H x Hx). reflexivity.
Qed.
Lemma attraction_image : forall g w pol n n' Za Zb, mirror_setting g w -> refl_image g pol n n' ->
  integrate1 g (fun k => sumR pol (fun s => n' k s) * (coulomb g Zb 0 k + coulomb g 0 Za k)) = integrate1 g (fun k => sumR pol (fun s => n k s) * (coulomb g Za 0 k + coulomb g 0 Zb k)).
Proof.
  intros g w pol n n' Za Zb MS I. rewrite <- (proj2 (proj2 (across_map g w MS)) (fun k => sumR pol (fun s => n k s) * (coulomb g Za 0 k + coulomb g 0 Zb k))). apply integrate1_ext. intros x Hx. rewrite (total_image g pol n n' x I Hx).
  assert (C : forall Z1 Z2, coulomb g Z2 Z1 x = coulomb g Z1 Z2 (across g x)) by (intros; rewrite across_at by exact Hx; symmetry; apply coulomb_mirror, Hx). rewrite (C 0 Zb), (C Za 0). ring.
Qed.

Section Total.
  Variables (g : grid) (w : penv) (Za Zb : R) (pol : nat) (spec : comp -> fspec) (nua nub : R) (opt : dict) (p p' : part).
  Variables (sched sched' : Z -> comp -> list (nat * nat)) (d d' : dict) (o o' : psopt).
  Hypotheses (MS : mirror_setting g (pe_env w)) (EQ : equivariant g (pe_env w) (across g)) (HP : (pol = 1 \/ pol = 2)%nat).
  Hypotheses (H : partition_init g Za Zb pol spec nua nub opt = Ok p) (H' : partition_init g Zb Za pol (fun c => spec (partner c)) nub nua opt = Ok p') (LF : local_embedding (pe_env w) p).
  Hypotheses (KIN : po_kin (p_opt p) = "none"%string \/ po_kin (p_opt p) = "libxcke"%string) (HXC : po_hxc (p_opt p) = "exact"%string) (INT : po_int (p_opt p) = "dft"%string) (SYM : po_sym (p_opt p) = false).
  Hypotheses (IS : po_iso (p_opt p) = false) (AB : po_ab (p_opt p) = false) (EN : p_ens p = false).
  Hypotheses (HC : ps_cont o = false) (HC' : ps_cont o' = false) (HT : ps_target o = false) (HT' : ps_target o' = false) (SD : ps_sdft o' = ps_sdft o) (FA : ps_fa o' = ps_fb o) (FB : ps_fb o' = ps_fa o)
    (HA : forall c, member (p_ens p) c -> step_size (ps_alpha o') (partner c) = step_size (ps_alpha o) c).

  Lemma EX0 : explicit p.
  Proof. split; [exact KIN|]. auto. Qed.
  Theorem exchanged_total : forall n l l' s s', passes g w sched d p o (S n) l s -> passes g w sched' d' p' o' (S n) l' s' -> exists E, p_T (q_p s) "E"%string = Some (SC E) /\ p_T (q_p s') "E"%string = Some (SC E).
  Proof.
    intros n l l' s s' P P'. pose proof P as X. apply passes_S in X. destruct X as (l0 & s0 & P0 & T0 & B & _). pose proof P' as X. apply passes_S in X. destruct X as (l0' & s0' & P0' & T0' & B' & _).
    destruct (exchanged _ _ _ _ _ _ _ _ _ _ H H') as (OO & PP' & PP & EE & XX).
    destruct (embed_twins _ _ _ _ _ _ _ _ _ _ _ _ _ _ _ _ _ MS EQ HP H H' LF EX0 IS AB HC HC' HT HT' SD FA FB HA _ _ _ _ _ P P') as (W & _).
    destruct (embed_twins _ _ _ _ _ _ _ _ _ _ _ _ _ _ _ _ _ MS EQ HP H H' LF EX0 IS AB HC HC' HT HT' SD FA FB HA _ _ _ _ _ P0 P0') as (W0 & _).
    destruct (exchanged_embedding _ _ _ _ _ _ _ _ _ _ _ _ _ _ _ _ _ _ _ _ _ _ MS EQ HP H H' LF EX0 IS AB P P' HC HC' HT HT' SD FA FB HA) as (_ & (nf & nf' & N1 & N2 & N3) & _). apply of_reflect in N3.
    destruct (exchanged_embedding _ _ _ _ _ _ _ _ _ _ _ _ _ _ _ _ _ _ _ _ _ _ MS EQ HP H H' LF EX0 IS AB P0 P0' HC HC' HT HT' SD FA FB HA) as (_ & (mf & mf' & M1 & M2 & M3) & _). apply of_reflect in M3.
    assert (HP2 : (pol <= 2)%nat) by lia. assert (HPp : (p_pol p = 1 \/ p_pol p = 2)%nat) by (rewrite PP; exact HP).
    destruct (run_explicit _ _ _ _ _ _ _ _ _ _ _ _ _ _ _ _ _ H HP2 SYM KIN HXC INT IS AB EN P0 T0 B HT) as (a1 & a2 & TF & n0 & T & e & vh & x & c & A1 & A2 & A3 & A4 & A5 & A6 & A7 & A8).
    destruct (run_explicit _ _ _ _ _ _ _ _ _ _ _ _ _ _ _ _ _ H' HP2 ltac:(rewrite OO; exact SYM) ltac:(rewrite OO; exact KIN) ltac:(rewrite OO; exact HXC) ltac:(rewrite OO; exact INT) ltac:(rewrite OO; exact IS) ltac:(rewrite OO; exact AB) ltac:(rewrite EE; exact EN) P0' T0' B' HT') as (b1 & b2 & TF' & n0' & T' & e' & vh' & x' & c' & B1 & B2 & B3 & B4 & B5 & B6 & B7 & B8).
    rewrite M1 in A1. injection A1 as <-. rewrite N1 in A2. injection A2 as <-. rewrite M2 in B1. injection B1 as <-. rewrite N2 in B2. injection B2 as <-. rewrite OO in B6, B7.
    assert (KI : forall n n' T T', refl_image g pol n n' -> kinetic_int g (pe_env w) p n T -> kinetic_int g (pe_env w) p' n' T' -> T' = T) by (intros n1 n1' t1 t1' I1; apply kinetic_int_image; auto; rewrite PP; [exact PP'|exact I1]).
    assert (C : forall c, c = Ca \/ c = Cb -> T' (partner c) = T c /\ E_Ts (e' (partner c)) = E_Ts (e c)).
    { intros z Hz. assert (Hz' : partner z = Ca \/ partner z = Cb) by (destruct Hz as [-> | ->]; simpl; auto). assert (Mz : member (p_ens p) z) by (destruct Hz as [-> | ->]; exact Logic.I).
      destruct (A4 z Hz) as (f & f1 & C1 & C2 & C3 & C4 & C5). destruct (B4 _ Hz') as (f' & f1' & D1 & D2 & D3 & D4 & D5).
      destruct (W0 z Mz) as (h & h' & m & m' & _ & _ & E1 & E2 & E3 & E4 & E5 & _). destruct (W z Mz) as (h1 & h1' & m1 & m1' & _ & _ & F1 & F2 & _ & _ & _ & _ & _ & _ & F3). destruct (F3 ltac:(lia)) as ((Ee & Ee' & G1 & G2 & _ & G3) & _).
      assert (U1 : n0 z = m) by congruence. assert (U2 : n0' (partner z) = m') by congruence. rewrite U1 in C3. rewrite U2 in D3. split; [apply (KI m m'); auto|congruence]. }
    destruct (C Ca (or_introl eq_refl)) as (C1 & C2). destruct (C Cb (or_intror eq_refl)) as (C3 & C4). cbn [partner] in *.
    eexists. split; [exact A8|]. rewrite B8. f_equal. f_equal. rewrite C1, C2, C3, C4, (KI _ _ _ _ M3 A3 B3), (attraction_image g (pe_env w) pol nf nf' Za Zb MS N3), (hartree_int_image g (pe_env w) pol nf nf' vh vh' MS N3 A5 B5).
    rewrite (xc_int_image g (pe_env w) p mf mf' (po_xid (p_opt p)) x x'), (xc_int_image g (pe_env w) p mf mf' (po_cid (p_opt p)) c c'); auto; try (rewrite PP; auto). unfold Rdiv. ring.
  Qed.

  (** After equally many passes the two runs agree in everything that the test for stopping looks at. *)
  Theorem exchanged_residual : forall n l l' s s', passes g w sched d p o n l s -> passes g w sched' d' p' o' n l' s' ->
    q_dif s' = q_dif s /\ q_oldE s' = q_oldE s /\ q_iter s' = q_iter s /\ refl_image g pol (q_oldn s) (q_oldn s').
  Proof.
    destruct (exchanged _ _ _ _ _ _ _ _ _ _ H H') as (OO & PP' & PP & EE & XX).
    induction n as [|n IH]; intros l l' s s' P P'.
    - destruct (exchanged_embedding _ _ _ _ _ _ _ _ _ _ _ _ _ _ _ _ _ _ _ _ _ _ MS EQ HP H H' LF EX0 IS AB P P' HC HC' HT HT' SD FA FB HA) as (_ & (nf & nf' & N1 & N2 & N3) & _). apply of_reflect in N3.
      inversion P as [p0 m O1 S1 M1|]; subst. inversion P' as [p0' m' O1' S1' M1'|]; subst. cbn [q_p q_dif q_oldE q_iter q_oldn] in *. rewrite M1 in N1. injection N1 as <-. rewrite M1' in N2. injection N2 as <-. auto.
    - pose proof P as X. apply passes_S in X. destruct X as (l0 & s0 & P0 & _ & B & _). pose proof P' as X. apply passes_S in X. destruct X as (l0' & s0' & P0' & _ & B' & _).
      destruct (IH _ _ _ _ P0 P0') as (I1 & I2 & I3 & I4).
      destruct (exchanged_embedding _ _ _ _ _ _ _ _ _ _ _ _ _ _ _ _ _ _ _ _ _ _ MS EQ HP H H' LF EX0 IS AB P P' HC HC' HT HT' SD FA FB HA) as (_ & (nf & nf' & N1 & N2 & N3) & _). apply of_reflect in N3.
      destruct (exchanged_total _ _ _ _ _ P P') as (E0 & T1 & T2). pose proof (body_count _ _ _ _ _ _ B) as (IT & _). pose proof (body_count _ _ _ _ _ _ B') as (IT' & _).
      destruct (body_residual _ _ _ _ _ _ B) as (E & m & dn & A1 & A2 & A3 & A4 & A5 & A6). destruct (body_residual _ _ _ _ _ _ B') as (E' & m' & dn' & B1 & B2 & B3 & B4 & B5 & B6).
      rewrite N1 in A2. injection A2 as <-. rewrite N2 in B2. injection B2 as <-. assert (EQE : E' = E) by congruence.
      assert (R2 : p_pol (q_p s) = pol) by (pose proof (run_static _ _ _ _ _ _ _ _ _ P) as (_ & R2 & _); congruence). assert (R2' : p_pol (q_p s') = pol) by (pose proof (run_static _ _ _ _ _ _ _ _ _ P') as (_ & R2' & _); congruence). rewrite R2 in A5. rewrite R2' in B5.
      pose proof (dens_residual_image g (across g) (fun j => j) (mkKS (mkKSopt "" false false 0 0 "") 0 0 pol 0 pol (fun _ _ => dummy_solver) (fun _ _ => 0) None None None None None None (mkV None None None None None None)) (across_map g _ MS) (same_map _ _) nf nf' (q_oldn s0) (q_oldn s0') N3 I4) as D. cbn [k_pol] in D.
      assert (EQD : dn' = dn) by congruence. rewrite A6, B6, A3, B3, A4, B4, EQE, EQD, I2, IT, IT', I3. auto.
  Qed.
  Hypotheses (TOL : ps_tol o' = ps_tol o) (MAX : ps_maxit o' = ps_maxit o) (AUTO : ps_auto o' = ps_auto o).
  Theorem exchanged_test : forall n l l' s s', passes g w sched d p o n l s -> passes g w sched' d' p' o' n l' s' -> psc_test o' s' = psc_test o s.
  Proof. intros n l l' s s' P P'. destruct (exchanged_residual _ _ _ _ _ P P') as (A & _ & B & _). unfold psc_test. rewrite A, B, TOL, MAX, AUTO. reflexivity. Qed.
End Total.

(** Complete runs make the same number of passes and end with the same energy. *)
Theorem exchanged_stops : forall g w Za Zb pol spec nua nub opt p p' sched sched' d o s s', mirror_setting g (pe_env w) -> equivariant g (pe_env w) (across g) -> (pol = 1 \/ pol = 2)%nat ->
  partition_init g Za Zb pol spec nua nub opt = Ok p -> partition_init g Zb Za pol (fun c => spec (partner c)) nub nua opt = Ok p' -> local_embedding (pe_env w) p ->
  po_kin (p_opt p) = "none"%string \/ po_kin (p_opt p) = "libxcke"%string -> po_hxc (p_opt p) = "exact"%string -> po_int (p_opt p) = "dft"%string -> po_sym (p_opt p) = false -> po_iso (p_opt p) = false -> po_ab (p_opt p) = false -> p_ens p = false ->
  partition_scf g w sched d p = Ok s -> partition_scf g w sched' d p' = Ok s' -> psc_options p d = Ok o -> ps_cont o = false -> ps_target o = false -> ps_fb o = ps_fa o -> step_size (ps_alpha o) Cb = step_size (ps_alpha o) Ca ->
  q_iter s' = q_iter s /\ q_dif s' = q_dif s /\ ((1 < q_iter s)%Z -> exists E, p_T (q_p s) "E"%string = Some (SC E) /\ p_T (q_p s') "E"%string = Some (SC E)) /\
  (exists nf nf', p_nf (q_p s) = Some nf /\ p_nf (q_p s') = Some nf' /\ reflected g pol nf nf') /\
  forall c, c = Ca \/ c = Cb -> exists f f' m m', p_f (q_p s) c = Some f /\ p_f (q_p s') (partner c) = Some f' /\ k_n (f_ks f) = Some m /\ k_n (f_ks f') = Some m' /\ reflected g pol m m'.
Proof.
  intros g w Za Zb pol spec nua nub opt p p' sched sched' d o s s' MS EQ HP H H' LF KIN HXC INT SYM IS AB EN S S' O HC HT FF AA.
  destruct (exchanged _ _ _ _ _ _ _ _ _ _ H H') as (OO & PP' & PP & EE & XX).
  apply pscf_trace in S. destruct S as (o1 & n & l & P & T). apply pscf_trace in S'. destruct S' as (o2 & n' & l' & P' & T').
  pose proof (passes_start _ _ _ _ _ _ _ _ _ P) as (O1 & _). pose proof (passes_start _ _ _ _ _ _ _ _ _ P') as (O2 & _). assert (O3 : psc_options p' d = psc_options p d) by (unfold psc_options; rewrite OO; reflexivity).
  assert (o1 = o) by congruence. assert (o2 = o) by congruence. subst o1 o2.
  assert (HA : forall c, member (p_ens p) c -> step_size (ps_alpha o) (partner c) = step_size (ps_alpha o) c) by (rewrite EN; intros [] Hc; cbn [partner]; simpl in Hc; try discriminate Hc; congruence).
  assert (NN : n' = n).
  { assert (Q : forall g w sched d p o n l s, passes g w sched d p o n l s -> forall m, (m < n)%nat -> exists l0 s0, passes g w sched d p o m l0 s0 /\ psc_test o s0 = Ok true).
    { clear. intros g w sched d p o n l s P. induction P as [|n l s s' P IH T B]; intros m Hm; [lia|]. destruct (Nat.eq_dec m n) as [-> | NE]; [exists l, s; auto|apply IH; lia]. }
    destruct (Nat.lt_trichotomy n n') as [L|[L|L]]; [exfalso| auto |exfalso].
    - destruct (Q _ _ _ _ _ _ _ _ _ P' n L) as (l0 & s0 & P0 & T0). pose proof (exchanged_test _ _ _ _ _ _ _ _ _ _ _ _ _ _ _ _ _ MS EQ HP H H' LF KIN HXC INT SYM IS AB EN HC HC HT HT eq_refl (eq_sym FF) FF HA eq_refl eq_refl eq_refl _ _ _ _ _ P P0). congruence.
    - destruct (Q _ _ _ _ _ _ _ _ _ P n' L) as (l0 & s0 & P0 & T0). pose proof (exchanged_test _ _ _ _ _ _ _ _ _ _ _ _ _ _ _ _ _ MS EQ HP H H' LF KIN HXC INT SYM IS AB EN HC HC HT HT eq_refl (eq_sym FF) FF HA eq_refl eq_refl eq_refl _ _ _ _ _ P0 P'). congruence. }
  subst n'. destruct (exchanged_residual _ _ _ _ _ _ _ _ _ _ _ _ _ _ _ _ _ MS EQ HP H H' LF KIN HXC INT SYM IS AB EN HC HC HT HT eq_refl (eq_sym FF) FF HA _ _ _ _ _ P P') as (A1 & _ & A2 & _).
  assert (EX : explicit p) by (split; [exact KIN|auto]).
  destruct (exchanged_embedding _ _ _ _ _ _ _ _ _ _ _ _ _ _ _ _ _ _ _ _ _ _ MS EQ HP H H' LF EX IS AB P P' HC HC HT HT eq_refl (eq_sym FF) FF HA) as (W & N & _).
  split; [exact A2|]. split; [exact A1|]. split; [|split; [exact N|]].
  - intros Hi. destruct n as [|n]; [exfalso; inversion P; subst; cbn [q_iter] in Hi; lia|].
    exact (exchanged_total _ _ _ _ _ _ _ _ _ _ _ _ _ _ _ _ _ MS EQ HP H H' LF KIN HXC INT SYM IS AB EN HC HC HT HT eq_refl (eq_sym FF) FF HA _ _ _ _ _ P P').
  - intros c Hc. destruct (W c) as (f & f' & m & m' & W1 & W2 & W3 & W4 & W5 & _); [destruct Hc as [-> | ->]; exact Logic.I|]. exists f, f', m, m'. auto.
Qed.
(** Every pass, with the settings of the two fragments exchanged as well. *)
Theorem exchanged_passes : forall g w Za Zb pol spec nua nub opt p p' sched sched' d d' o o' n l l' s s', mirror_setting g (pe_env w) -> equivariant g (pe_env w) (across g) -> (pol = 1 \/ pol = 2)%nat ->
  partition_init g Za Zb pol spec nua nub opt = Ok p -> partition_init g Zb Za pol (fun c => spec (partner c)) nub nua opt = Ok p' -> local_embedding (pe_env w) p ->
  po_kin (p_opt p) = "none"%string \/ po_kin (p_opt p) = "libxcke"%string -> po_hxc (p_opt p) = "exact"%string -> po_int (p_opt p) = "dft"%string -> po_sym (p_opt p) = false -> po_iso (p_opt p) = false -> po_ab (p_opt p) = false -> p_ens p = false ->
  ps_cont o = false -> ps_cont o' = false -> ps_target o = false -> ps_target o' = false -> ps_sdft o' = ps_sdft o -> ps_fa o' = ps_fb o -> ps_fb o' = ps_fa o -> (forall c, member (p_ens p) c -> step_size (ps_alpha o') (partner c) = step_size (ps_alpha o) c) ->
  passes g w sched d p o n l s -> passes g w sched' d' p' o' n l' s' ->
  q_dif s' = q_dif s /\ q_iter s' = q_iter s /\ ((0 < n)%nat -> exists E, p_T (q_p s) "E"%string = Some (SC E) /\ p_T (q_p s') "E"%string = Some (SC E)).
Proof.
  intros g w Za Zb pol spec nua nub opt p p' sched sched' d d' o o' n l l' s s' MS EQ HP H H' LF KIN HXC INT SYM IS AB EN HC HC' HT HT' SD FA FB HA P P'.
  destruct (exchanged_residual _ _ _ _ _ _ _ _ _ _ _ _ _ _ _ _ _ MS EQ HP H H' LF KIN HXC INT SYM IS AB EN HC HC' HT HT' SD FA FB HA _ _ _ _ _ P P') as (A1 & _ & A2 & _). split; [exact A1|]. split; [exact A2|]. intros Hn. destruct n as [|n]; [lia|].
  exact (exchanged_total _ _ _ _ _ _ _ _ _ _ _ _ _ _ _ _ _ MS EQ HP H H' LF KIN HXC INT SYM IS AB EN HC HC' HT HT' SD FA FB HA _ _ _ _ _ P P').
Qed.
