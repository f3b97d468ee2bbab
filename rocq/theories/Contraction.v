(** Kohnsham.scf when the solvers contract densities: linear mixing converges, the self-consistent density is unique and the loop stops. *)
From Coq Require Import Reals List Arith Lia Lra ZArith Bool String FunctionalExtensionality.
From Verif Require Import Base BaseLemmas GridModel GridSpec GridProofs HartreeModel SolverModel SolverSpec SolverProofs LibxcModel OptionsModel KSModel KSSpec KSProofs KSThms KSLoop KSEnergy KSTotal SelfConsistent NonInteracting KSMemory.
Import ListNotations.
Local Open Scope R_scope.

(** Independent vocabulary: [m] is the density the solvers of an object like k deliver in the potential of the density n. *)
Definition answer (g : grid) (w : env) (k : ks) (n m : mat) : Prop :=
  exists q k1 vh it dif l, frame k q /\ k_n q = Some n /\ k_vext q = Some (outer k) /\ calc_hxc_potential g w q = Ok k1 /\ k_vhxc k1 = Some vh /\ delivered g w it dif l k (outer k) vh m.
(** The values of two densities differ by at most e. *)
Definition near (g : grid) (e : R) (a b : mat) : Prop := forall x s, (x < Nelem g)%nat -> (s < 2)%nat -> Rabs (a x s - b x s) <= e.
(** On the densities P the solvers bring densities closer by the factor q. *)
Definition contracts (g : grid) (w : env) (k : ks) (P : mat -> Prop) (q : R) : Prop :=
  forall n n' m m' e, P n -> P n' -> answer g w k n m -> answer g w k n' m' -> near g e n n' -> near g (q * e) m m'.
(** Mixing with the factor a does not leave P. *)
Definition stays (g : grid) (w : env) (k : ks) (P : mat -> Prop) (a : R) : Prop :=
  forall n m, P n -> answer g w k n m -> P (fun x s => (1 - a) * n x s + a * m x s).
(** The sum of the absolute quadrature weights. *)
Definition bulk (g : grid) : R := Rabs (iprefac g) * sumR (Nelem g) (fun k => Rabs (gwi g k * gw g k)).

Lemma self_answer : forall g w k n, self_consistent g w k n -> answer g w k n n.
Proof.
  intros g w k n (it & dif & l & k1 & vh & H1 & H2 & H3). exists (set_vext (set_n k (Some n)) (Some (outer k))), k1, vh, it, dif, l.
  split; [|split; [reflexivity|split; [reflexivity|split; [exact H1|split; [exact H2|exact H3]]]]]. do 7 (split; [reflexivity|]). intros i j. repeat split.
Qed.
Lemma delivered_back : forall g w it dif l k q ve vh m, frame k q -> delivered g w it dif l q ve vh m -> delivered g w it dif l k ve vh m.
Proof.
  intros g w it dif l k q ve vh m F (k2 & k3 & A & B & C). exists k2, k3. split; [exact (frame_trans _ _ _ F A)|]. split; [|exact C]. destruct F as (_ & _ & _ & _ & F5 & F6 & F7 & _).
  intros i j Hp x. rewrite B by (unfold place in *; rewrite F5, F6; exact Hp). rewrite F7. reflexivity.
Qed.
Lemma pass_answer : forall g w o sched k st st', so_flip o = false -> scf_trace g w o sched k st -> scf_body g w o (sched (c_iter st)) st = Ok st' ->
  exists n m, k_n (c_ks st) = Some n /\ answer g w k n m /\ k_n (c_ks st') = Some (fun x s => (1 - so_alpha o) * n x s + so_alpha o * m x s).
Proof.
  intros g w o sched k st st' HF T B. pose proof (trace_frame _ _ _ _ _ _ T) as (F & _). pose proof (trace_vext _ _ _ _ _ _ T) as V.
  destruct (ks_pass _ _ _ _ _ _ HF B) as (k1 & n & n' & nout & ve & vh & A1 & A2 & _ & A4 & A5 & A6 & A7 & A8 & _). exists n, nout. split; [exact A1|]. assert (ve = outer k) by congruence. subst ve. split.
  - exists (c_ks st), k1, vh. do 3 eexists. split; [exact F|]. split; [exact A1|]. split; [exact V|]. split; [exact A4|]. split; [exact A6|]. exact (delivered_back _ _ _ _ _ _ _ _ _ _ F A7).
  - rewrite A2. f_equal. apply functional_extensionality. intros x. apply functional_extensionality. intros s. apply A8.
Qed.
Lemma near_mix : forall g a e f n n' m m', 0 <= a <= 1 -> near g e n n' -> near g f m m' ->
  near g ((1 - a) * e + a * f) (fun x s => (1 - a) * n x s + a * m x s) (fun x s => (1 - a) * n' x s + a * m' x s).
Proof.
  intros g a e f n n' m m' Ha H1 H2 x s Hx Hs. specialize (H1 x s Hx Hs). specialize (H2 x s Hx Hs).
  replace ((1 - a) * n x s + a * m x s - ((1 - a) * n' x s + a * m' x s)) with ((1 - a) * (n x s - n' x s) + a * (m x s - m' x s)) by ring.
  eapply Rle_trans; [apply Rabs_triang|]. rewrite !Rabs_mult, (Rabs_pos_eq (1 - a)), (Rabs_pos_eq a) by lra.
  apply Rplus_le_compat; apply Rmult_le_compat_l; lra.
Qed.
Lemma near_bound : forall g a b, exists e, 0 <= e /\ near g e a b /\ (e = 0 \/ exists x s, (x < Nelem g)%nat /\ (s < 2)%nat /\ e = Rabs (a x s - b x s)).
Proof.
  intros g a b.
  assert (Q : forall N, exists e, 0 <= e /\ (forall x s, (x < N)%nat -> (s < 2)%nat -> Rabs (a x s - b x s) <= e) /\ (e = 0 \/ exists x s, (x < N)%nat /\ (s < 2)%nat /\ e = Rabs (a x s - b x s))).
  { induction N as [|N (e & E0 & E1 & E2)]; [exists 0; split; [lra|]; split; [intros; lia|auto]|].
    exists (Rmax e (Rmax (Rabs (a N 0%nat - b N 0%nat)) (Rabs (a N 1%nat - b N 1%nat)))). split; [eapply Rle_trans; [exact E0|apply Rmax_l]|]. split.
    - intros x s Hx Hs. destruct (Nat.eq_dec x N) as [->|]; [|eapply Rle_trans; [apply E1; lia|apply Rmax_l]]. eapply Rle_trans; [|apply Rmax_r]. destruct s as [|[|s]]; [apply Rmax_l|apply Rmax_r|lia].
    - set (A := Rabs (a N 0%nat - b N 0%nat)). set (B := Rabs (a N 1%nat - b N 1%nat)). assert (M : Rmax e (Rmax A B) = e \/ Rmax e (Rmax A B) = A \/ Rmax e (Rmax A B) = B) by (unfold Rmax; destruct (Rle_dec A B); destruct (Rle_dec e _); auto).
      destruct M as [M|[M|M]]; rewrite M; [|right; exists N, 0%nat; split; [lia|split; [lia|reflexivity]]|right; exists N, 1%nat; split; [lia|split; [lia|reflexivity]]].
      destruct E2 as [E2|(x & s & X1 & X2 & X3)]; [auto|]. right. exists x, s. split; [lia|auto]. }
  exact (Q (Nelem g)).
Qed.
Lemma bulk_bound : forall g f e, 0 <= e -> (forall x, (x < Nelem g)%nat -> Rabs (f x) <= e) -> integrate1 g (fun x => Rabs (f x)) <= bulk g * e.
Proof.
  intros g f e He H. eapply Rle_trans; [apply Rle_abs|]. unfold integrate1, bulk. rewrite Rabs_mult, Rmult_assoc. apply Rmult_le_compat_l; [apply Rabs_pos|].
  eapply Rle_trans; [apply sumR_abs_le|]. rewrite Rmult_comm, <- sumR_scal. apply sumR_le. intros x Hx. rewrite Rabs_mult, Rabs_Rabsolu, Rmult_comm. apply Rmult_le_compat_r; [apply Rabs_pos|auto].
Qed.

Section Contract.
  Variables (g : grid) (w : env) (o : scfopt) (sched : Z -> list (nat * nat)) (k : ks) (P : mat -> Prop) (q : R).
  Hypotheses (HF : so_flip o = false) (HA : 0 <= so_alpha o <= 1) (HQ : 0 <= q) (HC : contracts g w k P q) (HS : stays g w k P (so_alpha o)).
  (** The factor of a pass with mixing. *)
  Definition rate : R := 1 - so_alpha o * (1 - q).
  Lemma rate_nonneg : 0 <= rate. Proof. unfold rate. assert (0 <= so_alpha o * q) by (apply Rmult_le_pos; lra). lra. Qed.
  Hypothesis (H0 : forall k0 n, scf_start g w o (sched 0%Z) k = Ok k0 -> k_n k0 = Some n -> P n).
  Lemma trace_in : forall st n, scf_trace g w o sched k st -> k_n (c_ks st) = Some n -> P n.
  Proof.
    intros st n T. revert n. induction T as [k0 S|st st' T IH TE B]; intros n N; [eapply H0; eauto|].
    destruct (pass_answer _ _ _ _ _ _ _ HF T B) as (n0 & m & A1 & A2 & A3). rewrite A3 in N. injection N as <-. apply HS; auto.
  Qed.
  (** The distance from a self-consistent density shrinks by the factor of a pass. *)
  Theorem converges : forall ns e n0 k0 st, self_consistent g w k ns -> P ns -> scf_start g w o (sched 0%Z) k = Ok k0 -> k_n k0 = Some n0 -> near g e n0 ns ->
    scf_trace g w o sched k st -> exists n, k_n (c_ks st) = Some n /\ near g (rate ^ Z.to_nat (c_iter st - 1) * e) n ns.
  Proof.
    intros ns e n0 k0 st SC PN S N NR T. induction T as [k0' S'|st st' T IH TE B].
    - cbn [c_ks c_iter]. exists n0. split; [congruence|]. change (Z.to_nat (1 - 1)) with 0%nat. rewrite pow_O, Rmult_1_l. exact NR.
    - destruct IH as (n & A1 & A2). destruct (pass_answer _ _ _ _ _ _ _ HF T B) as (n' & m & B1 & B2 & B3). assert (n' = n) by congruence. subst n'.
      eexists. split; [exact B3|]. pose proof (trace_frame _ _ _ _ _ _ T) as (_ & I & _). apply body_frame in B. destruct B as (_ & J & _). replace (Z.to_nat (c_iter st' - 1)) with (Datatypes.S (Z.to_nat (c_iter st - 1))) by lia.
      pose proof (near_mix g (so_alpha o) _ _ _ _ _ _ HA A2 (HC _ _ _ _ _ (trace_in _ _ T A1) PN B2 (self_answer _ _ _ _ SC) A2)) as X.
      intros x s Hx Hs. specialize (X x s Hx Hs). cbv beta in X. replace (ns x s) with ((1 - so_alpha o) * ns x s + so_alpha o * ns x s) by ring. eapply Rle_trans; [exact X|]. apply Req_le. unfold rate. cbn [pow]. ring.
  Qed.
  (** What the change made by a pass says about the distance from the self-consistent density. *)
  Theorem posterior : forall ns st st' n n' dl, self_consistent g w k ns -> P ns -> scf_trace g w o sched k st -> scf_body g w o (sched (c_iter st)) st = Ok st' -> k_n (c_ks st) = Some n -> k_n (c_ks st') = Some n' ->
    q < 1 -> 0 < so_alpha o -> 0 <= dl -> near g dl n' n -> near g (dl / (so_alpha o * (1 - q))) n ns /\ near g (rate * (dl / (so_alpha o * (1 - q)))) n' ns.
  Proof.
    intros ns st st' n n' dl SC PN T B N N' Q1 A0 D0 D. destruct (pass_answer _ _ _ _ _ _ _ HF T B) as (n1 & m & B1 & B2 & B3). assert (n1 = n) by congruence. subst n1.
    assert (EN : n' = fun x s => (1 - so_alpha o) * n x s + so_alpha o * m x s) by congruence.
    assert (AS : forall e, near g e n ns -> near g (rate * e) n' ns).
    { intros e He x s Hx Hs. pose proof (near_mix g (so_alpha o) _ _ _ _ _ _ HA He (HC _ _ _ _ _ (trace_in _ _ T N) PN B2 (self_answer _ _ _ _ SC) He) x s Hx Hs) as X. cbv beta in X.
      replace (ns x s) with ((1 - so_alpha o) * ns x s + so_alpha o * ns x s) by ring. rewrite EN. eapply Rle_trans; [exact X|]. apply Req_le. unfold rate. ring. }
    assert (PA : 0 < so_alpha o * (1 - q)) by (apply Rmult_lt_0_compat; lra).
    assert (G : near g (dl / (so_alpha o * (1 - q))) n ns).
    { destruct (near_bound g n ns) as (e & E0 & E1 & E2). assert (LE : e <= dl / (so_alpha o * (1 - q))).
      { apply Rmult_le_reg_r with (so_alpha o * (1 - q)); [exact PA|]. unfold Rdiv. rewrite Rmult_assoc, Rinv_l, Rmult_1_r by lra.
        destruct E2 as [E2|(x & s & X1 & X2 & X3)]; [rewrite E2; lra|]. specialize (AS e E1 x s X1 X2). specialize (D x s X1 X2). unfold rate in AS.
        assert (e <= Rabs (n' x s - n x s) + Rabs (n' x s - ns x s)). { rewrite X3. replace (n x s - ns x s) with (- (n' x s - n x s) + (n' x s - ns x s)) by ring. eapply Rle_trans; [apply Rabs_triang|]. rewrite Rabs_Ropp. lra. }
        lra. }
      intros x s Hx Hs. eapply Rle_trans; [apply E1; auto|exact LE]. }
    split; [exact G|]. apply AS, G.
  Qed.
  (** At most one self-consistent density. *)
  Theorem one_density : forall a b, q < 1 -> self_consistent g w k a -> self_consistent g w k b -> P a -> P b -> forall x s, (x < Nelem g)%nat -> (s < 2)%nat -> a x s = b x s.
  Proof.
    intros a b Q1 SA SB PA PB. destruct (near_bound g a b) as (e & E0 & E1 & E2). pose proof (HC _ _ _ _ _ PA PB (self_answer _ _ _ _ SA) (self_answer _ _ _ _ SB) E1) as X.
    assert (Z : e = 0). { destruct E2 as [E2|(x & s & X1 & X2 & X3)]; [exact E2|]. specialize (X x s X1 X2). rewrite <- X3 in X. assert (q * e <= e) by nra. nra. }
    intros x s Hx Hs. specialize (E1 x s Hx Hs). rewrite Z in E1. pose proof (Rabs_pos (a x s - b x s)). destruct (Req_dec (a x s - b x s) 0); [lra|]. pose proof (Rabs_pos_lt _ H1). lra.
  Qed.
  (** Steps between consecutive densities. *)
  Theorem steps : forall e n0 k0 st st', scf_start g w o (sched 0%Z) k = Ok k0 -> k_n k0 = Some n0 -> (forall m, answer g w k n0 m -> near g e m n0) ->
    scf_trace g w o sched k st -> scf_test o st = Ok true -> scf_body g w o (sched (c_iter st)) st = Ok st' ->
    exists n n', k_n (c_ks st) = Some n /\ k_n (c_ks st') = Some n' /\ near g (rate ^ Z.to_nat (c_iter st - 1) * (so_alpha o * e)) n' n.
  Proof.
    intros e n0 k0 st st' S N M T. revert st'. induction T as [k0' S'|st0 st T IH TE B]; intros st' TE' B'.
    - destruct (pass_answer _ _ _ _ _ _ _ HF (trace_start _ _ _ _ _ _ S') B') as (n & m & A1 & A2 & A3). cbn [c_ks] in A1. assert (n = n0) by congruence. subst n. pose proof (M m A2) as NR.
      exists n0. eexists. split; [exact A1|]. split; [exact A3|]. cbn [c_iter]. change (Z.to_nat (1 - 1)) with 0%nat. rewrite pow_O, Rmult_1_l. intros x s Hx Hs. specialize (NR x s Hx Hs).
      replace ((1 - so_alpha o) * n0 x s + so_alpha o * m x s - n0 x s) with (so_alpha o * (m x s - n0 x s)) by ring. rewrite Rabs_mult, Rabs_pos_eq by lra. apply Rmult_le_compat_l; lra.
    - destruct (IH st TE B) as (n & n' & A1 & A2 & A3). pose proof (trace_step _ _ _ _ _ _ _ T TE B) as T'.
      destruct (pass_answer _ _ _ _ _ _ _ HF T B) as (n1 & m & B1 & B2 & B3). assert (n1 = n) by congruence. subst n1.
      destruct (pass_answer _ _ _ _ _ _ _ HF T' B') as (n1 & m' & C1 & C2 & C3). assert (n1 = n') by congruence. subst n1.
      exists n'. eexists. split; [exact A2|]. split; [exact C3|].
      pose proof (near_mix g (so_alpha o) _ _ _ _ _ _ HA A3 (HC _ _ _ _ _ (trace_in _ _ T' A2) (trace_in _ _ T A1) C2 B2 A3)) as X.
      pose proof (trace_frame _ _ _ _ _ _ T) as (_ & I & _). apply body_frame in B. destruct B as (_ & J & _). replace (Z.to_nat (c_iter st - 1)) with (Datatypes.S (Z.to_nat (c_iter st0 - 1))) by lia.
      assert (EN : n' = fun x s => (1 - so_alpha o) * n x s + so_alpha o * m x s) by congruence.
      intros x s Hx Hs. specialize (X x s Hx Hs). cbv beta in X. assert (EX : n' x s = (1 - so_alpha o) * n x s + so_alpha o * m x s) by (rewrite EN; reflexivity). rewrite <- EX in X.
      eapply Rle_trans; [exact X|]. apply Req_le. unfold rate. cbn [pow]. ring.
  Qed.
  (** The loop stops: energies depend on the densities with the constant L and stay away from zero, the densities keep their amount. *)
  Theorem stops : forall d st e n0 k0 K L E0 A, ks_scf g w sched d k = Ok st -> scf_options d = Ok o -> k_pol k = 2%nat -> (0 < Nelem g)%nat ->
    scf_start g w o (sched 0%Z) k = Ok k0 -> k_n k0 = Some n0 -> (forall m, answer g w k n0 m -> near g e m n0) -> 0 <= e -> 0 <= L -> 0 < E0 -> 0 < A ->
    (forall a a' b b' na nb f, scf_trace g w o sched k a -> scf_test o a = Ok true -> scf_body g w o (sched (c_iter a)) a = Ok a' -> scf_trace g w o sched k b -> scf_test o b = Ok true -> scf_body g w o (sched (c_iter b)) b = Ok b' ->
      k_n (c_ks a) = Some na -> k_n (c_ks b) = Some nb -> near g f na nb -> exists Ea Eb, c_oldE a' = Fin Ea /\ c_oldE b' = Fin Eb /\ Rabs (Ea - Eb) <= L * f) ->
    (forall a E, scf_trace g w o sched k a -> (2 <= c_iter a)%Z -> c_oldE a = Fin E -> E0 <= Rabs E) ->
    (forall a n s, scf_trace g w o sched k a -> (2 <= c_iter a)%Z -> k_n (c_ks a) = Some n -> (s < 2)%nat -> A <= amount g n s) ->
    L * (rate ^ K * (so_alpha o * e)) <= so_tol o * E0 -> bulk g * (rate ^ Datatypes.S K * (so_alpha o * e)) <= so_tol o * A -> 0 <= so_tol o -> (Z.of_nat K + 3 <= so_maxiter o)%Z ->
    (c_iter st <= Z.of_nat K + 3)%Z /\ exists r, c_diff st = Fin r /\ r <= so_tol o.
  Proof.
    intros d st e n0 k0 K L E0 A H O HP HN S N M He HL HE0 HA0 LE LO AM T1 T2 T3 T4. destruct (scf_inv _ _ _ _ _ _ H) as (o' & O' & T & X). rewrite O in O'. injection O' as <-.
    assert (FIN : forall a, scf_trace g w o sched k a -> exists r, c_diff a = Fin r).
    { intros a Ta. destruct Ta as [k0' S'|b a Tb TE B]; [exists 10; reflexivity|]. destruct (trace_frame _ _ _ _ _ _ Tb) as (Fb & Ib & nb & Nb). pose proof (trace_step _ _ _ _ _ _ _ Tb TE B) as Ta.
      assert (Z0 : near g 0 nb nb) by (intros x s _ _; rewrite Rminus_diag_eq, Rabs_R0 by reflexivity; lra).
      destruct (LE b a b a nb nb 0 Tb TE B Tb TE B Nb Nb Z0) as (Ea & _ & EA & _ & _).
      destruct (ks_pass _ _ _ _ _ _ HF B) as (_ & _ & n' & _ & _ & _ & _ & B2 & B3 & _ & _ & _ & _ & _ & B9). destruct Fb as (_ & _ & _ & FP & _). rewrite FP, HP, EA in B9.
      apply body_frame in B. destruct B as (_ & J & _). assert (I2 : (2 <= c_iter a)%Z) by lia.
      assert (NZ : Ea <> 0) by (intros Q; specialize (LO a Ea Ta I2 EA); rewrite Q, Rabs_R0 in LO; lra).
      assert (EB : exists Eb, c_oldE b = Fin Eb).
      { destruct Tb as [k0' S'|c b Tc TEc Bc]; [exists 0; reflexivity|]. destruct (trace_frame _ _ _ _ _ _ Tc) as (_ & _ & nc & Nc).
        assert (Z1 : near g 0 nc nc) by (intros x s _ _; rewrite Rminus_diag_eq, Rabs_R0 by reflexivity; lra). destruct (LE c b c b nc nc 0 Tc TEc Bc Tc TEc Bc Nc Nc Z1) as (Eb & _ & EB & _). eauto. }
      destruct EB as (Eb & EB). rewrite EB in B9. destruct (residual_two g Ea Eb n' (c_oldn b) HN NZ) as (r & R1 & _); [|rewrite R1 in B9; injection B9 as B9; eauto].
      intros s Hs. eapply Rlt_le_trans; [exact HA0|]. exact (AM a n' s Ta I2 B2 Hs). }
    assert (SMALL : forall a, scf_trace g w o sched k a -> c_iter a = (Z.of_nat K + 3)%Z -> exists r, c_diff a = Fin r /\ r <= so_tol o).
    { intros a Ta Ia. pose proof Ta as TA. destruct Ta as [k0' S'|b a Tb TE B]; [cbn [c_iter] in Ia; lia|]. pose proof (body_frame _ _ _ _ _ _ B) as (_ & Jb & _). pose proof Tb as TB. destruct Tb as [k0' S'|c b Tc TEc Bc]; [cbn [c_iter] in *; lia|].
      pose proof (body_frame _ _ _ _ _ _ Bc) as (_ & Jc & _).
      destruct (steps e n0 k0 c b S N M Tc TEc Bc) as (nc & nb & C1 & C2 & C3). destruct (steps e n0 k0 b a S N M TB TE B) as (nb' & na & D1 & D2 & D3). assert (nb' = nb) by congruence. subst nb'.
      destruct (LE b a c b nb nc _ TB TE B Tc TEc Bc D1 C1 C3) as (Ea & Eb & EA & EB & EE).
      replace (Z.to_nat (c_iter c - 1)) with K in * by lia. replace (Z.to_nat (c_iter b - 1)) with (Datatypes.S K) in * by lia.
      destruct (ks_pass _ _ _ _ _ _ HF B) as (_ & _ & n' & _ & _ & _ & _ & B2 & B3 & _ & _ & _ & _ & _ & B9). destruct (trace_frame _ _ _ _ _ _ TB) as ((_ & _ & _ & FP & _) & _). pose proof (body_frame _ _ _ _ _ _ Bc) as (_ & _ & OB).
      assert (RES : residual g 2 (Fin Ea) (Fin Eb) na nb = Ok (c_diff a)). { rewrite <- B9, FP, HP, EA, EB. f_equal; congruence. }
      assert (I2 : (2 <= c_iter a)%Z) by lia. pose proof (LO a Ea TA I2 EA) as LA. assert (NZ : Ea <> 0) by (intros Q; rewrite Q, Rabs_R0 in LA; lra).
      assert (AMA : forall s, (s < 2)%nat -> A <= abs_int g na s) by (intros s Hs; exact (AM a na s TA I2 D2 Hs)).
      destruct (residual_two g Ea Eb na nb HN NZ) as (r & R1 & R2); [intros s Hs; eapply Rlt_le_trans; [exact HA0|apply AMA, Hs]|]. rewrite R1 in RES. injection RES as RES. exists r. split; [congruence|]. apply R2. split.
      - eapply Rle_trans; [exact EE|]. eapply Rle_trans; [exact T1|]. apply Rmult_le_compat_l; lra.
      - intros s Hs. eapply Rle_trans; [|apply Rmult_le_compat_l; [exact T3|apply AMA, Hs]]. eapply Rle_trans; [|exact T2]. unfold abs_int. apply bulk_bound; [|intros x Hx; apply D3; auto].
        apply Rmult_le_pos; [apply pow_le, rate_nonneg|]. apply Rmult_le_pos; lra. }
    assert (PRE : forall a, scf_trace g w o sched k a -> forall i, (1 <= i < c_iter a)%Z -> exists b, scf_trace g w o sched k b /\ c_iter b = i /\ scf_test o b = Ok true).
    { intros a Ta. induction Ta as [k0' S'|b a Tb IH TE B]; intros i Hi; [cbn [c_iter] in Hi; lia|]. apply body_frame in B. destruct B as (_ & J & _). destruct (Z.eq_dec i (c_iter b)) as [->|]; [exists b; auto|]. apply IH. lia. }
    assert (UP : (c_iter st <= Z.of_nat K + 3)%Z).
    { destruct (Z_le_gt_dec (c_iter st) (Z.of_nat K + 3)) as [|G]; [assumption|]. exfalso. destruct (PRE st T (Z.of_nat K + 3)%Z ltac:(lia)) as (b & Tb & Ib & TE). destruct (SMALL b Tb Ib) as (r & R1 & R2).
      unfold scf_test in TE. rewrite R1 in TE. cbn [gtb] in TE. destruct (Rlt_dec (so_tol o) r); [lra|]. destruct (so_auto o); discriminate. }
    split; [exact UP|]. destruct (Z.eq_dec (c_iter st) (Z.of_nat K + 3)) as [Q|Q]; [exact (SMALL st T Q)|]. destruct (FIN st T) as (r & R). exists r. split; [exact R|].
    unfold scf_test in X. rewrite R in X. cbn [gtb] in X. destruct (Rlt_dec (so_tol o) r); [|lra]. injection X as X. apply Z.ltb_ge in X. lia.
  Qed.
End Contract.
