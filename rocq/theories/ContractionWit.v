(** A run for the theorems of Contraction.v: the two electrons of KSMemoryWit.v, mixing factor 1/2. *)
From Coq Require Import Reals List Arith Lia Lra ZArith Bool String FunctionalExtensionality.
From Verif Require Import Base BaseLemmas GridModel GridSpec GridProofs HartreeModel SolverModel SolverSpec SolverProofs LibxcModel OptionsModel KSModel KSSpec KSProofs KSThms KSLoop KSEnergy KSTotal SelfConsistent NonInteracting
  GridWitness SolverWitness SolverCases KSWit InverterThms KSMemory KSMemoryWit Contraction.
Import ListNotations.
Local Open Scope R_scope.
Local Opaque sinh cosh.

Section Co.
  Variable (k : ks).
  Hypothesis (KO : fr_object k).
  Lemma co_place : forall i j q, frame k q -> place q i j <-> place k i j.
  Proof. intros i j q (_ & _ & _ & _ & F5 & F6 & _). unfold place. rewrite F5, F6. tauto. Qed.
  Lemma co_answers : forall n m n' m', answer g22 fr_env k n m -> answer g22 fr_env k n' m' -> m' = m.
  Proof.
    intros n m n' m' (q & k1 & vh & it & dif & l & F & _ & _ & H1 & H2 & (a & a' & A1 & A2 & A3)) (q' & k1' & vh' & it' & dif' & l' & F' & _ & _ & H1' & H2' & (b & b' & B1 & B2 & B3)).
    assert (FF : frame a b). { destruct A1 as (I1 & I2 & I3 & I4 & I5 & I6 & I7 & I8). destruct B1 as (J1 & J2 & J3 & J4 & J5 & J6 & J7 & J8). repeat (split; [congruence|]). intros i j. specialize (I8 i j). specialize (J8 i j). unfold same_static in *. intuition congruence. }
    assert (PV : forall i j, place a i j -> forall x, (x < Nelem g22)%nat -> s_veff (k_sol b i j) x = s_veff (k_sol a i j) x).
    { intros i j Hp x _. apply (co_place i j a A1) in Hp. rewrite A2, B2 by exact Hp. pose proof KO as (_ & _ & C & _). destruct Hp as (_ & Hj). rewrite (fr_hxc k KO q k1 vh F H1 H2), (fr_hxc k KO q' k1' vh' F' H1' H2') by lia. reflexivity. }
    exact (proj1 (density_steady _ _ _ _ _ _ _ _ _ _ _ _ _ _ fr_steady FF PV A3 B3)).
  Qed.
  Lemma co_self : forall n m, answer g22 fr_env k n m -> self_consistent g22 fr_env k m.
  Proof.
    intros n m (q & k1 & vh & it & dif & l & F & _ & _ & H1 & H2 & (a & a' & A1 & A2 & A3)).
    set (p := set_vext (set_n k (Some m)) (Some (outer k))). assert (FP : frame k p) by (do 7 (split; [reflexivity|]); intros i j; repeat split).
    assert (HP : exists k2 vh2, calc_hxc_potential g22 fr_env p = Ok k2 /\ k_vhxc k2 = Some vh2).
    { destruct (fr_able p (fr_shape_of k p KO FP)) as (_ & _ & _ & [NI|HX]); [exfalso; destruct KO as (_ & _ & _ & _ & _ & OI & _); change (k_opt p) with (k_opt k) in NI; rewrite OI in NI; discriminate|].
      destruct (HX m) as (x & c & hh & Y1 & Y2 & Y3). unfold calc_hxc_potential. assert (NI : String.eqb (o_int (k_opt p)) "ni" = false) by (change (k_opt p) with (k_opt k); destruct KO as (_ & _ & _ & _ & _ & -> & _); reflexivity).
      rewrite NI. change (k_n p) with (Some m). cbn [need bind]. rewrite Y1. cbn [bind]. rewrite Y2. cbn [bind]. rewrite Y3. cbn [bind]. do 2 eexists. split; reflexivity. }
    destruct HP as (k2 & vh2 & P1 & P2). exists it, dif, l, k2, vh2. split; [exact P1|]. split; [exact P2|]. exists a, a'. split; [exact A1|]. split; [|exact A3].
    intros i j Hp x. rewrite A2 by exact Hp. pose proof KO as (_ & _ & C & _). destruct Hp as (_ & Hj). rewrite (fr_hxc k KO q k1 vh F H1 H2), (fr_hxc k KO p k2 vh2 FP P1 P2) by lia. reflexivity.
  Qed.
  Lemma co_contracts : contracts g22 fr_env k (fun _ => True) 0.
  Proof. intros n n' m m' e _ _ A B _ x s _ _. rewrite (co_answers n m n' m' A B). rewrite Rminus_diag_eq, Rabs_R0 by reflexivity. lra. Qed.
  Lemma co_stays : forall a, stays g22 fr_env k (fun _ => True) a. Proof. intros a n m _ _. exact Logic.I. Qed.
End Co.

(** Every hypothesis of Contraction.v holds for some iteration limit; the start is not self-consistent. *)
Theorem co_run : exists k d o st k0 n0 ns e K, ks_init g22 0 0 2 1 2 (fun _ _ => 1%nat) 1 2 ex_N ex_opt = Ok k /\ ks_scf g22 fr_env (fun _ => keys k) d k = Ok st /\ scf_options d = Ok o /\ so_flip o = false /\ so_alpha o = 1 / 2 /\
  contracts g22 fr_env k (fun _ => True) 0 /\ stays g22 fr_env k (fun _ => True) (so_alpha o) /\ scf_start g22 fr_env o (keys k) k = Ok k0 /\ k_n k0 = Some n0 /\ self_consistent g22 fr_env k ns /\ near g22 e n0 ns /\ (exists x, (x < Nelem g22)%nat /\ n0 x 0%nat <> ns x 0%nat) /\
  k_pol k = 2%nat /\ (0 < Nelem g22)%nat /\ (forall m, answer g22 fr_env k n0 m -> near g22 e m n0) /\ 0 <= e /\
  (forall a a' b b' na nb f, scf_trace g22 fr_env o (fun _ => keys k) k a -> scf_test o a = Ok true -> scf_body g22 fr_env o (keys k) a = Ok a' -> scf_trace g22 fr_env o (fun _ => keys k) k b -> scf_test o b = Ok true -> scf_body g22 fr_env o (keys k) b = Ok b' ->
     k_n (c_ks a) = Some na -> k_n (c_ks b) = Some nb -> near g22 f na nb -> exists Ea Eb, c_oldE a' = Fin Ea /\ c_oldE b' = Fin Eb /\ Rabs (Ea - Eb) <= 0 * f) /\
  (forall a E, scf_trace g22 fr_env o (fun _ => keys k) k a -> (2 <= c_iter a)%Z -> c_oldE a = Fin E -> 2 <= Rabs E) /\
  (forall a n s, scf_trace g22 fr_env o (fun _ => keys k) k a -> (2 <= c_iter a)%Z -> k_n (c_ks a) = Some n -> (s < 2)%nat -> 1 <= amount g22 n s) /\
  0 * (rate o 0 ^ K * (so_alpha o * e)) <= so_tol o * 2 /\ bulk g22 * (rate o 0 ^ S K * (so_alpha o * e)) <= so_tol o * 1 /\ 0 < so_tol o < 1 /\ (Z.of_nat K + 3 <= so_maxiter o)%Z.
Proof.
  destruct fr_init as (k & KI). pose proof (fr_static k KI) as KO.
  (* the answer, from the first pass of a run *)
  assert (T0 : 10 * / 10 ^ 6 = 1 / 100000) by field.
  assert (OP : forall M, exists o, scf_options [("maxiter"%string, VZ M)] = Ok o /\ so_alpha o = 1 / 2 /\ so_flip o = false /\ so_cont o = false /\ so_auto o = false /\ so_maxiter o = M /\ so_tol o = 1 / 100000).
  { intros M. eexists. split; [reflexivity|]. cbn [so_alpha so_flip so_cont so_auto so_maxiter so_tol]. repeat split; try reflexivity. exact T0. }
  assert (AN : exists n0 ns, (forall o k0, so_cont o = false -> scf_start g22 fr_env o (keys k) k = Ok k0 -> k_n k0 = Some n0) /\ answer g22 fr_env k n0 ns /\ exists x, (x < Nelem g22)%nat /\ n0 x 0%nat <> ns x 0%nat).
  { destruct (OP 3%Z) as (o & O & A1 & A2 & A3 & A4 & A5 & A6). destruct (fr_runs k (keys k) _ o (fr_shape_of k k KO (frame_refl k)) (keys_schedule k) O A4 ltac:(congruence)) as (st & E).
    destruct (scf_inv _ _ _ _ _ _ E) as (o' & O' & T & X). rewrite O in O'. injection O' as <-. pose proof (first_pass _ _ _ _ _ _ T X ltac:(lra) ltac:(lia)) as I2.
    assert (Q : exists s0 s1, scf_start g22 fr_env o (keys k) k = Ok s0 /\ scf_body g22 fr_env o (keys k) (mkSt s0 (Fin 10) (Fin 0) (fun _ _ => 0) 1%Z) = Ok s1).
    { clear - T I2. induction T as [k0 S0|a b Ta IH TE B]; [cbn in I2; lia|]. destruct Ta as [k0 S0|a0 a Ta0 TE0 B0]; [eauto|]. apply IH. apply body_frame in B0. pose proof (trace_bound _ _ _ _ _ _ Ta0). lia. }
    destruct Q as (s0 & s1 & S0 & B). pose proof (trace_start g22 fr_env o (fun _ => keys k) k s0 S0) as TS. destruct (pass_answer _ _ _ _ _ _ _ A2 TS B) as (n0 & m & N0 & AN & _). cbn [c_ks] in N0. exists n0, m. split; [|split; [exact AN|]].
    - intros o' k0 OC S1. destruct (start_same g22 fr_env o o' (keys k) (keys k) k s0 k0 fr_steady ltac:(congruence) S0 S1) as (_ & Q & _). congruence.
    - destruct (fr_guess o (fun _ => keys k) k KO A3 s0 S0) as (n1 & N1 & _ & N2). assert (n1 = n0) by congruence. subst n1.
      destruct (ks_pass _ _ _ _ _ _ A2 B) as (q1 & m0 & m' & nout & ve & vh & M1 & M2 & _ & M4 & M5 & M6 & M7 & M8 & _). cbn [c_ks] in *.
      assert (ve = outer k) by (pose proof (trace_vext _ _ _ _ _ _ TS) as VX; cbn [c_ks] in VX; congruence). subst ve.
      destruct (fr_delivered o (fun _ => keys k) k KO _ q1 _ _ _ vh nout TS M4 M6 M7) as (D1 & D2).
      assert (AN2 : answer g22 fr_env k n0 nout). { pose proof (trace_frame _ _ _ _ _ _ TS) as (F & _). cbn [c_ks] in F. exists s0, q1, vh. do 3 eexists. split; [exact F|]. split; [exact N0|]. split; [exact M5|]. split; [exact M4|]. split; [exact M6|]. exact (delivered_back _ _ _ _ _ _ _ _ _ _ F M7). }
      rewrite <- (co_answers k KO n0 m n0 nout AN AN2) in *. rewrite g22_n. destruct (Req_EM_T (n0 0%nat 0%nat) (nout 0%nat 0%nat)) as [Q|Q]; [|exists 0%nat; split; [lia|exact Q]]. exists 1%nat. split; [lia|]. rewrite D2, N2, Q. intros Z. lra. }
  destruct AN as (n0 & ns & N0 & AN & DIF). destruct (near_bound g22 n0 ns) as (e & E0 & NE & _).
  assert (KK : exists K, bulk g22 * ((1 / 2) ^ S K * (1 / 2 * e)) <= 1 / 100000).
  { assert (B0 : 0 <= bulk g22) by (unfold bulk; apply Rmult_le_pos; [apply Rabs_pos|apply sumR_nonneg; intros; apply Rabs_pos]). set (c := bulk g22 * (1 / 2 * e)). assert (0 <= c) by (apply Rmult_le_pos; lra).
    destruct (pow_lt_1_zero (1 / 2) ltac:(rewrite Rabs_pos_eq; lra) (1 / 100000 / (c + 1))) as (K & HK); [apply Rdiv_lt_0_compat; lra|]. exists K. specialize (HK (S K) ltac:(lia)). rewrite Rabs_pos_eq in HK by (apply pow_le; lra).
    replace (bulk g22 * ((1 / 2) ^ S K * (1 / 2 * e))) with (c * (1 / 2) ^ S K) by (unfold c; ring). assert (0 <= (1 / 2) ^ S K) by (apply pow_le; lra).
    apply Rlt_le. apply Rle_lt_trans with ((c + 1) * (1 / 2) ^ S K); [nra|]. apply Rmult_lt_compat_l with (r := c + 1) in HK; [|lra]. replace ((c + 1) * (1 / 100000 / (c + 1))) with (1 / 100000) in HK by (field; lra). exact HK. }
  destruct KK as (K & HK). destruct (OP (Z.of_nat K + 3)%Z) as (o & O & A1 & A2 & A3 & A4 & A5 & A6).
  destruct (fr_runs k (keys k) _ o (fr_shape_of k k KO (frame_refl k)) (keys_schedule k) O A4 ltac:(congruence)) as (st & E). destruct (scf_inv _ _ _ _ _ _ E) as (o' & O' & T & X). rewrite O in O'. injection O' as <-.
  assert (S0 : exists k0, scf_start g22 fr_env o (keys k) k = Ok k0) by (clear - T; induction T; eauto). destruct S0 as (k0 & S0).
  assert (EN : forall a a', scf_trace g22 fr_env o (fun _ => keys k) k a -> scf_test o a = Ok true -> scf_body g22 fr_env o (keys k) a = Ok a' -> c_oldE a' = Fin (-2)).
  { intros a a' Ta TE B. apply (fr_pass o (fun _ => keys k) k KO A2 ltac:(congruence) a a' Ta B). exact (trace_step g22 fr_env o (fun _ => keys k) k a a' Ta TE B). }
  assert (RT : rate o 0 = 1 / 2) by (unfold rate; rewrite A1; lra).
  exists k, [("maxiter"%string, VZ (Z.of_nat K + 3))], o, st, k0, n0, ns, e, K. split; [exact KI|]. split; [exact E|]. split; [exact O|]. split; [exact A2|]. split; [exact A1|]. split; [exact (co_contracts k KO)|]. split; [exact (co_stays k (so_alpha o))|].
  split; [exact S0|]. split; [exact (N0 o k0 A3 S0)|]. split; [exact (co_self k KO n0 ns AN)|]. split; [exact NE|]. split; [exact DIF|]. split; [apply KO|]. split; [rewrite g22_n; lia|].
  split; [intros m AM; rewrite (co_answers k KO n0 ns n0 m AN AM); intros x s Hx Hs; rewrite Rabs_minus_sym; apply NE; auto|]. split; [exact E0|].
  split. { intros a a' b b' na nb f Ta TEa Ba Tb TEb Bb _ _ _. exists (-2), (-2). split; [exact (EN a a' Ta TEa Ba)|]. split; [exact (EN b b' Tb TEb Bb)|]. rewrite Rminus_diag_eq, Rabs_R0 by reflexivity. lra. }
  split. { intros a E' Ta I2 EE. destruct Ta as [kk SS|b a Tb TE B]; [cbn in I2; lia|]. rewrite (EN b a Tb TE B) in EE. injection EE as <-. rewrite Rabs_left by lra. lra. }
  split. { intros a n s Ta I2 N Hs. destruct (fr_capable k KO) as (_ & C2 & C3 & _). destruct (trace_nonneg g22 fr_env o (fun _ => keys k) k C2 C3 ltac:(lra) ltac:(congruence) _ Ta) as (n' & N' & NN). assert (n' = n) by congruence. subst n'.
    destruct (fr_count o (fun _ => keys k) k KO A2 ltac:(congruence) a Ta) as (n' & N2 & CT). assert (n' = n) by congruence. subst n'. unfold amount. rewrite (integrate1_ext g22 _ (fun x => n x s)) by (intros x Hx; apply Rabs_pos_eq, NN, Hx). rewrite CT by exact Hs. lra. }
  rewrite RT, A1, A6, A5. split; [lra|]. split; [lra|]. split; [lra|lia].
Qed.
