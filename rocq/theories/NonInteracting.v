(** Kohnsham.scf for electrons without interaction: the potential does not change, so nothing changes after the guess. *)
From Coq Require Import Reals List Arith Lia Lra ZArith Bool String.
From Verif Require Import Base BaseLemmas GridModel GridSpec GridProofs HartreeModel SolverModel SolverSpec SolverProofs LibxcModel OptionsModel KSModel KSSpec KSProofs KSThms KSLoop KSEnergy KSTotal SelfConsistent GridWitness SolverWitness SolverCases KSWit InverterThms.
Import ListNotations.
Local Open Scope R_scope.

(** Contract: the answer of an eigenvalue solver depends on the attributes of the solver and on the potential at the grid
    points, not on the method (direct or iterative), the previous orbitals and the previous eigenvalues. *)
Definition steady (g : grid) (w : env) : Prop := forall it it' s s', same_static s s' -> (forall x, (x < Nelem g)%nat -> s_veff s' x = s_veff s x) ->
  e_worker w it' s' = e_worker w it s.
(** The external potential of a run. *)
Definition outer (k : ks) : mat := match k_vext k with Some v => v | None => fun _ _ => 0 end.

Lemma density_same : forall g s s' r, same_static s s' -> calc_density g (set_result s' r) = calc_density g (set_result s r).
Proof.
  intros g s s' r (A1 & A2 & A3 & A4 & A5 & A6). unfold calc_density, nocc, shell_scale, set_result. cbn [s_m s_pol s_N s_frac]. rewrite A1, A2, A3, A5.
  assert (P : forall z, phi_col (mkSolver (s_m s) (s_pol s) (s_N s) (s_Nmo s') (s_frac s) (s_sym s') (s_veff s') (snd r) (Some (fst r))) z = phi_col (mkSolver (s_m s) (s_pol s) (s_N s) (s_Nmo s) (s_frac s) (s_sym s) (s_veff s) (snd r) (Some (fst r))) z) by reflexivity.
  assert (D : forall n, dens_loop g (mkSolver (s_m s) (s_pol s) (s_N s) (s_Nmo s') (s_frac s) (s_sym s') (s_veff s') (snd r) (Some (fst r))) n = dens_loop g (mkSolver (s_m s) (s_pol s) (s_N s) (s_Nmo s) (s_frac s) (s_sym s) (s_veff s) (snd r) (Some (fst r))) n).
  { induction n as [|n IH]; [reflexivity|]. cbn [dens_loop]. rewrite IH. reflexivity. }
  cbn [s_m s_pol s_N s_frac].
  destruct ((if (s_m s =? 0)%Z then _ else _)) as [No nu]. rewrite D. reflexivity.
Qed.
Lemma eks_same : forall s s' r, same_static s s' -> eks_of (set_result s' r) = eks_of (set_result s r).
Proof.
  intros s s' r (A1 & A2 & A3 & A4 & A5 & A6). unfold eks_of, calc_eks, nocc, shell_scale, set_result. cbn [s_m s_pol s_N s_frac]. rewrite A1, A2, A3, A5.
  assert (D : forall n, eks_loop (mkSolver (s_m s) (s_pol s) (s_N s) (s_Nmo s') (s_frac s) (s_sym s') (s_veff s') (snd r) (Some (fst r))) n = eks_loop (mkSolver (s_m s) (s_pol s) (s_N s) (s_Nmo s) (s_frac s) (s_sym s) (s_veff s) (snd r) (Some (fst r))) n).
  { induction n as [|n IH]; [reflexivity|]. cbn [eks_loop]. rewrite IH. reflexivity. }
  destruct ((if (s_m s =? 0)%Z then _ else _)) as [No nu]. rewrite D. reflexivity.
Qed.
(** Two objects alike, their solvers in the same potential: same answers, same density. *)
Lemma density_steady : forall g w it dif l it' dif' l' k k' k1 k1' n n', steady g w -> frame k k' ->
  (forall i j, place k i j -> forall x, (x < Nelem g)%nat -> s_veff (k_sol k' i j) x = s_veff (k_sol k i j) x) ->
  ks_density g w it dif l k = Ok (k1, n) -> ks_density g w it' dif' l' k' = Ok (k1', n') ->
  n' = n /\ forall i j, place k i j -> exists r, k_sol k1 i j = set_result (k_sol k i j) r /\ k_sol k1' i j = set_result (k_sol k' i j) r.
Proof.
  intros g w it dif l it' dif' l' k k' k1 k1' n n' ST F HV H H'. apply density_inv in H. apply density_inv in H'.
  destruct H as (sol & n0 & -> & W & _ & S & ->). destruct H' as (sol' & n0' & -> & W' & _ & S' & ->). pose proof F as (F1 & _ & _ & F2 & F3 & F4 & _ & F5).
  assert (Q : forall i j, place k i j -> exists r, sol i j = set_result (k_sol k i j) r /\ sol' i j = set_result (k_sol k' i j) r).
  { intros i j Hp. destruct (W i j Hp) as (r & A & B). assert (Hp' : place k' i j) by (unfold place in *; rewrite F3, F4; exact Hp). destruct (W' i j Hp') as (r' & A' & B').
    rewrite (ST (use_iter it dif) (use_iter it' dif') (k_sol k i j) (k_sol k' i j) (F5 i j) (HV i j Hp)), A in A'. injection A' as <-. eauto. }
  assert (E : n0' = n0).
  { assert (X : sum_dens g k' sol' = sum_dens g k sol).
    { unfold sum_dens. rewrite F2, F3, F4. apply forN_ext. intros j m Hj. apply forN_ext. intros i m' Hi. destruct (Q i j) as (r & -> & ->); [split; auto|].
      rewrite (density_same g (k_sol k i j) (k_sol k' i j) r (F5 i j)). reflexivity. }
    rewrite X, S in S'. congruence. }
  split; [rewrite E, F1; reflexivity|]. intros i j Hp. cbn [set_sol k_sol]. apply Q, Hp.
Qed.

Lemma eff_frame : forall k k', set_effective_potential k = Ok k' -> frame k k'.
Proof.
  intros k k' H. unfold set_effective_potential in H. destruct (need (k_vext k)) as [ve|]; [|discriminate]. cbn [bind] in H. destruct (need (k_vhxc k)) as [vh|]; [|discriminate]. cbn [bind] in H. cbv zeta in H.
  destruct (distribute k _) as [sol|] eqn:D; [|discriminate]. cbn [bind] in H. injection H as <-. repeat (split; [reflexivity|]). apply (distribute_static _ _ _ D).
Qed.
Section Run.
  Variables (g : grid) (w : env) (o : scfopt) (sched : Z -> list (nat * nat)) (k : ks).
  Hypotheses (ST : steady g w) (NI : o_int (k_opt k) = "ni"%string) (HC : so_cont o = false) (HF : so_flip o = false).

  Lemma sym_zero : forall v x s, (forall x s, v x s = 0) -> (if o_sym (k_opt k) then sym_avgR g v else v) x s = 0.
  Proof.
    intros v x s H. destruct (o_sym (k_opt k)); [|apply H]. unfold sym_avgR, sym_avg. rewrite H.
    assert (M : mirror2 g v x s = 0) by (unfold mirror2, mirror1, mirror_flat; apply H). rewrite M. ring.
  Qed.
  (** The guess. *)
  Definition guessed (k1 k2 : ks) (n0 : mat) : Prop := frame k k1 /\ (forall i j, place k i j -> forall x, s_veff (k_sol k1 i j) x = k_vnuc k x j + outer k x j) /\
    ks_density g w false (Fin 0) (sched 0%Z) k1 = Ok (k2, n0).
  Lemma start_guess : forall k0, scf_start g w o (sched 0%Z) k = Ok k0 ->
    exists k1 k2 n0, guessed k1 k2 n0 /\ frame k k0 /\ k_vext k0 = Some (outer k) /\ k_n k0 = Some n0 /\ k_sol k0 = k_sol k2.
  Proof.
    intros k0 H. pose proof (proj1 (start_inv _ _ _ _ _ _ H)) as FF. unfold scf_start in H. rewrite HC in H. cbv zeta in H.
    destruct (set_effective_potential _) as [k1|] eqn:E1; [|discriminate]. cbn [bind] in H. destruct (ks_density g w false (Fin 0) (sched 0%Z) k1) as [[k2 n0]|] eqn:D; [|discriminate]. cbn [bind] in H.
    injection H as <-. pose proof (eff_frame _ _ E1) as F1. apply eff_pot in E1. destruct E1 as (ve & vh & A1 & A2 & A3 & A4 & A5 & A6 & A7 & A8 & A9 & _). cbn [set_vhxc set_vext k_vext k_vhxc k_vnuc] in *.
    injection A1 as <-. injection A2 as <-. exists k1, k2, n0. split; [|split; [exact FF|]].
    - split; [exact F1|]. split; [|exact D]. intros i j Hp x. destruct (A4 i j Hp) as (_ & ->). cbn [set_veff s_veff]. unfold add3, outer. ring.
    - apply density_inv in D. destruct D as (sol & n1 & -> & _). cbn [set_n set_sol k_vext k_n k_sol]. split; [rewrite A7; reflexivity|]. auto.
  Qed.
  (** What every visited state shares with the guess. *)
  Definition as_guessed (k1 k2 : ks) (n0 : mat) (st : scst) : Prop :=
    frame k (c_ks st) /\ k_vext (c_ks st) = Some (outer k) /\ (exists n, k_n (c_ks st) = Some n /\ forall x s, n x s = n0 x s) /\
    (forall i j, place k i j -> exists r s, k_sol k2 i j = set_result (k_sol k1 i j) r /\ same_static (k_sol k1 i j) s /\
      (forall x, s_veff s x = k_vnuc k x j + outer k x j) /\ k_sol (c_ks st) i j = set_result s r).
  Lemma pass_guess : forall k1 k2 n0 st st' l, guessed k1 k2 n0 -> as_guessed k1 k2 n0 st -> scf_body g w o l st = Ok st' ->
    as_guessed k1 k2 n0 st' /\ (o_sym (k_opt k) = false -> k_pol k = k_cols k ->
      c_oldE st' = Fin (sumR (k_lv k) (fun i => sumR (k_cols k) (fun j => eks_of (k_sol k2 i j))) - interaction g (k_pol k) n0 (outer k) + k_Za k * k_Zb k / (2 * ga g))).
  Proof.
    intros k1 k2 n0 st st' l (G1 & G2 & G3) (S1 & S2 & (n & S3 & S3') & S4) H. pose proof (body_frame _ _ _ _ _ _ H) as (BF & _).
    assert (FF : frame k (c_ks st')) by (eapply frame_trans; eauto).
    apply KSLoop.body_inv in H. destruct H as (_ & ka & ve & vh & sol & k3 & nout & n1 & k4 & k5 & E & r & H).
    destruct H as (X & E1 & E2 & D & DD & N & EN & C & KE & RR & ->). rewrite HF in *. cbn [c_ks c_oldE] in *.
    destruct (hxc_frame _ _ _ _ X) as (Fa & Na & Va & Sa).
    assert (VE : ve = outer k) by congruence. subst ve.
    assert (VH : forall x s, vh x s = 0).
    { apply hxc_inv in X. destruct X as (V & v & -> & [(_ & _ & Z & _)|(Z & _)]); [|exfalso; apply Z; destruct S1 as (-> & _); exact NI].
      cbn [set_vhxc k_vhxc] in E2. injection E2 as <-. intros x s. destruct S1 as (-> & _). apply sym_zero, Z. }
    set (kk := set_sol (set_veffs ka (Some (add3 (k_vnuc ka) (outer k) vh))) sol) in *.
    assert (Fk : frame k kk).
    { eapply frame_trans; [exact S1|]. eapply frame_trans; [exact Fa|]. repeat (split; [reflexivity|]). apply (distribute_scf_static _ _ _ D). }
    assert (F1k : frame k1 kk).
    { destruct G1 as (I1 & I2 & I3 & I4 & I5 & I6 & I7 & I8). destruct Fk as (J1 & J2 & J3 & J4 & J5 & J6 & J7 & J8).
      repeat (split; [congruence|]). intros i j. specialize (I8 i j). specialize (J8 i j). unfold same_static in *. intuition congruence. }
    assert (PL : forall i j, place k1 i j <-> place k i j) by (intros i j; destruct G1 as (_ & _ & _ & _ & I5 & I6 & _); unfold place; rewrite I5, I6; tauto).
    assert (PLa : forall i j, place k i j -> place ka i j) by (intros i j Hp; destruct (frame_trans _ _ _ S1 Fa) as (_ & _ & _ & _ & I5 & I6 & _); unfold place; rewrite I5, I6; exact Hp).
    assert (VS : forall i j, place k i j -> forall x, s_veff (k_sol kk i j) x = k_vnuc k x j + outer k x j).
    { intros i j Hp x. unfold kk. cbn [set_sol k_sol]. apply distribute_scf_ok in D. destruct D as (D1 & _). destruct (D1 i j (PLa i j Hp)) as (_ & ->). cbn [set_veff s_veff]. unfold add3. rewrite VH.
      destruct (frame_trans _ _ _ S1 Fa) as (_ & _ & _ & _ & _ & _ & -> & _). ring. }
    destruct (density_steady _ _ _ _ _ _ _ _ _ _ _ _ _ _ ST F1k (fun i j Hp x _ => eq_trans (VS i j (proj1 (PL i j) Hp) x) (eq_sym (G2 i j (proj1 (PL i j) Hp) x))) G3 DD) as (-> & QQ).
    assert (N1 : n1 = n).
    { pose proof DD as DD'. apply density_inv in DD'. destruct DD' as (sol' & n2 & -> & _). unfold kk in N. cbn [set_sol k_n set_veffs] in N. congruence. }
    subst n1.
    assert (MX : forall x s, mixed o n n0 x s = n0 x s) by (intros x s; unfold mixed; rewrite S3'; ring).
    pose proof (energy_inv _ _ _ _ EN) as EI. pose proof (energy_keep _ _ _ _ EN) as (E' & V & K4). apply chempot_keep in C. destruct C as (u & ->). subst k4.
    pose proof DD as DD'. apply density_inv in DD'. destruct DD' as (sol' & n2 & K3 & W & W' & SD & ND).
    split.
    - split; [exact FF|]. split; [|split].
      + rewrite K3. unfold kk. cbn [set_u set_EV set_n set_sol set_veffs k_vext]. exact E1.
      + exists (mixed o n n0). split; [rewrite K3; reflexivity|exact MX].
      + intros i j Hp. destruct (QQ i j (proj2 (PL i j) Hp)) as (r0 & Q1 & Q2). exists r0, (k_sol kk i j). split; [exact Q1|]. split; [apply F1k|]. split; [apply VS, Hp|]. cbn [set_u set_EV set_n k_sol]. exact Q2.
    - intros HS HP. destruct EI as (En & m & ve & I1 & I2 & I3 & _ & _ & _ & _ & _ & I4 & _ & I5 & [(_ & I6)|(I6 & _)]);
        [|exfalso; apply I6; rewrite K3; unfold kk; cbn [set_n set_sol set_veffs k_opt]; destruct (frame_trans _ _ _ S1 Fa) as (-> & _); exact NI].
      cbn [set_EV set_u k_E] in I1, KE. injection I1 as <-. injection KE as <-. rewrite I6, I4, I5. f_equal. cbn [set_n k_n] in I2. injection I2 as <-.
      assert (KF : frame k (set_n k3 (Some (mixed o n n0)))). { eapply frame_trans; [exact Fk|]. pose proof (density_frame _ _ _ _ _ _ _ _ DD) as (J1 & J2 & J3 & J4 & J5 & J6 & J7 & J8). repeat (split; [assumption|]). exact J8. }
      set (K := set_n k3 (Some (mixed o n n0))) in *. pose proof KF as (L1 & L2 & L3 & L4 & L5 & L6 & L7 & L8).
      assert (IN : interaction g (k_pol K) (mixed o n n0) (k_vnuc K) = interaction g (k_pol K) n0 (k_vnuc K)).
      { unfold interaction. apply sumR_ext. intros s Hs. apply integrate1_ext. intros x Hx. rewrite MX. reflexivity. }
      rewrite IN, L2, L3. 
      assert (DC : kinetic g K + interaction g (k_pol K) n0 (k_vnuc K) = sumR (k_lv K) (fun i => sumR (k_cols K) (fun j => eks_of (k_sol K i j))) - interaction g (k_pol K) n0 (outer k) - interaction g (k_pol K) n0 (fun _ _ => 0)).
      { apply double_counting.
        - rewrite L4, L6. exact HP.
        - intros i j Hp x Hx. assert (Hp' : place k i j) by (unfold place in *; rewrite L5, L6 in Hp; exact Hp). destruct (QQ i j (proj2 (PL i j) Hp')) as (r0 & _ & Q2). unfold K. cbn [set_n k_sol]. rewrite Q2. cbn [set_result s_veff]. rewrite (VS i j Hp'), <- L7. unfold K. ring.
        - assert (n0 = n2) as -> by (rewrite ND; destruct Fk as (-> & _); rewrite HS; reflexivity). unfold K. rewrite K3. cbn [set_n set_sol k_sol]. exact SD. }
      rewrite DC. assert (Z : interaction g (k_pol K) n0 (fun _ _ => 0) = 0).
      { unfold interaction. apply sumR_zero. intros s Hs. rewrite (integrate1_ext g _ (fun _ => 0)); [apply integrate1_zero|]. intros. ring. }
      rewrite Z, L4, L5, L6. assert (BB : sumR (k_lv k) (fun i => sumR (k_cols k) (fun j => eks_of (k_sol K i j))) = sumR (k_lv k) (fun i => sumR (k_cols k) (fun j => eks_of (k_sol k2 i j)))).
      { apply sumR_ext. intros i Hi. apply sumR_ext. intros j Hj. assert (Hp : place k i j) by (split; auto). destruct (QQ i j (proj2 (PL i j) Hp)) as (r0 & Q1 & Q2). unfold K. cbn [set_n k_sol]. rewrite Q1, Q2. apply eks_same, F1k. }
      rewrite BB. ring.
  Qed.
End Run.

(** * Runs *)
(** The sum of the occupied eigenvalues left by the guess. *)
Definition band (k : ks) : R := sumR (k_lv k) (fun i => sumR (k_cols k) (fun j => eks_of (k_sol k i j))).
Lemma ni_visited : forall g w o sched k st, steady g w -> o_int (k_opt k) = "ni"%string -> so_cont o = false -> so_flip o = false -> scf_trace g w o sched k st ->
  forall k0 n0, scf_start g w o (sched 0%Z) k = Ok k0 -> k_n k0 = Some n0 ->
  (exists k1 k2, guessed g w sched k k1 k2 n0 /\ as_guessed k k1 k2 n0 st /\ k_sol k0 = k_sol k2) /\
  ((2 <= c_iter st)%Z -> o_sym (k_opt k) = false -> k_pol k = k_cols k -> c_oldE st = Fin (band k0 - interaction g (k_pol k) n0 (outer k) + k_Za k * k_Zb k / (2 * ga g))).
Proof.
  intros g w o sched k st ST NI HC HF T k0 n0 S N. pose proof S as S'. apply (start_guess g w o sched k HC) in S'. destruct S' as (k1 & k2 & n0' & G & F & V & N' & SO). rewrite N in N'. injection N' as <-.
  induction T as [k0' S'|st st' T IH TE B].
  - rewrite S in S'. injection S' as <-. split; [|cbn [c_iter]; lia]. exists k1, k2. split; [exact G|]. split; [|exact SO]. split; [exact F|]. split; [exact V|]. split; [exists n0; auto|]. intros i j Hp.
    cbn [c_ks]. rewrite SO. destruct G as (G1 & G2 & G3). apply density_inv in G3. destruct G3 as (sol & n1 & -> & W & _).
    assert (Hp' : place k1 i j) by (destruct G1 as (_ & _ & _ & _ & I5 & I6 & _); unfold place in *; rewrite I5, I6; exact Hp). destruct (W i j Hp') as (r & _ & Q). exists r, (k_sol k1 i j). cbn [set_sol k_sol].
    split; [exact Q|]. split; [apply same_static_refl|]. split; [apply G2, Hp|exact Q].
  - destruct IH as ((k1' & k2' & G' & A' & SO') & _). destruct (pass_guess g w o sched k ST NI HF k1' k2' n0 st st' _ G' A' B) as (A2 & EE). split; [exists k1', k2'; auto|].
    intros _ HS HP. rewrite (EE HS HP). f_equal. f_equal. f_equal. unfold band. destruct F as (_ & _ & _ & _ & -> & -> & _). rewrite SO'. reflexivity.
Qed.
Theorem ni_density : forall g w o sched k st, steady g w -> o_int (k_opt k) = "ni"%string -> so_cont o = false -> so_flip o = false -> scf_trace g w o sched k st ->
  forall k0 n0, scf_start g w o (sched 0%Z) k = Ok k0 -> k_n k0 = Some n0 -> exists n, k_n (c_ks st) = Some n /\ forall x s, n x s = n0 x s.
Proof. intros g w o sched k st ST NI HC HF T k0 n0 S N. destruct (ni_visited _ _ _ _ _ _ ST NI HC HF T k0 n0 S N) as ((k1 & k2 & _ & (_ & _ & X & _) & _) & _). exact X. Qed.
Theorem ni_energy : forall g w o sched k st, steady g w -> o_int (k_opt k) = "ni"%string -> so_cont o = false -> so_flip o = false -> o_sym (k_opt k) = false -> k_pol k = k_cols k ->
  scf_trace g w o sched k st -> (2 <= c_iter st)%Z -> forall k0 n0, scf_start g w o (sched 0%Z) k = Ok k0 -> k_n k0 = Some n0 ->
  c_oldE st = Fin (band k0 - interaction g (k_pol k) n0 (outer k) + k_Za k * k_Zb k / (2 * ga g)).
Proof. intros g w o sched k st ST NI HC HF HS HP T HI k0 n0 S N. apply (proj2 (ni_visited _ _ _ _ _ _ ST NI HC HF T k0 n0 S N)); auto. Qed.
Theorem ni_two_passes : forall g w sched d k st o k0 n0 E, ks_scf g w sched d k = Ok st -> scf_options d = Ok o -> steady g w -> o_int (k_opt k) = "ni"%string -> so_cont o = false -> so_flip o = false ->
  o_sym (k_opt k) = false -> k_pol k = 2%nat -> k_cols k = 2%nat -> (0 < Nelem g)%nat -> scf_start g w o (sched 0%Z) k = Ok k0 -> k_n k0 = Some n0 -> (forall s, (s < 2)%nat -> 0 < amount g n0 s) ->
  E = band k0 - interaction g 2 n0 (outer k) + k_Za k * k_Zb k / (2 * ga g) -> E <> 0 -> 0 <= so_tol o < 1 -> (3 <= so_maxiter o)%Z ->
  c_iter st = 3%Z /\ c_diff st = Fin 0 /\ c_oldE st = Fin E.
Proof.
  intros g w sched d k st o k0 n0 E H O ST NI HC HF HS HP HCo HN S N HA HE HE0 HT HM. destruct (scf_inv _ _ _ _ _ _ H) as (o' & O' & T & X). rewrite O in O'. injection O' as <-.
  assert (EN : forall st, scf_trace g w o sched k st -> (2 <= c_iter st)%Z -> c_oldE st = Fin E).
  { intros st' T' I'. rewrite (ni_energy _ _ _ _ _ _ ST NI HC HF HS ltac:(congruence) T' I' k0 n0 S N), HP, HE. reflexivity. }
  assert (DN : forall st, scf_trace g w o sched k st -> exists n, k_n (c_ks st) = Some n /\ forall x s, n x s = n0 x s).
  { intros st' T'. eapply ni_density; eauto. }
  assert (AM : forall n : mat, (forall x s, n x s = n0 x s) -> forall s, (s < 2)%nat -> 0 < amount g n s).
  { intros n Hn s Hs. unfold amount. rewrite (integrate1_ext g _ (fun x => Rabs (n0 x s))) by (intros; rewrite Hn; reflexivity). apply HA, Hs. }
  assert (NN : forall a b, scf_trace g w o sched k a -> scf_body g w o (sched (c_iter a)) a = Ok b -> scf_trace g w o sched k b ->
    exists n, k_n (c_ks b) = Some n /\ (forall x s, n x s = n0 x s) /\ c_oldn b = n /\ residual g 2 (c_oldE b) (c_oldE a) n (c_oldn a) = Ok (c_diff b) /\ c_iter b = (c_iter a + 1)%Z).
  { intros a b Ta B Tb. destruct (ks_pass _ _ _ _ _ _ HF B) as (q1 & m & m' & nout & ve & vh & _ & A2 & A3 & _ & _ & _ & _ & _ & A9). destruct (DN b Tb) as (n & D1 & D2).
    assert (P2 : k_pol (c_ks a) = 2%nat). { destruct (trace_frame _ _ _ _ _ _ Ta) as ((_ & _ & _ & FP & _) & _). congruence. }
    rewrite P2 in A9. exists n. rewrite A2 in D1. injection D1 as <-. pose proof (body_frame _ _ _ _ _ _ B) as (_ & I & _). auto. }
  assert (R2 : forall b, scf_trace g w o sched k b -> (c_iter b = 2)%Z -> c_diff b = Fin 1).
  { intros b Tb Ib. pose proof Tb as Tb'. destruct Tb' as [kk SS|a b Ta Te B]; [cbn in Ib; lia|]. destruct (NN a b Ta B Tb) as (n & D1 & D2 & D3 & D4 & D5).
    rewrite (EN b Tb ltac:(lia)) in D4. destruct Ta as [kk SS|a0 a Ta0 Te0 B0]; [|pose proof (trace_bound _ _ _ _ _ _ Ta0); pose proof (body_frame _ _ _ _ _ _ B0) as (_ & I & _); lia]. cbn [c_oldE c_oldn] in D4.
    destruct (residual_two g E 0 n (fun _ _ => 0) HN HE0 (AM n D2)) as (r & Q1 & Q2). rewrite D4 in Q1. injection Q1 as Q1. rewrite Q1. f_equal.
    assert (Z : forall s, abs_int g (fun k s => n k s - 0) s = abs_int g n s) by (intros; unfold abs_int; apply integrate1_ext; intros; f_equal; ring).
    apply Rle_antisym.
    - apply Q2. split; [replace (E - 0) with E by ring; lra|]. intros s Hs. rewrite Z. lra.
    - destruct (proj1 (Q2 r) (Rle_refl r)) as (Y & _). replace (E - 0) with E in Y by ring. pose proof (Rabs_pos_lt E HE0). apply Rmult_le_reg_r with (Rabs E); lra. }
  assert (R3 : forall b, scf_trace g w o sched k b -> (3 <= c_iter b)%Z -> c_diff b = Fin 0).
  { intros b Tb Ib. pose proof Tb as Tb'. destruct Tb' as [kk SS|a b Ta Te B]; [cbn in Ib; lia|]. destruct (NN a b Ta B Tb) as (n & D1 & D2 & D3 & D4 & D5).
    rewrite (EN b Tb ltac:(lia)), (EN a Ta ltac:(lia)) in D4. destruct Ta as [kk SS|a0 a Ta0 Te0 B0]; [cbn in D5; lia|].
    destruct (NN a0 a Ta0 B0 (trace_step _ _ _ _ _ _ _ Ta0 Te0 B0)) as (m & C1 & C2 & C3 & _). rewrite C3 in D4.
    destruct (residual_two g E E n m HN HE0 (AM n D2)) as (r & Q1 & Q2). rewrite D4 in Q1. injection Q1 as Q1. rewrite Q1. f_equal.
    assert (Z : forall s, abs_int g (fun k s => n k s - m k s) s = 0).
    { intros s. unfold abs_int. rewrite (integrate1_ext g _ (fun _ => 0)); [apply integrate1_zero|]. intros. rewrite D2, C2. replace (n0 k1 s - n0 k1 s) with 0 by ring. apply Rabs_R0. }
    apply Rle_antisym.
    - apply Q2. split; [replace (E - E) with 0 by ring; rewrite Rabs_R0; lra|]. intros s Hs. rewrite Z. lra.
    - destruct (proj1 (Q2 r) (Rle_refl r)) as (Y & _). replace (E - E) with 0 in Y by ring. rewrite Rabs_R0 in Y. pose proof (Rabs_pos_lt E HE0).
      destruct (Rle_dec 0 r); auto. exfalso. assert (r * Rabs E < 0 * Rabs E) by (apply Rmult_lt_compat_r; lra). lra. }
  assert (I : c_iter st = 3%Z).
  { pose proof (trace_bound _ _ _ _ _ _ T) as BD. destruct (Z.eq_dec (c_iter st) 1) as [I1|I1].
    { exfalso. destruct T as [kk SS|a b Ta Te B].
      - unfold scf_test in X. cbn [c_diff c_iter gtb] in X. destruct (Rlt_dec (so_tol o) 10); [|lra]. injection X as X. apply Z.ltb_ge in X. lia.
      - pose proof (body_frame _ _ _ _ _ _ B) as (_ & J & _). pose proof (trace_bound _ _ _ _ _ _ Ta). lia. }
    destruct (Z.eq_dec (c_iter st) 2) as [I2|I2].
    { exfalso. unfold scf_test in X. rewrite (R2 st T I2), I2 in X. cbn [gtb] in X. destruct (Rlt_dec (so_tol o) 1); [|lra]. injection X as X. apply Z.ltb_ge in X. lia. }
    destruct T as [kk SS|a b Ta Te B]; [cbn in I1; lia|]. pose proof (body_frame _ _ _ _ _ _ B) as (_ & J & _).
    destruct (Z_le_gt_dec 3 (c_iter a)) as [L|L]; [|lia]. exfalso. unfold scf_test in Te. rewrite (R3 a Ta L) in Te. cbn [gtb] in Te. destruct (Rlt_dec (so_tol o) 0); [lra|]. destruct (so_auto o); discriminate. }
  split; [exact I|]. split; [apply R3; auto; lia|apply EN; auto; lia].
Qed.

(** * A run: two electrons without interaction around one nucleus on the 2 x 2 grid *)
Definition ni_opt : dict := [("Fractional"%string, VB true); ("INTERACTION_TYPE"%string, VS "ni")].
Lemma ni_init : exists k, ks_init g22 1 0 2 1 2 (fun _ _ => 1%nat) 1 2 ex_N ni_opt = Ok k.
Proof. eapply init_total; [reflexivity|]. intros. unfold ex_N. lra. Qed.
(** What the concrete object needs for the run below. *)
Definition ni_object (k : ks) : Prop := k_Za k * k_Zb k = 0 /\ k_pol k = 2%nat /\ k_cols k = 2%nat /\ k_lv k = 1%nat /\ o_sym (k_opt k) = false /\ o_int (k_opt k) = "ni"%string /\ k_vext k = None /\
  forall i j, place k i j -> s_m (k_sol k i j) = 0%Z /\ s_pol (k_sol k i j) = 2%nat /\ s_N (k_sol k i j) = 1.
Lemma ni_static : forall k, ks_init g22 1 0 2 1 2 (fun _ _ => 1%nat) 1 2 ex_N ni_opt = Ok k -> ni_object k.
Proof.
  intros k H. apply init_spec in H. destruct H as (o & C & _ & _ & ZA & ZB & P & L & CC & OI & OS & _ & _ & _ & OF & V & _ & _ & _ & _ & _ & S).
  injection C as <-. split; [rewrite ZA, ZB; ring|]. repeat (split; [assumption|]). intros i j H. destruct (S i j H) as (_ & S1 & S2 & S3 & _ & S4 & _).
  split; [|auto]. rewrite S1. destruct H as (Hi & _). rewrite L in Hi. replace i with 0%nat by lia. reflexivity.
Qed.
Lemma ni_capable : forall k, ni_object k -> capable ex_env k /\ worker_ok g22 ex_env /\
  (forall i j, place k i j -> placed (k_sol k i j)) /\ hxc_available g22 ex_env k.
Proof.
  intros k (_ & P & C & L & OS & OI & OF & S). split; [|split; [|split]].
  - intros it i j s Hp (S1 & S2 & S3 & S4). destruct (S i j Hp) as (M & PP & N). rewrite S3, N. split; [lra|].
    exists 1%nat, (fun _ => -1), (fun _ _ => 1). split; [reflexivity|]. rewrite S1, S2, M, PP. unfold shell_size. simpl. lra.
  - intros it s r E. injection E as <-. cbn [snd]. intros. apply g22_int_pos. intros. lra.
  - intros i j Hp. destruct (S i j Hp) as (M & PP & N). split; [rewrite N; lra|]. right. exists 1%nat. rewrite M, PP, N. unfold shell_size. simpl. lra.
  - left. exact OI.
Qed.
Theorem ni_run_of : forall k, ni_object k -> exists st o k0 n0, ks_scf g22 ex_env (fun _ => keys k) [] k = Ok st /\ scf_options [] = Ok o /\
  steady g22 ex_env /\ o_int (k_opt k) = "ni"%string /\ so_cont o = false /\ so_flip o = false /\ o_sym (k_opt k) = false /\ k_pol k = 2%nat /\ k_cols k = 2%nat /\
  scf_start g22 ex_env o (keys k) k = Ok k0 /\ k_n k0 = Some n0 /\ (forall s, (s < 2)%nat -> 0 < amount g22 n0 s) /\
  band k0 - interaction g22 2 n0 (outer k) + k_Za k * k_Zb k / (2 * ga g22) = -2 /\ 0 <= so_tol o < 1 /\ (3 <= so_maxiter o)%Z.
Proof.
  intros k H. destruct (ni_capable k H) as (C1 & C2 & C3 & C4). destruct H as (ZZ & P & C & L & OS & OI & OV & S).
  edestruct (scf_total g22 ex_env k) with (sched := fun _ : Z => keys k) (d := @nil (string * pv)) as (st & E); try eassumption; try reflexivity; try (intros _; apply keys_schedule); try discriminate; try (rewrite ?g22_n; lia).
  destruct (scf_inv _ _ _ _ _ _ E) as (o & O & T & _). assert (X : exists k0, scf_start g22 ex_env o (keys k) k = Ok k0) by (clear - T; induction T; eauto). destruct X as (k0 & K0).
  pose proof O as O'. injection O' as OE.
  assert (HAL : 0 <= so_alpha o <= 1) by (rewrite <- OE; cbn [so_alpha]; change (0 <= 1 / 2 <= 1); lra).
  assert (HC : so_cont o = false) by (rewrite <- OE; reflexivity). assert (HF : so_flip o = false) by (rewrite <- OE; reflexivity).
  destruct (start_guess g22 ex_env o (fun _ => keys k) k HC k0 K0) as (k1 & k2 & n0 & (G1 & G2 & G3) & F & V & N & SO).
  exists st, o, k0, n0. repeat (split; [assumption|]). split; [intros it it' s s' _ _; reflexivity|]. repeat (split; [assumption|]).
  pose proof (density_inv _ _ _ _ _ _ _ _ G3) as (sol & n1 & K2 & W & _). destruct G1 as (I1 & I2 & I3 & I4 & I5 & I6 & I7 & I8).
  split; [|split; [|split]].
  - intros s Hs. assert (T0 : scf_trace g22 ex_env o (fun _ => keys k) k (mkSt k0 (Fin 10) (Fin 0) (fun _ _ => 0) 1%Z)) by (apply trace_start; exact K0).
    destruct (trace_count g22 ex_env o (fun _ => keys k) k C2 ltac:(congruence) C3 HF ltac:(congruence) _ T0) as (n & N' & CT). cbn [c_ks] in N'. rewrite N in N'. injection N' as <-.
    destruct (trace_nonneg g22 ex_env o (fun _ => keys k) k C2 C3 HAL ltac:(congruence) _ T0) as (n & N' & NN). cbn [c_ks] in N'. rewrite N in N'. injection N' as <-.
    unfold amount. rewrite (integrate1_ext g22 _ (fun x => n0 x s)) by (intros x Hx; apply Rabs_pos_eq, NN, Hx). rewrite CT by lia. unfold electrons. rewrite L. cbn [sumR].
    rewrite (proj2 (proj2 (S 0%nat s ltac:(split; lia)))). lra.
  - rewrite ZZ. assert (Z : interaction g22 2 n0 (outer k) = 0).
    { unfold interaction, outer. rewrite OV. apply sumR_zero. intros s _. rewrite (integrate1_ext g22 _ (fun _ => 0)); [apply integrate1_zero|]. intros. ring. }
    rewrite Z. unfold band. rewrite SO, K2. destruct F as (_ & _ & _ & _ & -> & -> & _). rewrite L, C. cbn [sumR set_sol k_sol].
    assert (Q : forall j, (j < 2)%nat -> eks_of (sol 0%nat j) = -1).
    { intros j Hj. assert (Hp : place k 0 j) by (split; lia). destruct (W 0%nat j) as (r & Q1 & ->); [unfold place in *; rewrite I5, I6; exact Hp|]. injection Q1 as <-.
      destruct (S 0%nat j Hp) as (M & PP & NN). destruct (I8 0%nat j) as (J1 & J2 & J3 & J4 & J5 & J6).
      unfold eks_of, calc_eks, nocc, shell_scale, set_result. cbn [s_m s_pol s_N s_frac s_eig]. rewrite J1, J2, J3, M, PP, NN. cbn [Z.eqb Nat.eqb]. replace (floorZ 1) with 1%Z by (symmetry; apply (floorZ_IZR 1)). replace (1 - 1) with 0 by ring. unfold nonzero. destruct (Req_EM_T 0 0); [|lra]. rewrite andb_false_r. change (Z.to_nat 1) with 1%nat. cbn [eks_loop bind]. unfold eig_at. cbn [s_eig snd fst]. change (pyidx 1 (Z.of_nat 0)) with (Ok 0%nat). cbn [bind]. ring. }
    rewrite !Q by lia. unfold Rdiv. ring.
  - rewrite <- OE. cbn [so_tol]. change (0 <= 10 * / 10 ^ 6 < 1). replace (10 * / 10 ^ 6) with (1 / 100000) by field. lra.
  - rewrite <- OE. cbn [so_maxiter]. change (3 <= 100)%Z. lia.
Qed.
Theorem ni_run : exists k st o k0 n0, ks_init g22 1 0 2 1 2 (fun _ _ => 1%nat) 1 2 ex_N ni_opt = Ok k /\ ks_scf g22 ex_env (fun _ => keys k) [] k = Ok st /\ scf_options [] = Ok o /\
  steady g22 ex_env /\ o_int (k_opt k) = "ni"%string /\ so_cont o = false /\ so_flip o = false /\ o_sym (k_opt k) = false /\ k_pol k = 2%nat /\ k_cols k = 2%nat /\
  scf_start g22 ex_env o (keys k) k = Ok k0 /\ k_n k0 = Some n0 /\ (forall s, (s < 2)%nat -> 0 < amount g22 n0 s) /\
  band k0 - interaction g22 2 n0 (outer k) + k_Za k * k_Zb k / (2 * ga g22) = -2 /\ 0 <= so_tol o < 1 /\ (3 <= so_maxiter o)%Z.
Proof. destruct ni_init as (k & H). destruct (ni_run_of k (ni_static k H)) as (st & o & k0 & n0 & X). exists k, st, o, k0, n0. split; [exact H|exact X]. Qed.
