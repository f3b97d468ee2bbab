(** Runs of Kohnsham.scf without interaction on a stretched molecule with smaller charges. *)
From Coq Require Import Reals List Arith Lia Lra ZArith Bool String.
From Verif Require Import Base BaseLemmas GridModel GridSpec GridProofs HartreeModel SolverModel SolverSpec SolverProofs LibxcModel OptionsModel
  KSModel KSSpec KSProofs KSThms KSLoop KSEnergy KSTotal SelfConsistent NonInteracting Transport MirrorRun Scaling.
Import ListNotations.
Local Open Scope R_scope.

(** * Specification *)
(** Answers of a worker: eigenvalues divided by lam^2, orbitals equal up to a factor. *)
Definition scaled_answer (g : grid) (lam : R) (r r' : wres) : Prop := fst (fst r') = fst (fst r) /\ (forall i, (i < fst (fst r))%nat -> snd (fst r') i = snd (fst r) i / lam ^ 2) /\
  match snd r, snd r' with
  | None, None => True
  | Some (c, p), Some (c', p') => c' = c /\ forall i, (i < c)%nat -> exists q, q <> 0 /\ forall x, (x < Nelem g)%nat -> p' i x = q * p i x
  | _, _ => False
  end.
(** Workers of the two molecules: potentials differing by the factor lam^2 have such answers. *)
Definition scaled_workers (g : grid) (lam : R) (w w' : env) : Prop := forall it it' s s' r r', same_static s s' -> (forall x, (x < Nelem g)%nat -> s_veff s' x = s_veff s x / lam ^ 2) ->
  e_worker w it s = Some r -> e_worker w' it' s' = Some r' -> scaled_answer g lam r r'.

Section Solver.
  Variables (g : grid) (lam : R).
  Hypothesis Hl : 0 < lam.
  Let g' := stretch lam g.
  Definition dens_scaled (a b : res vec) : Prop := match a, b with Ok d, Ok d' => forall x, (x < Nelem g)%nat -> d' x = d x / lam ^ 3 | Err _, Err _ => True | _, _ => False end.
  Lemma sphi : forall s s' r r' i, scaled_answer g lam r r' ->
    match phi_col (set_result s r) i, phi_col (set_result s' r') i with
    | Ok p, Ok p' => exists q, q <> 0 /\ norm2 g' p' = lam ^ 3 * q ^ 2 * norm2 g p /\ forall x, (x < Nelem g)%nat -> p' x = q * p x
    | Err _, Err _ => True | _, _ => False end.
  Proof.
    intros s s' [[ce e] ph] [[ce' e'] ph'] i (_ & _ & A). unfold phi_col. cbn [set_result s_phi snd] in *. destruct ph as [[c p]|], ph' as [[c' p']|]; try contradiction; auto.
    destruct A as (-> & A). destruct (pyidx c i) as [j|] eqn:E; cbn [bind]; auto. apply pyidx_lt in E.
    destruct (A j E) as (q & Q & B). exists q. split; [exact Q|]. split; [|exact B]. unfold norm2, g'. rewrite sc_integrate.
    rewrite Rmult_assoc. f_equal. rewrite <- integrate1_scal. apply integrate1_ext. intros x Hx. rewrite B by exact Hx. ring.
  Qed.
  Lemma sdens : forall s s' r r', same_static s s' -> scaled_answer g lam r r' -> dens_scaled (calc_density g (set_result s r)) (calc_density g' (set_result s' r')).
  Proof.
    intros s s' r r' (S1 & S2 & S3 & S4 & S5 & S6) A.
    assert (N : nocc (set_result s' r') = nocc (set_result s r)) by (unfold nocc; cbn [set_result s_m s_pol s_N]; rewrite S1, S2, S3; reflexivity).
    assert (SC : forall x, shell_scale (set_result s' r') (x / lam ^ 3) = shell_scale (set_result s r) x / lam ^ 3).
    { intros; unfold shell_scale; cbn [set_result s_m s_pol]; rewrite S1, S2. destruct (s_m s =? 0)%Z, (s_pol s =? 1)%nat; unfold Rdiv; ring. }
    assert (TM : forall p p' q nu x, q <> 0 -> norm2 g' p' = lam ^ 3 * q ^ 2 * norm2 g p -> p' x = q * p x -> nu * p' x ^ 2 / norm2 g' p' = nu * p x ^ 2 / norm2 g p / lam ^ 3).
    { intros p p' q nu x Q B1 B2. rewrite B1, B2. unfold Rdiv. rewrite !Rinv_mult. set (y := / norm2 g p). field. split; [lra|exact Q]. }
    assert (L : forall m, dens_scaled (dens_loop g (set_result s r) m) (dens_loop g' (set_result s' r') m)).
    { induction m as [|m IH]; [intros x Hx; unfold Rdiv; ring|]. cbn [dens_loop]. unfold dens_scaled in *. pose proof (sphi s s' r r' (Z.of_nat m) A) as B.
      destruct (dens_loop g (set_result s r) m) as [d|], (dens_loop g' (set_result s' r') m) as [d'|]; try contradiction; cbn [bind]; auto.
      destruct (phi_col (set_result s r) (Z.of_nat m)) as [p|], (phi_col (set_result s' r') (Z.of_nat m)) as [p'|]; try contradiction; cbn [bind]; auto.
      destruct B as (q & Q & B1 & B2). intros x Hx. rewrite IH by exact Hx. pose proof (TM p p' q 1 x Q B1 (B2 x Hx)) as T. rewrite !Rmult_1_l in T. rewrite T. unfold Rdiv. ring. }
    unfold calc_density. rewrite N. destruct (nocc (set_result s r)) as [No nu]. specialize (L (Z.to_nat No)). unfold dens_scaled in *. cbn [set_result s_frac] in *.
    destruct (dens_loop g (set_result s r) (Z.to_nat No)) as [d|], (dens_loop g' (set_result s' r') (Z.to_nat No)) as [d'|]; try contradiction; cbn [bind]; auto.
    rewrite S5. destruct (s_frac s && nonzero nu).
    - pose proof (sphi s s' r r' No A) as B. destruct (phi_col (set_result s r) No) as [p|], (phi_col (set_result s' r') No) as [p'|]; try contradiction; cbn [bind]; auto.
      destruct B as (q & Q & B1 & B2). intros x Hx. rewrite L by exact Hx. rewrite (TM p p' q nu x Q B1 (B2 x Hx)).
      rewrite <- SC. f_equal. unfold Rdiv. ring.
    - cbn [bind]. intros x Hx. rewrite L by exact Hx. apply SC.
  Qed.
  Lemma sdens_at : forall s s' r r', same_static s s' -> scaled_answer g lam r r' -> forall x, (x < Nelem g)%nat -> dens g' (set_result s' r') x = dens g (set_result s r) x / lam ^ 3.
  Proof.
    intros s s' r r' S A x Hx. pose proof (sdens s s' r r' S A) as D. unfold dens, dens_scaled in *. destruct (calc_density g (set_result s r)), (calc_density g' (set_result s' r')); try contradiction; auto. unfold Rdiv. ring.
  Qed.
  Definition eig_scaled (a b : res R) : Prop := match a, b with Ok e, Ok e' => e' = e / lam ^ 2 | Err _, Err _ => True | _, _ => False end.
  Lemma seig : forall s s' r r' i, scaled_answer g lam r r' -> eig_scaled (eig_at (set_result s r) i) (eig_at (set_result s' r') i).
  Proof.
    intros s s' [[c e] ph] [[c' e'] ph'] i (A & B & _). unfold eig_at. cbn [set_result s_eig fst snd] in *. subst c'. destruct (pyidx c i) as [j|] eqn:E; cbn [bind]; [|exact Logic.I]. apply pyidx_lt in E. apply B, E.
  Qed.
  Lemma seks : forall s s' r r', same_static s s' -> scaled_answer g lam r r' -> eks_of (set_result s' r') = eks_of (set_result s r) / lam ^ 2.
  Proof.
    intros s s' r r' (S1 & S2 & S3 & S4 & S5 & S6) A. unfold eks_of.
    assert (N : nocc (set_result s' r') = nocc (set_result s r)) by (unfold nocc; cbn [set_result s_m s_pol s_N]; rewrite S1, S2, S3; reflexivity).
    assert (SC : forall x, shell_scale (set_result s' r') (x / lam ^ 2) = shell_scale (set_result s r) x / lam ^ 2).
    { intros; unfold shell_scale; cbn [set_result s_m s_pol]; rewrite S1, S2. destruct (s_m s =? 0)%Z, (s_pol s =? 1)%nat; unfold Rdiv; ring. }
    assert (L : forall m, eig_scaled (eks_loop (set_result s r) m) (eks_loop (set_result s' r') m)).
    { induction m as [|m IH]; [cbn; unfold Rdiv; ring|]. cbn [eks_loop]. unfold eig_scaled in *. pose proof (seig s s' r r' (Z.of_nat m) A) as B. unfold eig_scaled in B.
      destruct (eks_loop (set_result s r) m), (eks_loop (set_result s' r') m); try contradiction; cbn [bind]; auto.
      destruct (eig_at (set_result s r) (Z.of_nat m)), (eig_at (set_result s' r') (Z.of_nat m)); try contradiction; cbn [bind]; auto. rewrite IH, B. unfold Rdiv. ring. }
    assert (E : eig_scaled (calc_eks (set_result s r)) (calc_eks (set_result s' r'))).
    { unfold calc_eks. rewrite N. destruct (nocc (set_result s r)) as [No nu]. cbn [set_result s_frac] in *. specialize (L (Z.to_nat No)). pose proof (seig s s' r r' No A) as B. unfold eig_scaled in *. rewrite S5.
      destruct (eks_loop (set_result s r) (Z.to_nat No)) as [a|], (eks_loop (set_result s' r') (Z.to_nat No)) as [a'|]; try contradiction; cbn [bind]; auto.
      destruct (s_frac s && nonzero nu).
      - destruct (eig_at (set_result s r) No), (eig_at (set_result s' r') No); try contradiction; cbn [bind]; auto. rewrite <- SC. f_equal. rewrite L, B. unfold Rdiv. ring.
      - cbn [bind]. rewrite <- SC. f_equal. exact L. }
    unfold eig_scaled in E. destruct (calc_eks (set_result s r)), (calc_eks (set_result s' r')); try contradiction; auto. unfold Rdiv. ring.
  Qed.
End Solver.

(** * Objects and guesses *)
Lemma vnuc_scaled : forall g lam Za Zb pol sym x j, 0 < lam ->
  ks_vnuc (stretch lam g) (Za / lam) (Zb / lam) pol sym x j = ks_vnuc g Za Zb pol sym x j / lam ^ 2.
Proof.
  intros g lam Za Zb pol sym x j Hl.
  assert (C : forall k, coulomb (stretch lam g) (Za / lam) (Zb / lam) k = coulomb g Za Zb k / lam ^ 2).
  { intro k. rewrite sc_coulomb. replace (Za / lam) with (/ lam * Za) by (field; lra). replace (Zb / lam) with (/ lam * Zb) by (field; lra).
    rewrite coulomb_charge. field. lra. }
  unfold ks_vnuc. set (f' := fun (k s : nat) => _). set (f := fun (k s : nat) => if ((pol =? 1) && (s =? 0))%nat%bool then coulomb g Za Zb k else if ((pol =? 2) && (s <? 2))%nat%bool then coulomb g Za Zb k else 0).
  assert (E : forall k s, f' k s = f k s / lam ^ 2).
  { intros k s. unfold f', f. destruct (_ && _)%bool; [apply C|]. destruct (_ && _)%bool; [apply C|]. unfold Rdiv; ring. }
  destruct sym; [|apply E]. unfold sym_avgR, sym_avg. rewrite E.
  assert (M : mirror2 (stretch lam g) f' x j = mirror2 g f x j / lam ^ 2) by (unfold mirror2, mirror_flat, ravel3, square, flattenF; apply E).
  rewrite M. unfold Rdiv. ring.
Qed.

Section Guess.
  Variables (g : grid) (lam : R) (w w' : env) (o : scfopt) (sched sched' : Z -> list (nat * nat)).
  Variables (Za Zb : R) (pol lv cols lv' cols' : nat) (Nmo : nat -> nat -> nat) (N : mat) (opt : dict) (k k' : ks).
  Hypotheses (Hl : 0 < lam) (SW : scaled_workers g lam w w') (HC : so_cont o = false).
  Hypothesis HK : ks_init g Za Zb pol lv cols Nmo lv' cols' N opt = Ok k.
  Hypothesis HK' : ks_init (stretch lam g) (Za / lam) (Zb / lam) pol lv cols Nmo lv' cols' N opt = Ok k'.

  Lemma objects : k_opt k' = k_opt k /\ k_pol k' = k_pol k /\ k_lv k' = k_lv k /\ k_cols k' = k_cols k /\ outer k = (fun _ _ => 0) /\ outer k' = (fun _ _ => 0) /\
    k_Za k = Za /\ k_Zb k = Zb /\ k_Za k' = Za / lam /\ k_Zb k' = Zb / lam /\ (forall x j, k_vnuc k' x j = k_vnuc k x j / lam ^ 2) /\
    forall i j, place k i j -> same_static (k_sol k i j) (k_sol k' i j).
  Proof.
    assert (OO : k_opt k' = k_opt k).
    { clear - HK HK'. unfold ks_init in *. destruct (configure KohnShamOptions opt) as [q|]; [|discriminate]. cbn [bind] in *. destruct (negb _); [discriminate|]. cbv zeta in *.
      destruct (Pssolver lv cols Nmo N _) as [sol|]; [|discriminate]. cbn [bind] in *. injection HK as <-. injection HK' as <-. reflexivity. }
    pose proof (init_vnuc _ _ _ _ _ _ _ _ _ _ _ _ HK) as V. pose proof (init_vnuc _ _ _ _ _ _ _ _ _ _ _ _ HK') as V'.
    apply init_spec in HK. apply init_spec in HK'.
    destruct HK as (q & C & _ & _ & A1 & A2 & A3 & A4 & A5 & _ & _ & _ & _ & _ & _ & A6 & _ & _ & _ & _ & _ & S).
    destruct HK' as (q' & C' & _ & _ & A1' & A2' & A3' & A4' & A5' & _ & _ & _ & _ & _ & _ & A6' & _ & _ & _ & _ & _ & S').
    rewrite C in C'. injection C' as <-. unfold outer. rewrite A6, A6'.
    repeat (split; [congruence|]). split.
    - intros x j. rewrite V, V', OO. apply vnuc_scaled, Hl.
    - intros i j Hp. destruct (S i j Hp) as (_ & S1 & S2 & S3 & S4 & S5 & S6 & _).
      assert (Hp' : place k' i j) by (unfold place in *; rewrite A4', A5'; rewrite A4, A5 in Hp; exact Hp).
      destruct (S' i j Hp') as (_ & S1' & S2' & S3' & S4' & S5' & S6' & _). repeat split; congruence.
  Qed.

  Lemma guess_scaled : forall k0 k0' n0 n0', scf_start g w o (sched 0%Z) k = Ok k0 -> scf_start (stretch lam g) w' o (sched' 0%Z) k' = Ok k0' -> k_n k0 = Some n0 -> k_n k0' = Some n0' ->
    (forall x s, (x < Nelem g)%nat -> n0' x s = n0 x s / lam ^ 3) /\ band k0' = band k0 / lam ^ 2.
  Proof.
    intros k0 k0' n0 n0' S S' N0 N0'. destruct objects as (O1 & O2 & O3 & O4 & O5 & O6 & _ & _ & _ & _ & OV & OS).
    apply (start_guess g w o sched k HC) in S. apply (start_guess (stretch lam g) w' o sched' k' HC) in S'.
    destruct S as (k1 & k2 & m & (G1 & G2 & G3) & F & _ & M & SO). destruct S' as (k1' & k2' & m' & (G1' & G2' & G3') & F' & _ & M' & SO').
    rewrite N0 in M. injection M as <-. rewrite N0' in M'. injection M' as <-.
    apply density_inv in G3. apply density_inv in G3'. destruct G3 as (sol & a & -> & W & _ & SD & ->). destruct G3' as (sol' & a' & -> & W' & _ & SD' & ->).
    pose proof G1 as (I1 & _ & _ & I4 & I5 & I6 & I7 & I8). pose proof G1' as (J1 & _ & _ & J4 & J5 & J6 & J7 & J8).
    assert (Q : forall i j, place k i j -> exists s s' r r', sol i j = set_result s r /\ sol' i j = set_result s' r' /\ same_static s s' /\ scaled_answer g lam r r').
    { intros i j Hp. assert (Hp1 : place k1 i j) by (unfold place in *; rewrite I5, I6; exact Hp). assert (Hp1' : place k1' i j) by (unfold place in *; rewrite J5, J6, O3, O4; exact Hp).
      assert (Hp' : place k' i j) by (unfold place in *; rewrite O3, O4; exact Hp).
      destruct (W i j Hp1) as (r & R1 & R2). destruct (W' i j Hp1') as (r' & R1' & R2'). exists (k_sol k1 i j), (k_sol k1' i j), r, r'.
      assert (ST : same_static (k_sol k1 i j) (k_sol k1' i j)).
      { specialize (I8 i j). specialize (J8 i j). specialize (OS i j Hp). unfold same_static in *. intuition congruence. }
      do 3 (split; [assumption|]). apply (SW _ _ _ _ _ _ ST) with (3 := R1') (2 := R1).
      intros x _. rewrite (G2 i j Hp), (G2' i j Hp'), O5, O6, OV. unfold Rdiv. ring. }
    apply sum_dens_spec in SD. apply sum_dens_spec in SD'. destruct SD as (_ & SD). destruct SD' as (_ & SD').
    assert (AA : forall x s, (x < Nelem g)%nat -> a' x s = a x s / lam ^ 3).
    { intros x s Hx. rewrite SD, SD'. replace (k_cols k1') with (k_cols k1) by congruence. replace (k_lv k1') with (k_lv k1) by congruence.
      destruct (Nat.ltb_spec s (k_cols k1)) as [Hs|Hs]; [|unfold Rdiv; ring].
      unfold Rdiv. rewrite <- sumR_scal_r. apply sumR_ext. intros i Hi. assert (Hp : place k i s) by (split; congruence).
      destruct (Q i s Hp) as (s1 & s1' & r & r' & -> & -> & ST & A). apply sdens_at; auto. }
    split.
    - intros x s Hx. rewrite J1, I1, O1. destruct (o_sym (k_opt k)); [|apply AA, Hx]. unfold sym_avgR, sym_avg.
      rewrite AA by exact Hx.
      assert (MM : mirror2 (stretch lam g) a' x s = mirror2 g a x s / lam ^ 3).
      { change (mirror2 (stretch lam g) a') with (mirror2 g a'). rewrite !mirror2_mirror1 by exact Hx.
        rewrite <- (across_at g (fun i => a' i s)), <- (across_at g (fun i => a i s)) by exact Hx. apply AA. apply across_lt, Hx. }
      rewrite MM. unfold Rdiv. ring.
    - unfold band. rewrite SO, SO'. cbn [set_sol k_sol]. destruct F as (_ & _ & _ & _ & -> & -> & _). destruct F' as (_ & _ & _ & _ & -> & -> & _). rewrite O3, O4.
      unfold Rdiv. rewrite <- sumR_scal_r. apply sumR_ext. intros i Hi. rewrite <- sumR_scal_r. apply sumR_ext. intros j Hj.
      destruct (Q i j (conj Hi Hj)) as (s1 & s1' & r & r' & -> & -> & ST & A). apply (seks g lam); auto.
  Qed.
End Guess.

(** * Runs *)
Lemma scaled_density : forall g lam w w' o sched sched' Za Zb pol lv cols lv' cols' Nmo N opt k k' st st', 0 < lam -> scaled_workers g lam w w' -> steady g w -> steady (stretch lam g) w' ->
  ks_init g Za Zb pol lv cols Nmo lv' cols' N opt = Ok k -> ks_init (stretch lam g) (Za / lam) (Zb / lam) pol lv cols Nmo lv' cols' N opt = Ok k' ->
  o_int (k_opt k) = "ni"%string -> so_cont o = false -> so_flip o = false ->
  scf_trace g w o sched k st -> scf_trace (stretch lam g) w' o sched' k' st' ->
  exists n n', k_n (c_ks st) = Some n /\ k_n (c_ks st') = Some n' /\ forall x s, (x < Nelem g)%nat -> n' x s = n x s / lam ^ 3.
Proof.
  intros g lam w w' o sched sched' Za Zb pol lv cols lv' cols' Nmo N opt k k' st st' Hl SW ST ST' HK HK' NI HC HF T T'.
  assert (NI' : o_int (k_opt k') = "ni"%string) by (destruct (objects g lam Za Zb pol lv cols lv' cols' Nmo N opt k k' Hl HK HK') as (-> & _); exact NI).
  assert (X : exists k0, scf_start g w o (sched 0%Z) k = Ok k0) by (clear - T; induction T; eauto). destruct X as (k0 & S).
  assert (X : exists k0, scf_start (stretch lam g) w' o (sched' 0%Z) k' = Ok k0) by (clear - T'; induction T'; eauto). destruct X as (k0' & S').
  destruct (start_guess g w o sched k HC _ S) as (_ & _ & n0 & _ & _ & _ & N0 & _). destruct (start_guess _ w' o sched' k' HC _ S') as (_ & _ & n0' & _ & _ & _ & N0' & _).
  destruct (ni_density g w o sched k st ST NI HC HF T k0 n0 S N0) as (n & A & B). destruct (ni_density _ w' o sched' k' st' ST' NI' HC HF T' k0' n0' S' N0') as (n' & A' & B').
  exists n, n'. do 2 (split; [assumption|]). intros x s Hx. rewrite B, B'.
  apply (guess_scaled g lam w w' o sched sched' Za Zb pol lv cols lv' cols' Nmo N opt k k' Hl SW HC HK HK' k0 k0'); assumption.
Qed.
Lemma scaled_energy : forall g lam w w' o sched sched' Za Zb pol lv cols lv' cols' Nmo N opt k k' st st', 0 < lam -> 0 < ga g -> scaled_workers g lam w w' -> steady g w -> steady (stretch lam g) w' ->
  ks_init g Za Zb pol lv cols Nmo lv' cols' N opt = Ok k -> ks_init (stretch lam g) (Za / lam) (Zb / lam) pol lv cols Nmo lv' cols' N opt = Ok k' ->
  o_int (k_opt k) = "ni"%string -> o_sym (k_opt k) = false -> pol = cols -> so_cont o = false -> so_flip o = false ->
  scf_trace g w o sched k st -> scf_trace (stretch lam g) w' o sched' k' st' -> (2 <= c_iter st)%Z -> (2 <= c_iter st')%Z ->
  exists e, c_oldE st = Fin (e + Za * Zb / (2 * ga g)) /\ c_oldE st' = Fin (e / lam ^ 2 + Za * Zb / (2 * ga g) / lam ^ 3).
Proof.
  intros g lam w w' o sched sched' Za Zb pol lv cols lv' cols' Nmo N opt k k' st st' Hl Ha SW ST ST' HK HK' NI HS HP HC HF T T' I2 I2'.
  pose proof (objects g lam Za Zb pol lv cols lv' cols' Nmo N opt k k' Hl HK HK') as (O1 & O2 & O3 & O4 & O5 & O6 & Z1 & Z2 & Z1' & Z2' & _).
  assert (NI' : o_int (k_opt k') = "ni"%string) by (rewrite O1; exact NI). assert (HS' : o_sym (k_opt k') = false) by (rewrite O1; exact HS).
  pose proof HK as HK2. apply init_spec in HK2. destruct HK2 as (_ & _ & _ & _ & _ & _ & A3 & _ & A5 & _).
  assert (X : exists k0, scf_start g w o (sched 0%Z) k = Ok k0) by (clear - T; induction T; eauto). destruct X as (k0 & S).
  assert (X : exists k0, scf_start (stretch lam g) w' o (sched' 0%Z) k' = Ok k0) by (clear - T'; induction T'; eauto). destruct X as (k0' & S').
  destruct (start_guess g w o sched k HC _ S) as (_ & _ & n0 & _ & _ & _ & N0 & _). destruct (start_guess _ w' o sched' k' HC _ S') as (_ & _ & n0' & _ & _ & _ & N0' & _).
  pose proof (ni_energy g w o sched k st ST NI HC HF HS ltac:(congruence) T I2 k0 n0 S N0) as E.
  pose proof (ni_energy _ w' o sched' k' st' ST' NI' HC HF HS' ltac:(congruence) T' I2' k0' n0' S' N0') as E'.
  destruct (guess_scaled g lam w w' o sched sched' Za Zb pol lv cols lv' cols' Nmo N opt k k' Hl SW HC HK HK' k0 k0' n0 n0' S S' N0 N0') as (_ & B).
  assert (ZZ : forall h p n, interaction h p n (fun _ _ => 0) = 0).
  { intros h p n. unfold interaction. apply sumR_zero. intros s _. rewrite (integrate1_ext h _ (fun _ => 0)); [apply integrate1_zero|]. intros. ring. }
  rewrite O5, ZZ, Z1, Z2 in E. rewrite O6, ZZ, B, Z1', Z2' in E'. change (ga (stretch lam g)) with (lam * ga g) in E'.
  exists (band k0). split; [rewrite E; f_equal; ring|]. rewrite E'. f_equal. field. split; lra.
Qed.
