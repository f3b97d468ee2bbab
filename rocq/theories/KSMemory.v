(** Kohnsham.scf has no hidden state: a pass depends on the density, the external potential and the fixed attributes. *)
From Coq Require Import Reals List Arith Lia Lra ZArith Bool String FunctionalExtensionality.
From Verif Require Import Base BaseLemmas GridModel GridSpec GridProofs HartreeModel SolverModel SolverSpec SolverProofs LibxcModel OptionsModel KSModel KSSpec KSProofs KSThms KSLoop KSEnergy KSTotal SelfConsistent NonInteracting.
Import ListNotations.
Local Open Scope R_scope.

Lemma hxc_same : forall g w k k' k1 k1', frame k k' -> k_n k' = k_n k -> calc_hxc_potential g w k = Ok k1 -> calc_hxc_potential g w k' = Ok k1' -> k_vhxc k1' = k_vhxc k1.
Proof.
  intros g w k k' k1 k1' (F1 & _ & _ & F2 & _) N H H'. unfold calc_hxc_potential in *. rewrite F1, F2, N in H'.
  destruct (String.eqb (o_int (k_opt k)) "ni").
  - destruct (need (k_vext k)); [|discriminate]. destruct (need (k_vext k')); [|discriminate]. cbn [bind] in *. injection H as <-. injection H' as <-. reflexivity.
  - destruct (need (k_n k)); [|discriminate]. cbn [bind] in *. destruct (get_xc _ _ _ (o_xid _) _ _); [|discriminate]. cbn [bind] in *. destruct (get_xc _ _ _ (o_cid _) _ _); [|discriminate]. cbn [bind] in *.
    destruct (v_hartree _ _ _ _); [|discriminate]. cbn [bind] in *. injection H as <-. injection H' as <-. reflexivity.
Qed.
Lemma solver_eq : forall s s' r, same_static s s' -> s_veff s' = s_veff s -> set_result s' r = set_result s r.
Proof. intros s s' r (A1 & A2 & A3 & A4 & A5 & A6) V. unfold set_result. rewrite A1, A2, A3, A4, A5, A6, V. reflexivity. Qed.

Lemma energy_same : forall g w k k' k1 k1', frame k k' -> k_n k' = k_n k -> (forall i j, place k i j -> k_sol k' i j = k_sol k i j) ->
  ks_energy g w k = Ok k1 -> ks_energy g w k' = Ok k1' -> exists E E', k_E k1 = Some E /\ k_E k1' = Some E' /\ E_E E' = E_E E.
Proof.
  intros g w k k' k1 k1' (F1 & F2 & F3 & F4 & F5 & F6 & F7 & _) N S H H'. apply energy_inv in H. apply energy_inv in H'.
  destruct H as (E & n & ve & A1 & A2 & A3 & _ & _ & _ & _ & _ & A4 & _ & A5 & A6). destruct H' as (E' & n' & ve' & B1 & B2 & B3 & _ & _ & _ & _ & _ & B4 & _ & B5 & B6).
  exists E, E'. split; [exact A1|]. split; [exact B1|]. assert (n' = n) by congruence. subst n'.
  assert (K : kinetic g k' = kinetic g k). { unfold kinetic. rewrite F5, F6. apply sumR_ext. intros i Hi. apply sumR_ext. intros j Hj. rewrite S by (split; auto). reflexivity. }
  rewrite F4, F7 in B4. rewrite F2, F3 in B5. rewrite F1, F4 in B6.
  destruct A6 as [(A6 & A7)|(A6 & vx & vh & Ex & ex & vex & Ec & ec & vc & Eh & _ & _ & C3 & C4 & C5 & _ & C7 & C8 & _)]; destruct B6 as [(B6 & B7)|(B6 & vx' & vh' & Ex' & ex' & vex' & Ec' & ec' & vc' & Eh' & _ & _ & D3 & D4 & D5 & _ & D7 & D8 & _)]; try contradiction.
  - rewrite A7, B7, K. congruence.
  - rewrite C3 in D3. rewrite C4 in D4. rewrite C5 in D5. injection D3 as <-. injection D4 as <- <- <-. injection D5 as <- <- <-. rewrite C8, D8, K. congruence.
Qed.

(** One pass from two states with the same density. *)
Theorem pass_memoryless : forall g w o o' l l' a b a' b', steady g w -> so_alpha o' = so_alpha o -> so_flip o' = so_flip o -> frame (c_ks a) (c_ks b) -> k_n (c_ks b) = k_n (c_ks a) -> k_vext (c_ks b) = k_vext (c_ks a) ->
  scf_body g w o l a = Ok a' -> scf_body g w o' l' b = Ok b' ->
  frame (c_ks a') (c_ks b') /\ k_n (c_ks b') = k_n (c_ks a') /\ k_vext (c_ks b') = k_vext (c_ks a') /\ c_oldE b' = c_oldE a' /\ c_oldn b' = c_oldn a' /\
  (forall i j, place (c_ks a) i j -> k_sol (c_ks b') i j = k_sol (c_ks a') i j).
Proof.
  intros g w o o' l l' a b a' b' ST OA OF F N V A B.
  assert (FF : frame (c_ks a') (c_ks b')).
  { apply body_frame in A. apply body_frame in B. destruct A as (A & _). destruct B as (B & _). destruct A as (A1 & A2 & A3 & A4 & A5 & A6 & A7 & A8). destruct (frame_trans _ _ _ F B) as (B1 & B2 & B3 & B4 & B5 & B6 & B7 & B8).
    repeat (split; [congruence|]). intros i j. specialize (A8 i j). specialize (B8 i j). unfold same_static in *. intuition congruence. }
  apply KSLoop.body_inv in A. apply KSLoop.body_inv in B.
  destruct A as (_ & k1 & ve & vh & sol & k3 & nout & n & k4 & k5 & E & r & A1 & A2 & A3 & A4 & A5 & A6 & A7 & A8 & A9 & A10 & ->).
  destruct B as (_ & k1' & ve' & vh' & sol' & k3' & nout' & n' & k4' & k5' & E' & r' & B1 & B2 & B3 & B4 & B5 & B6 & B7 & B8 & B9 & B10 & ->).
  cbn [c_ks c_oldE c_oldn] in *. rewrite OF in *.
  pose proof (hxc_same _ _ _ _ _ _ F N A1 B1) as VH. destruct (hxc_frame _ _ _ _ A1) as (Fa & Na & Va & Sa). destruct (hxc_frame _ _ _ _ B1) as (Fb & Nb & Vb & Sb).
  assert (vh' = vh) by congruence. assert (ve' = ve) by congruence. subst vh' ve'.
  assert (F1 : frame k1 k1').
  { destruct Fa as (I1 & I2 & I3 & I4 & I5 & I6 & I7 & I8). destruct (frame_trans _ _ _ F Fb) as (J1 & J2 & J3 & J4 & J5 & J6 & J7 & J8).
    repeat (split; [congruence|]). intros i j. specialize (I8 i j). specialize (J8 i j). unfold same_static in *. intuition congruence. }
  pose proof F1 as (E1 & E2 & E3 & E4 & E5 & E6 & E7 & E8). rewrite E7, E4 in *.
  set (v := add3 (k_vnuc k1) ve vh) in *. set (v' := if so_flip o then flip_avg g (k_pol k1) v else v) in *.
  set (q := set_sol (set_veffs k1 (Some v')) sol) in *. set (q' := set_sol (set_veffs k1' (Some v')) sol') in *.
  pose proof (distribute_scf_static _ _ _ A4) as DA. pose proof (distribute_scf_static _ _ _ B4) as DB.
  assert (FQ : frame q q').
  { repeat (split; [assumption|]). intros i j. specialize (DA i j). specialize (DB i j). specialize (E8 i j). unfold q, q'. cbn [set_sol k_sol]. unfold same_static in *. intuition congruence. }
  apply distribute_scf_ok in A4. apply distribute_scf_ok in B4. destruct A4 as (A4 & _). destruct B4 as (B4 & _).
  assert (PL : forall i j, place k1' i j <-> place k1 i j) by (intros; unfold place; rewrite E5, E6; tauto).
  assert (VQ : forall i j, place q i j -> s_veff (k_sol q' i j) = s_veff (k_sol q i j)).
  { intros i j Hp. unfold q, q'. cbn [set_sol k_sol]. destruct (A4 i j Hp) as (_ & ->). destruct (B4 i j (proj2 (PL i j) Hp)) as (_ & ->). reflexivity. }
  destruct (density_steady _ _ _ _ _ _ _ _ _ _ _ _ _ _ ST FQ (fun i j Hp x _ => f_equal (fun f => f x) (VQ i j Hp)) A5 B5) as (-> & QQ).
  pose proof (density_frame _ _ _ _ _ _ _ _ A5) as FA3. pose proof (density_frame _ _ _ _ _ _ _ _ B5) as FB3.
  apply density_inv in A5. destruct A5 as (s3 & m3 & -> & _). apply density_inv in B5. destruct B5 as (s3' & m3' & -> & _).
  unfold q, q' in A6, B6. cbn [set_sol set_veffs k_n] in A6, B6. assert (n' = n) by congruence. subst n'.
  assert (MX : mixed o' n nout = mixed o n nout) by (unfold mixed; rewrite OA; reflexivity). rewrite MX in *.
  set (n2 := if so_flip o then flip_avg g (k_pol k1) (mixed o n nout) else mixed o n nout) in *.
  assert (SS : forall i j, place q i j -> s3' i j = s3 i j).
  { intros i j Hp. destruct (QQ i j Hp) as (r0 & Q1 & Q2). cbn [set_sol k_sol] in Q1, Q2. rewrite Q1, Q2. apply solver_eq; [|apply VQ, Hp]. destruct FQ as (_ & _ & _ & _ & _ & _ & _ & S). apply S. }
  assert (FS : frame (set_n (set_sol q s3) (Some n2)) (set_n (set_sol q' s3') (Some n2))).
  { destruct FQ as (I1 & I2 & I3 & I4 & I5 & I6 & I7 & I8). repeat (split; [assumption|]). intros i j. cbn [set_n set_sol k_sol].
    destruct FA3 as (_ & _ & _ & _ & _ & _ & _ & J). destruct FB3 as (_ & _ & _ & _ & _ & _ & _ & J'). specialize (J i j). specialize (J' i j). specialize (I8 i j). cbn [set_sol k_sol] in J, J'. unfold same_static in *. intuition congruence. }
  destruct (energy_same g w _ _ _ _ FS eq_refl SS A7 B7) as (X & X' & X1 & X2 & X3).
  apply energy_keep in A7. destruct A7 as (Ea & Vaa & ->). apply energy_keep in B7. destruct B7 as (Eb & Vbb & ->). apply chempot_keep in A8. destruct A8 as (ua & ->). apply chempot_keep in B8. destruct B8 as (ub & ->).
  cbn [set_u set_EV k_E] in *. split; [exact FF|]. split; [reflexivity|]. split; [unfold q, q'; cbn [set_u set_EV set_n set_sol set_veffs k_vext]; congruence|].
  split; [congruence|]. split; [reflexivity|]. intros i j Hp. cbn [set_u set_EV set_n set_sol k_sol]. apply SS. unfold place, q in *. cbn [set_sol set_veffs k_lv k_cols].
  destruct Fa as (_ & _ & _ & _ & -> & -> & _). exact Hp.
Qed.

(** * Runs *)
Lemma body_vext : forall g w o l st st', scf_body g w o l st = Ok st' -> k_vext (c_ks st') = k_vext (c_ks st).
Proof.
  intros g w o l st st' H. apply KSLoop.body_inv in H. destruct H as (_ & k1 & ve & vh & sol & k3 & nout & n & k4 & k5 & E & r & A1 & A2 & A3 & A4 & A5 & A6 & A7 & A8 & A9 & A10 & ->).
  destruct (hxc_frame _ _ _ _ A1) as (_ & _ & V & _). apply energy_keep in A7. destruct A7 as (Ea & Vaa & ->). apply chempot_keep in A8. destruct A8 as (ua & ->). apply density_inv in A5. destruct A5 as (s3 & m3 & -> & _). exact V.
Qed.
Lemma start_vext : forall g w o l k k0, scf_start g w o l k = Ok k0 -> k_vext k0 = Some (outer k).
Proof.
  intros g w o l k k0 H. destruct (so_cont o) eqn:C.
  - unfold scf_start in H. rewrite C in H. cbv zeta in H. destruct (need (k_n k)); [|discriminate]. injection H as <-. reflexivity.
  - destruct (start_guess g w o (fun _ => l) k C k0 H) as (k1 & k2 & n0 & _ & _ & V & _). exact V.
Qed.
Lemma trace_vext : forall g w o sched k st, scf_trace g w o sched k st -> k_vext (c_ks st) = Some (outer k).
Proof. intros g w o sched k st T. induction T as [k0 S|st st' T IH TE B]; [exact (start_vext _ _ _ _ _ _ S)|]. rewrite (body_vext _ _ _ _ _ _ B). exact IH. Qed.
(** Two runs of one object whose options agree on the mixing factor, the spin flip and the start: tolerance, iteration limit,
    diagonaliser and finishing order do not change the iterates. *)
Definition same_rule (o o' : scfopt) : Prop := so_alpha o' = so_alpha o /\ so_flip o' = so_flip o.
Lemma start_same : forall g w o o' l l' k k0 k0', steady g w -> so_cont o' = so_cont o -> scf_start g w o l k = Ok k0 -> scf_start g w o' l' k = Ok k0' ->
  frame k0 k0' /\ k_n k0' = k_n k0 /\ forall i j, place k i j -> k_sol k0' i j = k_sol k0 i j.
Proof.
  intros g w o o' l l' k k0 k0' ST OC S S'. unfold scf_start in *. rewrite OC in S'. cbv zeta in *. destruct (so_cont o).
  - destruct (need (k_n k)); [|discriminate]. injection S as <-. injection S' as <-. split; [apply frame_refl|]. auto.
  - destruct (set_effective_potential _) as [k1|] eqn:E1; [|discriminate]. cbn [bind] in *. destruct (ks_density g w false (Fin 0) l k1) as [[k2 n]|] eqn:D; [|discriminate]. destruct (ks_density g w false (Fin 0) l' k1) as [[k2' n']|] eqn:D'; [|discriminate].
    cbn [bind] in *. injection S as <-. injection S' as <-. destruct (density_steady _ _ _ _ _ _ _ _ _ _ _ _ _ _ ST (frame_refl k1) (fun i j _ x _ => eq_refl) D D') as (-> & Q).
    pose proof (density_frame _ _ _ _ _ _ _ _ D) as F. pose proof (density_frame _ _ _ _ _ _ _ _ D') as F'. split; [|split; [reflexivity|]].
    + destruct F as (I1 & I2 & I3 & I4 & I5 & I6 & I7 & I8). destruct F' as (J1 & J2 & J3 & J4 & J5 & J6 & J7 & J8). unfold set_n. repeat (split; [cbn; congruence|]). intros i j. specialize (I8 i j). specialize (J8 i j). cbn [k_sol]. unfold same_static in *. intuition congruence.
    + intros i j Hp. cbn [set_n k_sol]. apply eff_frame in E1. destruct (Q i j) as (r & -> & ->); [|reflexivity]. unfold place. destruct E1 as (_ & _ & _ & _ & -> & -> & _). exact Hp.
Qed.
Definition same_state (k : ks) (s t : scst) : Prop := frame (c_ks s) (c_ks t) /\ k_n (c_ks t) = k_n (c_ks s) /\ k_vext (c_ks t) = k_vext (c_ks s).
Theorem same_iterates : forall g w o o' sched sched' k s t, steady g w -> same_rule o o' -> so_cont o' = so_cont o -> scf_trace g w o sched k s -> scf_trace g w o' sched' k t -> c_iter t = c_iter s ->
  same_state k s t /\ c_oldE t = c_oldE s /\ c_oldn t = c_oldn s /\ forall i j, place k i j -> k_sol (c_ks t) i j = k_sol (c_ks s) i j.
Proof.
  intros g w o o' sched sched' k s t ST (OA & OF) OC Ts Tt. revert s Ts. induction Tt as [t0 S|t t' Tt IH TE B]; intros s Ts I.
  - destruct Ts as [s0 S0|s s' Ts TE' B']; [|exfalso; apply body_frame in B'; pose proof (trace_bound _ _ _ _ _ _ Ts); cbn [c_iter] in I; lia].
    destruct (start_same _ _ _ _ _ _ _ _ _ ST OC S0 S) as (A1 & A2 & A3). cbn [c_ks c_oldE c_oldn]. split; [|auto]. split; [exact A1|]. split; [exact A2|]. cbn [c_ks].
    rewrite (start_vext _ _ _ _ _ _ S), (start_vext _ _ _ _ _ _ S0). reflexivity.
  - pose proof (body_frame _ _ _ _ _ _ B) as (_ & J & _). pose proof (trace_bound _ _ _ _ _ _ Tt). destruct Ts as [s0 S0|s s' Ts TE' B']; [cbn [c_iter] in *; lia|].
    pose proof (body_frame _ _ _ _ _ _ B') as (_ & J' & _). destruct (IH s Ts) as ((I1 & I2 & I3) & _); [lia|].
    destruct (pass_memoryless g w o o' _ _ _ _ _ _ ST OA OF I1 I2 I3 B' B) as (K1 & K2 & K3 & K4 & K5 & K6). split; [repeat (split; [assumption|]); assumption|]. split; [exact K4|]. split; [exact K5|].
    intros i j Hp. apply K6. pose proof (trace_frame _ _ _ _ _ _ Ts) as ((_ & _ & _ & _ & FL & FC & _) & _). unfold place in *. rewrite FL, FC. exact Hp.
Qed.
(** A second call with continuing=True goes on where the first one was left. *)
Theorem continued : forall g w o o1 o2 sched sched1 sched2 k s st t, steady g w -> same_rule o o1 -> same_rule o o2 -> so_cont o1 = so_cont o -> so_cont o2 = true ->
  scf_trace g w o1 sched1 k s -> scf_trace g w o2 sched2 (c_ks s) t -> scf_trace g w o sched k st -> (c_iter st = c_iter s + (c_iter t - 1))%Z ->
  same_state k st t /\
  ((2 <= c_iter t)%Z -> c_oldE t = c_oldE st /\ c_oldn t = c_oldn st /\ forall i j, place k i j -> k_sol (c_ks t) i j = k_sol (c_ks st) i j).
Proof.
  intros g w o o1 o2 sched sched1 sched2 k s st t ST R1 (OA & OF) OC1 OC Ts Tt. revert st. induction Tt as [t0 S|t t' Tt IH TE B]; intros st Tst I.
  - cbn [c_iter] in I. destruct (same_iterates g w o o1 sched sched1 k st s ST R1 OC1 Tst Ts ltac:(lia)) as ((A1 & A2 & A3) & _). cbn [c_ks c_iter]. unfold scf_start in S. rewrite OC in S. cbv zeta in S.
    destruct (need (k_n (c_ks s))); [|discriminate]. injection S as <-. split; [|lia]. split; [exact A1|]. split; [exact A2|]. cbn [c_ks set_vext k_vext]. rewrite <- A3, (trace_vext _ _ _ _ _ _ Ts). reflexivity.
  - pose proof (body_frame _ _ _ _ _ _ B) as (_ & J & _). pose proof (trace_bound _ _ _ _ _ _ Tt). pose proof (trace_bound _ _ _ _ _ _ Ts). destruct Tst as [k0 S0|st st' Tst TE' B']; [cbn [c_iter] in *; lia|].
    pose proof (body_frame _ _ _ _ _ _ B') as (_ & J' & _). destruct (IH st Tst) as ((I1 & I2 & I3) & _); [lia|].
    destruct (pass_memoryless g w o o2 _ _ _ _ _ _ ST OA OF I1 I2 I3 B' B) as (K1 & K2 & K3 & K4 & K5 & K6). split; [repeat (split; [assumption|]); assumption|]. intros _. split; [exact K4|]. split; [exact K5|].
    intros i j Hp. apply K6. pose proof (trace_frame _ _ _ _ _ _ Tst) as ((_ & _ & _ & _ & FL & FC & _) & _). unfold place in *. rewrite FL, FC. exact Hp.
Qed.

(** * Runs that do not move *)
Lemma diff_zero : forall g E n, (0 < Nelem g)%nat -> E <> 0 -> (forall s, (s < 2)%nat -> 0 < amount g n s) -> residual g 2 (Fin E) (Fin E) n n = Ok (Fin 0).
Proof.
  intros g E n HN HE HA. destruct (residual_two g E E n n HN HE HA) as (r & Q1 & Q2). rewrite Q1. do 2 f_equal.
  assert (Z : forall s, abs_int g (fun k s => n k s - n k s) s = 0).
  { intros s. unfold abs_int. rewrite (integrate1_ext g _ (fun _ => 0)); [apply integrate1_zero|]. intros. replace (n k s - n k s) with 0 by ring. apply Rabs_R0. }
  apply Rle_antisym.
  - apply Q2. split; [replace (E - E) with 0 by ring; rewrite Rabs_R0; lra|]. intros s Hs. rewrite Z. lra.
  - destruct (proj1 (Q2 r) (Rle_refl r)) as (Y & _). replace (E - E) with 0 in Y by ring. rewrite Rabs_R0 in Y. pose proof (Rabs_pos_lt E HE).
    destruct (Rle_dec 0 r); auto. exfalso. assert (r * Rabs E < 0 * Rabs E) by (apply Rmult_lt_compat_r; lra). lra.
Qed.
Lemma diff_one : forall g E n, (0 < Nelem g)%nat -> E <> 0 -> (forall s, (s < 2)%nat -> 0 < amount g n s) -> residual g 2 (Fin E) (Fin 0) n (fun _ _ => 0) = Ok (Fin 1).
Proof.
  intros g E n HN HE HA. destruct (residual_two g E 0 n (fun _ _ => 0) HN HE HA) as (r & Q1 & Q2). rewrite Q1. do 2 f_equal.
  assert (Z : forall s, abs_int g (fun k s => n k s - 0) s = abs_int g n s) by (intros; unfold abs_int; apply integrate1_ext; intros; f_equal; ring).
  apply Rle_antisym.
  - apply Q2. split; [replace (E - 0) with E by ring; lra|]. intros s Hs. rewrite Z. lra.
  - destruct (proj1 (Q2 r) (Rle_refl r)) as (Y & _). replace (E - 0) with E in Y by ring. pose proof (Rabs_pos_lt E HE). apply Rmult_le_reg_r with (Rabs E); lra.
Qed.
(** The density the loop starts from is its own answer: the solvers deliver n again in the potential of n. *)
Definition self_consistent (g : grid) (w : env) (k : ks) (n : mat) : Prop :=
  exists it dif l k1 vh, calc_hxc_potential g w (set_vext (set_n k (Some n)) (Some (outer k))) = Ok k1 /\ k_vhxc k1 = Some vh /\ delivered g w it dif l k (outer k) vh n.
Lemma pass_stays : forall g w o l k st st' n, steady g w -> so_flip o = false -> frame k (c_ks st) -> k_vext (c_ks st) = Some (outer k) -> k_n (c_ks st) = Some n ->
  (so_alpha o = 0 \/ self_consistent g w k n) -> scf_body g w o l st = Ok st' -> k_n (c_ks st') = Some n.
Proof.
  intros g w o l k st st' n ST HF F V N [A|(it & dif & l0 & k1 & vh & H1 & H2 & k2 & k3 & D1 & D2 & D3)] B;
    destruct (ks_pass _ _ _ _ _ _ HF B) as (q1 & m & m' & nout & ve & vh' & A1 & A2 & _ & A4 & A5 & A6 & A7 & A8 & _); rewrite A2; f_equal; assert (m = n) by congruence; subst m;
    apply functional_extensionality; intros x; apply functional_extensionality; intros s; rewrite A8.
  - rewrite A. ring.
  - assert (ve = outer k) by congruence. subst ve. destruct A7 as (q2 & q3 & Q1 & Q2 & Q3).
    assert (FN : frame (set_vext (set_n k (Some n)) (Some (outer k))) (c_ks st)). { destruct F as (I1 & I2 & I3 & I4 & I5 & I6 & I7 & I8). repeat (split; [assumption|]). exact I8. }
    assert (vh' = vh). { pose proof (hxc_same _ _ _ _ _ _ FN (N : k_n (c_ks st) = k_n (set_vext (set_n k (Some n)) (Some (outer k)))) H1 A4) as X. congruence. } subst vh'.
    assert (PL : forall i j, place k2 i j -> place k i j) by (intros i j; destruct D1 as (_ & _ & _ & _ & E5 & E6 & _); unfold place; rewrite E5, E6; tauto).
    assert (PL' : forall i j, place k i j -> place (c_ks st) i j) by (intros i j; destruct F as (_ & _ & _ & _ & E5 & E6 & _); unfold place; rewrite E5, E6; tauto).
    assert (F2 : frame k2 q2).
    { destruct D1 as (I1 & I2 & I3 & I4 & I5 & I6 & I7 & I8). destruct (frame_trans _ _ _ F Q1) as (J1 & J2 & J3 & J4 & J5 & J6 & J7 & J8).
      repeat (split; [congruence|]). intros i j. specialize (I8 i j). specialize (J8 i j). unfold same_static in *. intuition congruence. }
    destruct (density_steady _ _ _ _ _ _ _ _ _ _ _ _ _ _ ST F2 (fun i j Hp y _ => eq_trans (Q2 i j (PL' i j (PL i j Hp)) y) (eq_trans (f_equal (fun u => u y j + outer k y j + vh y j) (proj1 (proj2 (proj2 (proj2 (proj2 (proj2 (proj2 F))))))) ) (eq_sym (D2 i j (PL i j Hp) y)))) D3 Q3) as (-> & _). ring.
Qed.
Theorem static_run : forall g w sched d k st o n, ks_scf g w sched d k = Ok st -> scf_options d = Ok o -> steady g w -> so_flip o = false -> k_pol k = 2%nat -> (0 < Nelem g)%nat ->
  (exists k0, scf_start g w o (sched 0%Z) k = Ok k0 /\ k_n k0 = Some n) -> so_alpha o = 0 \/ self_consistent g w k n -> (forall s, (s < 2)%nat -> 0 < amount g n s) ->
  0 <= so_tol o < 1 -> (3 <= so_maxiter o)%Z -> c_oldE st <> Fin 0 ->
  k_n (c_ks st) = Some n /\ c_iter st = 3%Z /\ c_diff st = Fin 0.
Proof.
  intros g w sched d k st o n H O ST HF HP HN (k0 & S & N) HX HA HT HM HE. destruct (scf_inv _ _ _ _ _ _ H) as (o' & O' & T & X). rewrite O in O'. injection O' as <-.
  assert (DN : forall st, scf_trace g w o sched k st -> k_n (c_ks st) = Some n).
  { intros a Ta. induction Ta as [k0' S'|a a' Ta IH TE B]; [cbn [c_ks]; congruence|]. eapply pass_stays; eauto using trace_vext. apply (trace_frame _ _ _ _ _ _ Ta). }
  (* all passes have one energy *)
  assert (EQ : forall a a' b b', scf_trace g w o sched k a -> scf_trace g w o sched k b -> scf_body g w o (sched (c_iter a)) a = Ok a' -> scf_body g w o (sched (c_iter b)) b = Ok b' -> c_oldE b' = c_oldE a' /\ c_oldn b' = n /\ c_oldn a' = n).
  { intros a a' b b' Ta Tb A B. pose proof (trace_frame _ _ _ _ _ _ Ta) as (Fa & _). pose proof (trace_frame _ _ _ _ _ _ Tb) as (Fb & _).
    assert (F : frame (c_ks a) (c_ks b)).
    { destruct Fa as (I1 & I2 & I3 & I4 & I5 & I6 & I7 & I8). destruct Fb as (J1 & J2 & J3 & J4 & J5 & J6 & J7 & J8). repeat (split; [congruence|]). intros i j. specialize (I8 i j). specialize (J8 i j). unfold same_static in *. intuition congruence. }
    destruct (pass_memoryless g w o o _ _ _ _ _ _ ST eq_refl eq_refl F (eq_trans (DN b Tb) (eq_sym (DN a Ta))) (eq_trans (trace_vext _ _ _ _ _ _ Tb) (eq_sym (trace_vext _ _ _ _ _ _ Ta))) A B) as (_ & _ & _ & K4 & K5 & _).
    split; [exact K4|]. assert (Y : c_oldn a' = n).
    { pose proof (body_frame _ _ _ _ _ _ A) as (_ & _ & Y). assert (Y' : k_n (c_ks a') = Some n) by (exact (pass_stays g w o _ k a a' n ST HF Fa (trace_vext _ _ _ _ _ _ Ta) (DN a Ta) HX A)). congruence. }
    split; congruence. }
  assert (RES : forall a a', scf_trace g w o sched k a -> scf_body g w o (sched (c_iter a)) a = Ok a' -> exists E, c_oldE a' = Fin E /\ residual g 2 (Fin E) (c_oldE a) n (c_oldn a) = Ok (c_diff a')).
  { intros a a' Ta B. pose proof (trace_frame _ _ _ _ _ _ Ta) as ((_ & _ & _ & FP & _) & _). destruct (EQ _ _ _ _ Ta Ta B B) as (_ & _ & OLD).
    destruct (ks_pass _ _ _ _ _ _ HF B) as (q1 & m & m' & nout & ve & vh & _ & _ & A3 & _ & _ & _ & _ & _ & A9). rewrite FP, HP, <- A3, OLD in A9.
    apply KSLoop.body_inv in B. destruct B as (_ & k1 & ve' & vh' & sol & k3 & nout' & n' & k4 & k5 & E & r & B1 & B2 & B3 & B4 & B5 & B6 & B7 & B8 & B9 & B10 & ->). cbn [c_oldE c_diff] in *.
    apply energy_inv in B7. destruct B7 as (E' & n2 & ve2 & C1 & _ & _ & _ & _ & _ & _ & _ & _ & _ & _ & C2). apply chempot_keep in B8. destruct B8 as (u & ->). cbn [set_u k_E] in B9. assert (E = E') by congruence. subst E'.
    destruct C2 as [(_ & C2)|(_ & vx & vh2 & Ex & ex & vex & Ec & ec & vc & Eh & _ & _ & _ & _ & _ & _ & _ & C2 & _)]; rewrite C2 in *; eauto. }
  assert (I1 : (1 < c_iter st)%Z).
  { pose proof (trace_bound _ _ _ _ _ _ T). destruct T as [kk SS|a b Ta Te B].
    - exfalso. unfold scf_test in X. cbn [c_diff c_iter gtb] in X. destruct (Rlt_dec (so_tol o) 10); [|lra]. injection X as X. apply Z.ltb_ge in X. lia.
    - pose proof (body_frame _ _ _ _ _ _ B) as (_ & J & _). pose proof (trace_bound _ _ _ _ _ _ Ta). lia. }
  destruct T as [kk SS|a b Ta Te B]; [cbn [c_iter] in I1; lia|]. rename b into st.
  destruct (RES a st Ta B) as (E & EE & RR). assert (E0 : E <> 0) by (intros Q; apply HE; rewrite EE, Q; reflexivity).
  split; [apply (DN st), (trace_step _ _ _ _ _ a); auto|]. pose proof (body_frame _ _ _ _ _ _ B) as (_ & Ib & _).
  destruct Ta as [kk SS|a0 a Ta0 Te0 B0].
  - exfalso. cbn [c_iter c_oldE c_oldn] in *. rewrite (diff_one g E n HN E0 HA) in RR. injection RR as RR. unfold scf_test in X. rewrite <- RR in X. cbn [gtb] in X. destruct (Rlt_dec (so_tol o) 1); [|lra]. injection X as X. apply Z.ltb_ge in X. lia.
  - pose proof (body_frame _ _ _ _ _ _ B0) as (_ & Ia & _). destruct (EQ a0 a a st Ta0 (trace_step _ _ _ _ _ _ _ Ta0 Te0 B0) B0 B) as (K1 & K2 & K3).
    assert (Z : c_diff st = Fin 0) by (rewrite <- K1, EE, K3, (diff_zero g E n HN E0 HA) in RR; congruence). split; [|exact Z].
    destruct Ta0 as [kk SS|a1 a0 Ta1 Te1 B1]; [cbn [c_iter] in *; lia|]. exfalso.
    destruct (EQ a1 a0 a0 a Ta1 (trace_step _ _ _ _ _ _ _ Ta1 Te1 B1) B1 B0) as (L1 & L2 & L3). destruct (RES a0 a (trace_step _ _ _ _ _ _ _ Ta1 Te1 B1) B0) as (E' & M1 & M2).
    assert (E' = E) by congruence. subst E'. rewrite <- L1, M1, L3, (diff_zero g E n HN E0 HA) in M2. injection M2 as M2. unfold scf_test in Te. rewrite <- M2 in Te. cbn [gtb] in Te. destruct (Rlt_dec (so_tol o) 0); [lra|]. destruct (so_auto o); discriminate.
Qed.
