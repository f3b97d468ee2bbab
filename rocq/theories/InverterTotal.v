(** Settings under which the Wu-Yang inversion and the kinetic energies read from it cannot fail. *)
From Coq Require Import Reals List Arith Lia Lra ZArith Bool String.
From Verif Require Import Base BaseLemmas GridModel GridSpec GridProofs SolverModel SolverSpec SolverProofs SolverThms SolverResp OptionsModel KSModel KSSpec KSProofs KSThms KSTotal
  InverterModel InverterSpec InverterMore.
Import ListNotations.
Local Open Scope R_scope.

(** * Solvers *)
Definition whole (s : solver) : Prop := s_frac s = false \/ full_shells s.
Lemma whole_static : forall s s', whole s -> same_static s s' -> whole s'.
Proof.
  intros s s' [H|(n & H)] (A & B & C & D & E & F); [left; congruence|right; exists n]. rewrite A, B, C. exact H.
Qed.
Lemma ked_total : forall g H0 s, solved s -> whole s -> exists t, calc_ked_WFI g H0 s = Ok t.
Proof.
  intros g H0 s (N & c & e & p & S1 & S2 & S3) W. pose proof (extra_false s N W) as X. pose proof (proj1 (enough_iff s c N) (enough_c _ _ S3)) as Hc. unfold nneed in Hc. rewrite X in Hc.
  destruct (ked_loop_ok g H0 s c p (nfull s) S1) as (t & Et & _); [lia|]. unfold calc_ked_WFI. rewrite nocc_form. fold (nfull s). rewrite Et. cbn [bind]. fold (extra s). rewrite X. cbn [bind]. eauto.
Qed.
Lemma solved_energy : forall g s, solved s -> exists a b T n, calc_density g s = Ok n /\ calc_energy g s = Ok (a, b, Fin T, n).
Proof.
  intros g s (N & c & e & p & S1 & S2 & S3). destruct (calc_energy_ok g s c p e N S1 S2 (enough_c _ _ S3)) as (n & D & E). cbv zeta in E.
  assert (X : forall a v, exists T, snd (energy_tail a (Fin v)) = Fin T) by (intros a v; unfold energy_tail; cbn [rsub]; destruct (Rlt_dec _ _); cbn [snd]; eauto).
  destruct (X (textbook_band s c e) (integrate1 g (fun k => s_veff s k * n k))) as (T & HT). rewrite HT in E. do 4 eexists. split; [exact D|exact E].
Qed.
Lemma solved_response : forall g sp s, solved s -> whole s -> exists chi, calc_response g sp s = Ok chi.
Proof.
  intros g sp s (N & c & e & p & S1 & S2 & S3) W. destruct (response_ok g sp s c p e N S1 S2 (enough_c _ _ S3) W) as (chi & E & _). eauto.
Qed.
Lemma solved_homo : forall s, solved s -> exists u, get_homo s = Ok u.
Proof. intros s (N & c & e & p & S1 & S2 & S3). eapply homo_total; eauto. Qed.

(** * The inverter *)
(** Whatever its potential, a solver of level i gets enough orbitals, and its shells are full or fractional occupation is off. *)
Definition inv_capable (E : invenv) (iv : inverter) : Prop := forall i s, (i < i_lv iv)%nat -> same_static (i_sol iv i 0%nat) s ->
  0 <= s_N s /\ whole s /\ exists c e p, v_orb E s = Ok ((c, e), Some (c, p)) /\ s_N s <= INR c * shell_size (s_m s) (s_pol s).
(** Wu-Yang inversion with one column of solvers. *)
Definition inv_ready (E : invenv) (iv : inverter) : Prop := io_type (i_opt iv) = "wuyang"%string /\ io_ess (i_opt iv) = false /\ i_cols iv = 1%nat /\ (1 <= i_lv iv)%nat /\ inv_capable E iv.
(** least_squares evaluates its function at least once. *)
Definition lsq_answers (E : invenv) : Prop := forall iv spin x0, exists t tr x inf, v_lsq E iv spin x0 = (t :: tr, x, inf).
(** One of its reports. *)
Definition answer (E : invenv) (inf : info) : Prop := exists iv spin x0, snd (v_lsq E iv spin x0) = inf.
(** All reports have an optimality of at most one. *)
Definition lsq_converges (E : invenv) : Prop := forall inf, answer E inf -> gtb (optimality inf) (Fin 1) = false.
Definition inv_solved (iv : inverter) : Prop := forall i, (i < i_lv iv)%nat -> solved (i_sol iv i 0%nat).
(** The same inverter up to the potentials and the results. *)
Definition same_inv (iv iv' : inverter) : Prop := i_lv iv' = i_lv iv /\ i_cols iv' = i_cols iv /\ io_type (i_opt iv') = io_type (i_opt iv) /\ io_ess (i_opt iv') = io_ess (i_opt iv) /\ forall i, same_static (i_sol iv i 0%nat) (i_sol iv' i 0%nat).
Lemma static_refl : forall s, same_static s s. Proof. intros. repeat split. Qed.
Lemma static_trans : forall a b c, same_static a b -> same_static b c -> same_static a c.
Proof. intros a b c (A1 & A2 & A3 & A4 & A5 & A6) (B1 & B2 & B3 & B4 & B5 & B6). repeat split; congruence. Qed.
Lemma same_inv_refl : forall iv, same_inv iv iv. Proof. intros. repeat split. Qed.
Lemma same_inv_trans : forall a b c, same_inv a b -> same_inv b c -> same_inv a c.
Proof. intros a b c (A1 & A2 & A3 & A4 & A5) (B1 & B2 & B3 & B4 & B5). repeat (split; [congruence|]). intros i. eapply static_trans; eauto. Qed.
Lemma ready_same : forall E iv iv', inv_ready E iv -> same_inv iv iv' -> inv_ready E iv'.
Proof.
  intros E iv iv' (A1 & A2 & A3 & A4 & A5) (B1 & B2 & B3 & B4 & B5). do 3 (split; [congruence|]). split; [lia|]. intros i s Hi S. apply (A5 i); [lia|]. eapply static_trans; eauto.
Qed.
Lemma set_result_static : forall s v r, same_static s (set_result (set_veff s v) r). Proof. intros s v [e [ph|]]; repeat split. Qed.

Lemma Ws_solver_total : forall g E v i iv, inv_ready E iv -> (i < i_lv iv)%nat -> exists iv', Ws_solver g E 0 v i iv = Ok iv' /\ solved (i_sol iv' i 0%nat).
Proof.
  intros g E v i iv (_ & _ & _ & _ & A) Hi. unfold Ws_solver.
  assert (X : i_sol (inv_setveff iv i 0 v) i 0%nat = set_veff (i_sol iv i 0%nat) v) by (unfold inv_setveff; cbn [i_sol]; apply upd2_same). rewrite X.
  destruct (A i (set_veff (i_sol iv i 0%nat) v) Hi) as (N & W & c & e & p & V & S3); [repeat split|]. rewrite V. cbn [bind].
  set (s2 := set_result _ _).
  assert (S2 : solved s2) by (split; [exact N|]; exists c, e, p; split; [reflexivity|]; split; [reflexivity|exact S3]).
  assert (W2 : whole s2) by exact W.
  destruct (solved_energy g s2 S2) as (a & b & T & n & D & En). rewrite D, En. cbn [bind]. destruct (solved_response g (v_sps E) s2 S2 W2) as (chi & ->). cbn [bind].
  eexists. split; [reflexivity|]. unfold inv_chi, inv_solver. cbn [i_sol]. rewrite upd2_same. exact S2.
Qed.
Lemma frame_inv : forall iv iv', InverterMore.frame iv iv' -> (forall i, same_static (i_sol iv i 0%nat) (i_sol iv' i 0%nat)) -> same_inv iv iv'.
Proof. intros iv iv' (A & B & C & _) S. unfold same_inv. rewrite A, B, C. auto. Qed.
Lemma Ws_total : forall g E n0 v iv f, inv_ready E iv -> i_vs iv = Some (A2 1 f) -> exists iv' w, Ws g E n0 0 v iv = Ok (iv', w) /\ InverterMore.frame iv iv' /\ same_inv iv iv' /\ inv_solved iv'.
Proof.
  intros g E n0 v iv f R V. unfold Ws. pose proof R as (_ & _ & R3 & R4 & R5). rewrite R3. cbn [Nat.ltb Nat.leb negb]. set (u := if io_ab (i_opt iv) then avg1 g v else v).
  destruct (forN_total inverter (fun i jv => InverterMore.frame iv jv /\ same_inv iv jv /\ forall p, (p < i)%nat -> solved (i_sol jv p 0%nat)) (i_lv iv) (fun i iv => Ws_solver g E 0 u i iv) iv) as (iv1 & E1 & F1 & S1 & Q1).
  { split; [apply InverterMore.frame_refl|]. split; [apply same_inv_refl|intros; lia]. }
  { intros i jv Hi (F & S & Q). assert (Hj : (i < i_lv jv)%nat) by (destruct F as (_ & -> & _); exact Hi). destruct (Ws_solver_total g E u i jv (ready_same _ _ _ R S) Hj) as (kv & Ek & Sk). exists kv. split; auto.
    destruct (Ws_solver_frame _ _ _ _ _ _ _ Ek) as (F' & O & r & chi & A1 & _). split; [eapply InverterMore.frame_trans; eauto|]. split.
    - eapply same_inv_trans; [exact S|]. apply frame_inv; [exact F'|]. intros q. destruct (Nat.eq_dec q i) as [->|Y]; [rewrite A1; apply set_result_static|rewrite O by auto; apply static_refl].
    - intros q Hq. destruct (Nat.eq_dec q i) as [->|Y]; [exact Sk|]. rewrite O by auto. apply Q. lia. }
  rewrite E1. cbn [bind].
  assert (D : exists n, Ws_density g 0 iv1 = Ok n).
  { unfold Ws_density. assert (L : i_lv iv1 = i_lv iv) by apply F1. rewrite L.
    match goal with |- context [forN ?n ?h ?s] => destruct (forN_total _ (fun _ _ => True) n h s) as (n1 & -> & _); [exact Logic.I| |cbn [bind]; eauto] end.
    intros i x Hi _. destruct (solved_energy g _ (Q1 i Hi)) as (a & b & T & d & -> & _). cbn [bind]. eauto. }
  destruct D as (n & ->). cbn [bind]. assert (V1 : i_vs iv1 = Some (A2 1 f)) by (rewrite <- V; apply F1). rewrite V1. cbn [Nat.ltb Nat.leb bind]. eexists _, _. split; [reflexivity|]. split; auto. split; auto.
  intros i Hi. apply Q1. replace (i_lv iv) with (i_lv iv1) by apply F1. exact Hi.
Qed.
Lemma lsq_total : forall g E n0 x0 iv f, inv_ready E iv -> lsq_answers E -> i_vs iv = Some (A2 1 f) ->
  exists iv' x inf, lsq_run g E n0 0 x0 iv = Ok (iv', x, inf) /\ answer E inf /\ InverterMore.frame iv iv' /\ same_inv iv iv' /\ inv_solved iv'.
Proof.
  intros g E n0 x0 iv f R C V. unfold lsq_run. destruct (C iv 0%nat x0) as (t & tr & x & inf & EL). assert (O : answer E inf) by (exists iv, 0%nat, x0; rewrite EL; reflexivity). rewrite EL.
  assert (Q : forall l u, exists iv', fold_left (fun r v => do iv <- r; do p <- Ws g E n0 0 v iv; Ok (fst p)) (l ++ [u]) (Ok iv) = Ok iv' /\ InverterMore.frame iv iv' /\ same_inv iv iv' /\ inv_solved iv').
  { intros l. induction l as [|y l IH] using rev_ind; intros u; rewrite fold_left_app; cbn [fold_left].
    - cbn [bind]. destruct (Ws_total g E n0 u iv f R V) as (iv' & w & -> & F & S & Q). cbn [bind fst]. eauto.
    - destruct (IH y) as (iv1 & E1 & F1 & S1 & _). rewrite E1. cbn [bind]. assert (V1 : i_vs iv1 = Some (A2 1 f)) by (rewrite <- V; apply F1).
      destruct (Ws_total g E n0 u iv1 f (ready_same _ _ _ R S1) V1) as (iv' & w & -> & F & S & Q). cbn [bind fst]. exists iv'. split; auto. split; [eapply InverterMore.frame_trans; eauto|]. split; [eapply same_inv_trans; eauto|exact Q]. }
  destruct (@exists_last _ (t :: tr)) as (l & u & L); [discriminate|]. rewrite L. destruct (Q l u) as (iv' & -> & F). cbn [bind]. exists iv', x, inf. auto.
Qed.
(** invert() with a one-dimensional target and a one-column guess. *)
Lemma wuyang_total : forall g E n0 v0 ph e0 spin iv, inv_ready E iv -> lsq_answers E ->
  exists iv' inf o u v, invert g E (A1 n0) (Some (A2 1 v0)) ph e0 spin iv = Ok (iv', OArr (i_lv iv) 1 o) /\ (forall i, o i 0%nat = Some inf) /\ answer E inf /\
    same_inv iv iv' /\ inv_solved iv' /\ i_us iv' = Some (U2 1 1 u) /\ i_vs iv' = Some (A2 1 v).
Proof.
  intros g E n0 v0 ph e0 spin iv R C. pose proof R as (R1 & R2 & R3 & R4 & R5). unfold invert. rewrite R1. change (String.eqb "wuyang" "wuyang") with true. cbn iota. unfold linresponse. cbn [as_cols].
  assert (G : exists f, lin_guess 1 iv (Some (A2 1 v0)) = Ok (A2 1 f)) by (unfold lin_guess; destruct (i_vset iv 0%nat 0%nat); eauto). destruct G as (f & ->). cbn [bind]. rewrite R2.
  set (iv0 := inv_us _ _). cbn [forN bind].
  assert (S0 : same_inv iv iv0) by (repeat split). assert (V0 : i_vs iv0 = Some (A2 1 (fun _ _ => 0))) by reflexivity. assert (U : i_us iv0 = Some (U2 1 1 (fun _ _ => 0))) by reflexivity.
  destruct (lsq_total g E n0 (fun k => f k 0%nat) iv0 _ (ready_same _ _ _ R S0) C V0) as (iv1 & x & inf & L & O & F & S1 & Q1).
  destruct (solved_homo (i_sol iv1 0%nat 0%nat)) as (h & Hh). { apply Q1. destruct F as (_ & -> & _). destruct S0 as (-> & _). lia. }
  assert (C0 : i_cols iv0 = 1%nat) by exact R3.
  rewrite (lin_spin_form g E (fun k _ => n0 k) 1 f 0 iv0 (fun _ _ => None) iv1 x inf h 1 (fun _ _ => 0) 1 1 (fun _ _ => 0)); [|lia|lia|exact L|exact Hh|exact V0|lia|exact U].
  cbn [Nat.ltb Nat.leb bind fst snd]. rewrite R3. do 5 eexists. split; [reflexivity|]. split; [intros; reflexivity|]. split; [exact O|]. split; [|split; [exact Q1|split; reflexivity]].
  eapply same_inv_trans; [exact S0|]. eapply same_inv_trans; [exact S1|]. repeat split.
Qed.
Lemma vt_total : forall g iv u v, i_us iv = Some (U2 1 1 u) -> i_vs iv = Some (A2 1 v) -> exists r t, get_vt g iv = Ok (r, 1%nat, t).
Proof.
  intros g iv u v U V. unfold get_vt. rewrite U, V. cbn [need bind]. unfold bdim at 1. destruct (Nat.eqb_spec (Nelem g) 1) as [Q|Q].
  - cbn [bind]. unfold bdim. rewrite Q. cbn. eauto.
  - cbn [Nat.eqb]. unfold bdim. rewrite Nat.eqb_refl. cbn. eauto.
Qed.
Lemma Ts_total : forall g iv, io_ess (i_opt iv) = false -> i_cols iv = 1%nat -> inv_solved iv -> exists T, get_Ts g iv = Ok (Fin T).
Proof.
  intros g iv Es C S. unfold get_Ts. rewrite Es, C. cbn [forN bind].
  match goal with |- context [forN ?n ?h ?s] => destruct (forN_total _ (fun _ x => exists T, x = Fin T) n h s) as (x & -> & T & ->); [eauto| |eauto] end.
  intros i x Hi (T & ->). destruct (solved_energy g _ (S i Hi)) as (a & b & T' & n & _ & ->). cbn [bind nadd]. eauto.
Qed.
Lemma ts_total : forall g iv, io_ess (i_opt iv) = false -> i_cols iv = 1%nat -> inv_solved iv -> (forall i, (i < i_lv iv)%nat -> whole (i_sol iv i 0%nat)) ->
  exists iv' ts, get_ts_WFI g iv = Ok (iv', ts) /\ i_sol iv' = i_sol iv /\ i_opt iv' = i_opt iv /\ i_lv iv' = i_lv iv /\ i_cols iv' = i_cols iv.
Proof.
  intros g iv Es C S W. unfold get_ts_WFI. rewrite Es, C.
  destruct (forN_total inverter (fun _ jv => i_sol jv = i_sol iv /\ i_opt jv = i_opt iv /\ i_lv jv = i_lv iv /\ i_cols jv = i_cols iv) (i_lv iv) (fun i jv => ked_cols g 1 i jv) iv) as (iv' & -> & Q).
  - auto.
  - intros i jv Hi (J1 & J2 & J3 & J4). unfold ked_cols. cbn [forN bind]. rewrite J1. destruct (ked_total g (hamiltonian g (s_m (i_sol iv i 0%nat))) _ (S i Hi) (W i Hi)) as (t & ->). cbn [bind]. eexists. split; [reflexivity|].
    destruct (i_alias jv && (0 =? 0)%nat)%bool; auto.
  - cbn [bind]. eexists _, _. split; [reflexivity|]. destruct Q as (Q1 & Q2 & Q3 & Q4). repeat (split; [congruence|]). congruence.
Qed.
