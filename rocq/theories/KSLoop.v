(** The self-consistency loop of CADMium/kohnsham/scf.py: states, electron numbers, termination, residual. *)
From Coq Require Import Reals List Arith Lia Lra ZArith Bool String Permutation.
From Verif Require Import Base BaseLemmas GridModel GridSpec GridProofs HartreeModel SolverModel SolverSpec
  LibxcModel OptionsModel KSModel KSSpec KSProofs KSThms.
Import ListNotations.
Local Open Scope R_scope.
Local Opaque sinh cosh.

Ltac bindall H := repeat match type of H with
  | (do x <- ?m; _) = Ok _ => let E := fresh "B" in destruct m eqn:E; [cbn [bind] in H|discriminate]
  | bind ?m _ = Ok _ => let E := fresh "B" in destruct m eqn:E; [cbn [bind] in H|discriminate]
  end.
Lemma need_some : forall (A : Type) (o : option A) a, need o = Ok a -> o = Some a.
Proof. intros A [x|] a H; [injection H as ->; auto|discriminate]. Qed.

Lemma hxc_inv : forall g w k k', calc_hxc_potential g w k = Ok k' ->
  exists V v, k' = set_vhxc (set_EV k (k_E k) V) (Some (if o_sym (k_opt k) then sym_avgR g v else v)) /\
  ((o_int (k_opt k) = "ni"%string /\ V = k_V k /\ (forall x s, v x s = 0) /\ k_vext k <> None) \/
   (o_int (k_opt k) <> "ni"%string /\ exists n x c vh, k_n k = Some n /\
      get_xc g (e_lib w) (o_fam (k_opt k)) (o_xid (k_opt k)) (k_pol k) n = Ok x /\
      get_xc g (e_lib w) (o_fam (k_opt k)) (o_cid (k_opt k)) (k_pol k) n = Ok c /\
      v_hartree g (e_spL w) (e_spU w) (A2 (k_pol k) n) = Ok vh /\
      (forall k s, v k s = snd x k s + snd c k s + entry vh k s))).
Proof.
  intros g w k k' H. unfold calc_hxc_potential in H.
  destruct (String.eqb_spec (o_int (k_opt k)) "ni") as [E|E].
  - destruct (need (k_vext k)) as [ve|] eqn:N; [|discriminate]. cbn [bind] in H. injection H as <-.
    exists (k_V k), (fun _ _ => 0). split; [destruct k; reflexivity|]. left. repeat split; auto. apply need_some in N. congruence.
  - destruct (need (k_n k)) as [n|] eqn:N; [|discriminate]. cbn [bind] in H.
    destruct (get_xc g (e_lib w) (o_fam (k_opt k)) (o_xid (k_opt k)) (k_pol k) n) as [x|] eqn:X; [|discriminate]. cbn [bind] in H.
    destruct (get_xc g (e_lib w) (o_fam (k_opt k)) (o_cid (k_opt k)) (k_pol k) n) as [c|] eqn:C; [|discriminate]. cbn [bind] in H.
    destruct (v_hartree g (e_spL w) (e_spU w) (A2 (k_pol k) n)) as [vh|] eqn:VH; [|discriminate]. cbn [bind] in H. injection H as <-.
    do 2 eexists. split; [reflexivity|]. right. split; auto. exists n, x, c, vh. repeat split; auto. apply need_some; auto.
    intros a s. unfold add3, arr_fun, entry. destruct vh; reflexivity.
Qed.
Lemma hxc_frame : forall g w k k', calc_hxc_potential g w k = Ok k' -> frame k k' /\ k_n k' = k_n k /\ k_vext k' = k_vext k /\ k_sol k' = k_sol k.
Proof. intros g w k k' H. apply hxc_inv in H. destruct H as (V & v & -> & _). repeat split. Qed.
Lemma energy_keep : forall g w k k', ks_energy g w k = Ok k' -> exists E V, k' = set_EV k (Some E) V.
Proof.
  intros g w k k' H. unfold ks_energy in H.
  destruct (energy_loop g k) as [[[[aE aV] aT] ev]|]; [|discriminate]. cbn [bind] in H.
  destruct (need (k_n k)); [|discriminate]. cbn [bind] in H. destruct (need (k_vext k)); [|discriminate]. cbn [bind] in H.
  destruct (String.eqb (o_int (k_opt k)) "ni"); [injection H as <-; eauto|].
  destruct (need (k_vhxc k)); [|discriminate]. cbn [bind] in H.
  destruct (v_hartree _ _ _ _); [|discriminate]. cbn [bind] in H.
  destruct (get_xc _ _ _ _ _ _) as [[[? ?] ?]|]; [|discriminate]. cbn [bind] in H.
  destruct (get_xc _ _ _ _ _ _) as [[[? ?] ?]|]; [|discriminate]. cbn [bind] in H.
  injection H as <-. eauto.
Qed.
Lemma chempot_keep : forall k k', calc_chempot k = Ok k' -> exists u, k' = set_u k (Some u).
Proof.
  intros k k' H. unfold calc_chempot in H. destruct (forN _ _ _); [|discriminate]. cbn [bind] in H.
  destruct (pymaxR a); [|discriminate]. cbn [bind] in H. injection H as <-. eauto.
Qed.

Definition mixed (o : scfopt) (n nout : mat) : mat := fun x s => (1 - so_alpha o) * n x s + so_alpha o * nout x s.
Lemma body_inv : forall g w o l st st', scf_body g w o l st = Ok st' ->
  so_auto o = false /\
  exists k1 ve vh sol k3 nout n k4 k5 E r,
    calc_hxc_potential g w (c_ks st) = Ok k1 /\ k_vext k1 = Some ve /\ k_vhxc k1 = Some vh /\
    let v := add3 (k_vnuc k1) ve vh in
    distribute_scf k1 v = Ok sol /\
    ks_density g w (so_iter o) (if so_iter o && so_cont o then Fin 0 else c_diff st) l
      (set_sol (set_veffs k1 (Some (if so_flip o then flip_avg g (k_pol k1) v else v))) sol) = Ok (k3, nout) /\
    k_n k3 = Some n /\
    let n' := if so_flip o then flip_avg g (k_pol k1) (mixed o n nout) else mixed o n nout in
    ks_energy g w (set_n k3 (Some n')) = Ok k4 /\ calc_chempot k4 = Ok k5 /\ k_E k5 = Some E /\
    residual g (k_pol k1) (E_E E) (c_oldE st) n' (c_oldn st) = Ok r /\
    st' = mkSt k5 r (E_E E) n' (c_iter st + 1)%Z.
Proof.
  intros g w o l st st' H. unfold scf_body in H.
  destruct (calc_hxc_potential g w (c_ks st)) as [k1|] eqn:H1; [|discriminate]. cbn [bind] in H.
  destruct (need (k_vext k1)) as [ve|] eqn:H2; [|discriminate]. cbn [bind] in H.
  destruct (need (k_vhxc k1)) as [vh|] eqn:H3; [|discriminate]. cbn [bind] in H. cbv zeta in H.
  destruct (distribute_scf k1 (add3 (k_vnuc k1) ve vh)) as [sol|] eqn:H4; [|discriminate]. cbn [bind] in H.
  destruct (ks_density _ _ _ _ _ _) as [[k3 nout]|] eqn:H5; [|discriminate]. cbn [bind] in H.
  destruct (need (k_n k3)) as [n|] eqn:H6; [|discriminate]. cbn [bind] in H.
  destruct (ks_energy _ _ _) as [k4|] eqn:H7; [|discriminate]. cbn [bind] in H.
  destruct (calc_chempot k4) as [k5|] eqn:H8; [|discriminate]. cbn [bind] in H.
  destruct (need (k_E k5)) as [E|] eqn:H9; [|discriminate]. cbn [bind] in H.
  destruct (residual _ _ _ _ _ _) as [r|] eqn:H10; [|discriminate]. cbn [bind] in H.
  destruct (so_auto o); [discriminate|]. split; auto. injection H as <-.
  apply need_some in H2, H3, H6, H9.
  exists k1, ve, vh, sol, k3, nout, n, k4, k5, E, r. cbv zeta. split; [reflexivity|]. repeat (split; [assumption|]). reflexivity.
Qed.
Lemma body_frame : forall g w o l st st', scf_body g w o l st = Ok st' ->
  frame (c_ks st) (c_ks st') /\ c_iter st' = (c_iter st + 1)%Z /\ k_n (c_ks st') = Some (c_oldn st').
Proof.
  intros g w o l st st' H. apply body_inv in H.
  destruct H as (_ & k1 & ve & vh & sol & k3 & nout & n & k4 & k5 & E & r & H1 & H2 & H3 & H4 & H5 & H6 & H7 & H8 & H9 & H10 & ->).
  cbn [c_ks c_iter c_oldn].
  apply hxc_frame in H1. destruct H1 as (F1 & _). apply density_frame in H5.
  apply energy_keep in H7. destruct H7 as (E' & V & ->). apply chempot_keep in H8. destruct H8 as (u & ->).
  split; [|split; reflexivity].
  eapply frame_trans; [exact F1|]. eapply frame_trans; [|eapply frame_trans; [exact H5|]].
  - repeat (split; [reflexivity|]). apply (distribute_scf_static _ _ _ H4).
  - repeat (split; [reflexivity|]). intros; apply same_static_refl.
Qed.
(** The density of the object before the mixing is the one it had when the body was entered. *)
Lemma body_mix : forall g w o l st st', scf_body g w o l st = Ok st' ->
  exists k2 k3 n nout, frame (c_ks st) k2 /\ k_n (c_ks st) = Some n /\
    ks_density g w (so_iter o) (if so_iter o && so_cont o then Fin 0 else c_diff st) l k2 = Ok (k3, nout) /\
    k_n (c_ks st') = Some (if so_flip o then flip_avg g (k_pol (c_ks st)) (mixed o n nout) else mixed o n nout).
Proof.
  intros g w o l st st' H. apply body_inv in H.
  destruct H as (_ & k1 & ve & vh & sol & k3 & nout & n & k4 & k5 & E & r & H1 & H2 & H3 & H4 & H5 & H6 & H7 & H8 & H9 & H10 & ->).
  cbn [c_ks]. apply hxc_frame in H1. destruct H1 as (F1 & N1 & _).
  apply energy_keep in H7. destruct H7 as (E' & V & ->). apply chempot_keep in H8. destruct H8 as (u & ->).
  do 2 eexists. exists n, nout. split; [|split; [|split; [exact H5|]]].
  - eapply frame_trans; [exact F1|]. repeat (split; [reflexivity|]). apply (distribute_scf_static _ _ _ H4).
  - apply density_inv in H5. destruct H5 as (sol' & n0 & -> & _). cbn [set_sol k_n set_veffs] in H6. rewrite <- N1. exact H6.
  - cbn [set_u k_n set_EV set_n]. destruct F1 as (_ & _ & _ & P & _). rewrite P. reflexivity.
Qed.

Lemma start_inv : forall g w o l k k0, scf_start g w o l k = Ok k0 -> frame k k0 /\ exists n, k_n k0 = Some n /\
  if so_cont o then k_n k = Some n else exists k1 k2, frame k k1 /\ ks_density g w false (Fin 0) l k1 = Ok (k2, n).
Proof.
  intros g w o l k k0 H. unfold scf_start in H. cbv zeta in H. destruct (so_cont o).
  - destruct (need (k_n k)) as [n|] eqn:N; [|discriminate]. cbn [bind] in H. injection H as <-. apply need_some in N.
    split; [repeat split|]. exists n. auto.
  - unfold set_effective_potential in H. cbn [k_vext set_vhxc set_vext need bind k_vhxc] in H. cbv zeta in H.
    destruct (distribute _ _) as [sol|] eqn:D; [|discriminate]. cbn [bind] in H.
    destruct (ks_density _ _ _ _ _ _) as [[k2 nout]|] eqn:N; [|discriminate]. cbn [bind] in H. injection H as <-.
    pose proof (density_frame _ _ _ _ _ _ _ _ N) as F2. 
    match type of N with ks_density _ _ _ _ _ ?x = _ => assert (F1 : frame k x) end.
    { repeat (split; [reflexivity|]). apply (distribute_static _ _ _ D). }
    split.
    + eapply frame_trans; [exact F1|]. eapply frame_trans; [exact F2|]. repeat split.
    + exists nout. split; auto. do 2 eexists. split; [exact F1|exact N].
Qed.

(** * traces *)
Lemma trace_frame : forall g w o sched k st, scf_trace g w o sched k st ->
  frame k (c_ks st) /\ (1 <= c_iter st)%Z /\ exists n, k_n (c_ks st) = Some n.
Proof.
  intros g w o sched k st H. induction H as [k0 H|st st' H IH T B].
  - apply start_inv in H. destruct H as (F & n & N & _). split; auto. split; [simpl; lia|]. exists n. auto.
  - destruct IH as (F & I & _). apply body_frame in B. destruct B as (F' & I' & N). split; [eapply frame_trans; eauto|]. split; [lia|eauto].
Qed.
Lemma loop_trace : forall g w o sched k fuel st st', scf_trace g w o sched k st -> scf_loop g w o sched fuel st = Ok st' -> scf_trace g w o sched k st'.
Proof.
  intros g w o sched k. induction fuel as [|f IH]; intros st st' T H; simpl in H; [injection H as <-; auto|].
  destruct (scf_test o st) as [b|] eqn:E; [|discriminate]. cbn [bind] in H. destruct b; [|injection H as <-; auto].
  destruct (scf_body g w o (sched (c_iter st)) st) as [st1|] eqn:B; [|discriminate]. cbn [bind] in H.
  apply (IH st1 st'); auto. eapply trace_step; eauto.
Qed.
Lemma test_true : forall o st, scf_test o st = Ok true -> gtb (c_diff st) (Fin (so_tol o)) = true /\ (c_iter st < so_maxiter o)%Z.
Proof.
  intros o st H. unfold scf_test in H. destruct (gtb _ _); [split; auto; injection H as H; apply Z.ltb_lt; auto|].
  destruct (so_auto o); discriminate.
Qed.
(** The fuel never runs out: the loop ends because its test fails. *)
Lemma loop_exit : forall g w o sched fuel st st', (1 <= c_iter st)%Z -> (so_maxiter o - c_iter st < Z.of_nat fuel)%Z -> (0 < fuel)%nat ->
  scf_loop g w o sched fuel st = Ok st' -> scf_test o st' = Ok false.
Proof.
  intros g w o sched. induction fuel as [|f IH]; intros st st' H1 H2 H3 H; [lia|]. simpl in H.
  destruct (scf_test o st) as [b|] eqn:E; [|discriminate]. cbn [bind] in H. destruct b; [|injection H as <-; auto].
  destruct (scf_body g w o (sched (c_iter st)) st) as [st1|] eqn:B; [|discriminate]. cbn [bind] in H.
  apply test_true in E. destruct E as (_ & E). apply body_frame in B. destruct B as (_ & I & _).
  apply (IH st1 st'); auto; lia.
Qed.
Lemma scf_inv : forall g w sched d k st, ks_scf g w sched d k = Ok st ->
  exists o, scf_options d = Ok o /\ scf_trace g w o sched k st /\ scf_test o st = Ok false.
Proof.
  intros g w sched d k st H. unfold ks_scf in H. destruct (scf_options d) as [o|]; [|discriminate]. cbn [bind] in H.
  destruct (scf_start g w o (sched 0%Z) k) as [k0|] eqn:S; [|discriminate]. cbn [bind] in H. exists o. split; auto. split.
  - eapply loop_trace; [|exact H]. apply trace_start. auto.
  - eapply loop_exit; [| | |exact H]; cbn [c_iter]; lia.
Qed.
Lemma trace_bound : forall g w o sched k st, scf_trace g w o sched k st -> (1 <= c_iter st <= Z.max 1 (so_maxiter o))%Z.
Proof.
  intros g w o sched k st H. induction H as [k0 H|st st' H IH T B]; [simpl; lia|].
  apply test_true in T. apply body_frame in B. lia.
Qed.
Lemma scf_bound : forall g w sched d k st, ks_scf g w sched d k = Ok st ->
  exists o, scf_options d = Ok o /\ (0 <= c_iter st - 1 <= Z.max 0 (so_maxiter o - 1))%Z /\
  ((c_iter st < so_maxiter o)%Z -> gtb (c_diff st) (Fin (so_tol o)) = false).
Proof.
  intros g w sched d k st H. destruct (scf_inv _ _ _ _ _ _ H) as (o & O & T & X). exists o. split; auto.
  pose proof (trace_bound _ _ _ _ _ _ T). split; [lia|]. intros I. unfold scf_test in X.
  destruct (gtb _ _); auto. injection X as X. apply Z.ltb_ge in X. lia.
Qed.
Lemma gtb_false : forall x t, gtb x (Fin t) = false <-> (x = NaN \/ x = NInf \/ exists r, x = Fin r /\ r <= t).
Proof.
  intros [r| | |] t; simpl.
  - destruct (Rlt_dec t r); split; auto; try discriminate.
    + intros [?|[?|(r' & E & H)]]; try discriminate. injection E as <-. lra.
    + intros _. right; right. exists r. split; auto. lra.
  - split; [discriminate|]. intros [?|[?|(? & ? & _)]]; discriminate.
  - split; auto.
  - split; auto.
Qed.

(** * auto_tol *)
Lemma auto_tol_no_iteration : forall g w o sched k st, so_auto o = true -> scf_trace g w o sched k st -> c_iter st = 1%Z.
Proof.
  intros g w o sched k st A H. induction H as [k0 H|st st' H IH T B]; auto.
  apply body_inv in B. destruct B as (B & _). congruence.
Qed.

(** * electron number *)
Lemma mixed_integral : forall g o n nout j, integrate1 g (fun x => mixed o n nout x j) =
  (1 - so_alpha o) * integrate1 g (fun x => n x j) + so_alpha o * integrate1 g (fun x => nout x j).
Proof. intros. unfold mixed. rewrite integrate1_lin, integrate1_scal. reflexivity. Qed.
Lemma placed_frame : forall k k', frame k k' -> (forall i j, place k i j -> placed (k_sol k i j)) -> forall i j, place k' i j -> placed (k_sol k' i j).
Proof.
  intros k k' F H i j Hp. apply (place_frame k k' i j F) in Hp. destruct F as (_ & _ & _ & _ & _ & _ & _ & F).
  eapply placed_same; [apply F|]. auto.
Qed.
Lemma flip_col : forall g pol f x s, (x < Nelem g)%nat ->
  flip_avg g pol f x s = (f x s + mirror1 g (fun x => f x (pol - 1 - s)%nat) x) / 2.
Proof. intros g pol f x s Hx. unfold flip_avg.
  change (arr_fun (mirror g (spinflip (A2 pol f))) x s) with (mirror2 g (fun k s => f k (pol - 1 - s)%nat) x s).
  rewrite mirror2_mirror1 by auto. reflexivity. Qed.
Lemma flip_integral : forall g pol f s, mirror_invariant g ->
  integrate1 g (fun x => flip_avg g pol f x s) = (integrate1 g (fun x => f x s) + integrate1 g (fun x => f x (pol - 1 - s)%nat)) / 2.
Proof.
  intros g pol f s HM.
  rewrite (integrate1_ext g _ (fun x => 1 / 2 * f x s + 1 / 2 * mirror1 g (fun x => f x (pol - 1 - s)%nat) x)).
  - rewrite integrate1_plus, !integrate1_scal, HM. field.
  - intros x Hx. rewrite flip_col by auto. field.
Qed.
Section Count.
  Variables (g : grid) (w : env) (o : scfopt) (sched : Z -> list (nat * nat)) (k : ks).
  Hypothesis HW : worker_ok g w.
  Hypothesis HM : o_sym (k_opt k) = true -> mirror_invariant g.
  Hypothesis HP : forall i j, place k i j -> placed (k_sol k i j).
  Lemma out_count : forall k2 it dif l k3 n j, frame k k2 -> ks_density g w it dif l k2 = Ok (k3, n) -> (j < k_cols k)%nat ->
    integrate1 g (fun x => n x j) = electrons k j.
  Proof.
    intros k2 it dif l k3 n j F D Hj. pose proof F as (FO & _ & _ & _ & _ & FC & _).
    rewrite <- (electrons_frame k k2 j F). eapply density_electrons; eauto.
    - rewrite FO. auto.
    - eapply placed_frame; eauto.
    - rewrite FC. auto.
  Qed.
  Lemma trace_count : so_flip o = false ->
    (so_cont o = true -> forall n j, k_n k = Some n -> (j < k_cols k)%nat -> integrate1 g (fun x => n x j) = electrons k j) ->
    forall st, scf_trace g w o sched k st -> exists n, k_n (c_ks st) = Some n /\
      forall j, (j < k_cols k)%nat -> integrate1 g (fun x => n x j) = electrons k j.
  Proof.
    intros HF HC st H. induction H as [k0 H|st st' H IH T B].
    - apply start_inv in H. destruct H as (F & n & N & S). exists n. split; auto. intros j Hj. destruct (so_cont o); auto.
      destruct S as (k1 & k2 & F1 & D). eapply out_count; eauto.
    - destruct (trace_frame _ _ _ _ _ _ H) as (F0 & _). destruct (body_mix _ _ _ _ _ _ B) as (k2 & k3 & n & nout & F & N & D & N').
      rewrite HF in N'. eexists. split; [exact N'|]. intros j Hj. rewrite mixed_integral.
      destruct IH as (n1 & N1 & C1). rewrite N in N1. injection N1 as <-. rewrite C1 by auto.
      rewrite (out_count k2 _ _ _ k3 nout j (frame_trans _ _ _ F0 F) D Hj). ring.
  Qed.
  (** with spinflipsym the total is kept *)
  Lemma trace_total : so_flip o = true -> mirror_invariant g -> k_pol k = 2%nat -> k_cols k = 2%nat ->
    (so_cont o = true -> forall n, k_n k = Some n -> integrate1 g (fun x => n x 0%nat) + integrate1 g (fun x => n x 1%nat) = electrons k 0 + electrons k 1) ->
    forall st, scf_trace g w o sched k st -> exists n, k_n (c_ks st) = Some n /\
      integrate1 g (fun x => n x 0%nat) + integrate1 g (fun x => n x 1%nat) = electrons k 0 + electrons k 1.
  Proof.
    intros HF HI P2 C2 HC st H. induction H as [k0 H|st st' H IH T B].
    - apply start_inv in H. destruct H as (F & n & N & S). exists n. split; auto. destruct (so_cont o); auto.
      destruct S as (k1 & k2 & F1 & D). rewrite (out_count k1 _ _ _ k2 n 0%nat F1 D), (out_count k1 _ _ _ k2 n 1%nat F1 D) by lia. reflexivity.
    - destruct (trace_frame _ _ _ _ _ _ H) as (F0 & _). destruct (body_mix _ _ _ _ _ _ B) as (k2 & k3 & n & nout & F & N & D & N').
      rewrite HF in N'. eexists. split; [exact N'|]. rewrite !flip_integral by auto.
      destruct F0 as (Q1 & Q2 & Q3 & Q4 & Q5). rewrite Q4, P2. cbn [Nat.sub].
      rewrite !mixed_integral. destruct IH as (n1 & N1 & C1). rewrite N in N1. injection N1 as <-.
      pose proof (frame_trans _ _ _ (conj Q1 (conj Q2 (conj Q3 (conj Q4 Q5)))) F) as F2.
      pose proof (out_count k2 _ _ _ k3 nout 0%nat F2 D ltac:(lia)) as E0. pose proof (out_count k2 _ _ _ k3 nout 1%nat F2 D ltac:(lia)) as E1.
      rewrite E0, E1. nra.
  Qed.
  Lemma trace_nonneg : 0 <= so_alpha o <= 1 ->
    (so_cont o = true -> forall n x s, k_n k = Some n -> (x < Nelem g)%nat -> 0 <= n x s) ->
    forall st, scf_trace g w o sched k st -> exists n, k_n (c_ks st) = Some n /\ forall x s, (x < Nelem g)%nat -> 0 <= n x s.
  Proof.
    intros HA HC st H. induction H as [k0 H|st st' H IH T B].
    - apply start_inv in H. destruct H as (F & n & N & S). exists n. split; auto. intros x s Hx. destruct (so_cont o); eauto.
      destruct S as (k1 & k2 & F1 & D). apply (density_nonneg_all g w _ _ _ k1 k2 n HW (placed_frame _ _ F1 HP) D); auto.
    - destruct (trace_frame _ _ _ _ _ _ H) as (F0 & _). destruct (body_mix _ _ _ _ _ _ B) as (k2 & k3 & n & nout & F & N & D & N').
      eexists. split; [exact N'|]. destruct IH as (n1 & N1 & C1). rewrite N in N1. injection N1 as <-.
      assert (X : forall x s, (x < Nelem g)%nat -> 0 <= mixed o n nout x s).
      { intros x s Hx. unfold mixed. pose proof (C1 x s Hx).
        assert (0 <= nout x s). { apply (density_nonneg_all g w _ _ _ k2 k3 nout HW (placed_frame _ _ (frame_trans _ _ _ F0 F) HP) D); auto. }
        assert (0 <= (1 - so_alpha o) * n x s) by (apply Rmult_le_pos; lra). assert (0 <= so_alpha o * nout x s) by (apply Rmult_le_pos; lra). lra. }
      intros x s Hx. destruct (so_flip o); auto. rewrite flip_col by auto. pose proof (X x s Hx).
      destruct (pos_surj g x Hx) as (ia & ir & Hpt & ->). rewrite mirror1_pos by auto.
      pose proof (X (pos g (Na g - 1 - ia) ir) (k_pol (c_ks st) - 1 - s)%nat (pos_lt _ _ _ (mirror_point _ _ _ Hpt))). lra.
  Qed.
End Count.
