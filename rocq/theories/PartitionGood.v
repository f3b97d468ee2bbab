(** Partition: settings under which Partition.scf cannot fail. *)
From Coq Require Import Reals List Arith Lia Lra ZArith Bool String.
From Verif Require Import Base BaseLemmas GridModel GridSpec GridProofs HartreeModel SolverModel SolverSpec LibxcModel OptionsModel KSModel KSSpec KSProofs KSThms KSLoop KSEnergy KSTotal
  InverterModel InverterTotal PartitionModel PartitionSpec PartitionBase PartitionDens PartitionFrame PartitionEnergy PartitionEp PartitionPot PartitionLoop PartitionStep PartitionPass PartitionKeep PartitionScf PartitionModes.
Import ListNotations.
Local Open Scope R_scope.

(** * Tools *)
Lemma forL_inv_total : forall (X S : Type) (P : S -> Prop) (l : list X) f s, P s -> (forall x s, In x l -> P s -> exists s', f x s = Ok s' /\ P s') -> exists s', forL l f s = Ok s' /\ P s'.
Proof.
  intros X S P l. induction l as [|x l IH]; intros f s H0 H; cbn [forL]; [eauto|].
  destruct (H x s (or_introl eq_refl) H0) as (s1 & -> & H1). cbn [bind]. apply IH; auto. intros y t Hy. apply H. right. auto.
Qed.
Lemma forL_run : forall (h : comp -> part -> frag -> res frag) (body : comp -> part -> res part) l p, ignores_f h -> NoDup l ->
  (forall c q, body c q = (do f <- get_f q c; do f' <- h c q f; Ok (set_frag q c f'))) ->
  (forall c, In c l -> exists f f', p_f p c = Some f /\ h c p f = Ok f') ->
  exists p', forL l body p = Ok p' /\ p' = with_f p (p_f p') /\ (forall c, In c l -> exists f f', p_f p c = Some f /\ h c p f = Ok f' /\ p_f p' c = Some f') /\ (forall c, ~ In c l -> p_f p' c = p_f p c).
Proof.
  intros h body l p I N E H. destruct (forL_frags_total h l p I N H) as (p' & Q). exists p'. split; [|apply (forL_frags h l p p' I N Q)].
  rewrite <- Q. apply forL_ext. intros; apply E.
Qed.
Definition some {A : Type} (o : option A) : Prop := exists a, o = Some a.
Lemma need_total : forall (A : Type) (o : option A), some o -> exists a, need o = Ok a. Proof. intros A o (a & ->). exists a. reflexivity. Qed.
Lemma have_total : forall (A : Type) (o : option A), some o -> exists a, have o = Ok a. Proof. intros A o (a & ->). exists a. reflexivity. Qed.
Lemma finite_total : forall r c f, (forall k s, is_fin (f k s) = true) -> exists x, finite r c f = Ok x.
Proof.
  intros r c f H. unfold finite. rewrite (proj2 (forallb_forall _ _)); [eauto|]. intros k _. apply forallb_forall. intros s _. apply H.
Qed.
Lemma bdim_same : forall n, bdim n n = Some n. Proof. intros n. unfold bdim. rewrite Nat.eqb_refl. reflexivity. Qed.

(** * One component *)
(** A Kohn-Sham object whose eigensolver delivers enough orbitals and whose functionals can be evaluated. *)
Definition able (g : grid) (w : env) (k : ks) : Prop := capable w k /\ hxc_available g w k /\ (1 <= k_cols k <= k_pol k)%nat /\ (1 <= k_lv k)%nat.
Lemma able_frame : forall g w k k', able g w k -> frame k k' -> able g w k'.
Proof.
  intros g w k k' (A & B & C & D) F. pose proof F as (FO & _ & _ & FP & FL & FC & _). split; [eapply capable_frame; eauto|]. unfold hxc_available. rewrite FO, FP, FL, FC. auto.
Qed.
(** Every solver holds orbitals and eigenvalues. *)
Definition all_solved (k : ks) : Prop := forall i j, place k i j -> solved (k_sol k i j).
Lemma chempot_frag_total : forall g w k f, (0 < Nelem g)%nat -> able g w k -> frame k (f_ks f) -> (forall i j, place (f_ks f) i j -> solved (k_sol (f_ks f) i j)) -> exists f', frag_chempot f = Ok f'.
Proof.
  intros g w k f HN (A & B & C & D) F S. unfold frag_chempot. destruct (chempot_total g k HN C D (f_ks f) F S) as (k2 & ->). cbn [bind]. eauto.
Qed.
Lemma hxc_frag_total : forall g w f, (0 < Nelem g)%nat -> able g w (f_ks f) -> some (k_n (f_ks f)) -> some (k_vext (f_ks f)) -> some (k_vhxc (f_ks f)) ->
  exists f', hxc_frag g w f = Ok f' /\ k_veff (f_ks f') = k_veff (f_ks f) /\ (o_int (k_opt (f_ks f)) <> "ni"%string -> some (V_vh (k_V (f_ks f'))) /\ some (V_vx (k_V (f_ks f'))) /\ some (V_vc (k_V (f_ks f')))).
Proof.
  intros g w f HN (A & B & C & D) N V (o & X). destruct (hxc_total g w (f_ks f) B (f_ks f) (frame_refl _) N V) as (k & E). unfold hxc_frag. rewrite E. cbn [bind].
  pose proof (hxc_inv _ _ _ _ E) as (W & v & K & _).
  assert (Q : some (k_vhxc k)) by (rewrite K; eexists; reflexivity). destruct (need_total _ _ Q) as (u & ->). cbn [bind]. rewrite X. cbn [need bind]. eexists. split; [reflexivity|]. cbn [fk f_ks set_vhxc k_veff k_V].
  split; [rewrite K; reflexivity|]. intros NI. unfold calc_hxc_potential in E. destruct (String.eqb_spec (o_int (k_opt (f_ks f))) "ni"); [contradiction|]. destruct N as (n0 & N). rewrite N in E. cbn [need bind] in E.
  destruct (get_xc g (e_lib w) (o_fam (k_opt (f_ks f))) (o_xid (k_opt (f_ks f))) (k_pol (f_ks f)) n0) as [x|]; [|discriminate]. cbn [bind] in E.
  destruct (get_xc g (e_lib w) (o_fam (k_opt (f_ks f))) (o_cid (k_opt (f_ks f))) (k_pol (f_ks f)) n0) as [c|]; [|discriminate]. cbn [bind] in E.
  destruct (v_hartree g (e_spL w) (e_spU w) (A2 (k_pol (f_ks f)) n0)) as [h|]; [|discriminate]. cbn [bind] in E. cbv zeta in E. injection E as <-. cbn. split; [|split]; eexists; reflexivity.
Qed.
Lemma guess_frag_total : forall g w o l f, (0 < Nelem g)%nat -> able g w (f_ks f) -> schedule (f_ks f) l -> ps_cont o = false ->
  exists f', guess_frag g w o l f = Ok f' /\ some (k_veff (f_ks f')) /\ all_solved (f_ks f').
Proof.
  intros g w o l f HN AB SC CO. pose proof AB as (A & B & C & D). unfold guess_frag. rewrite CO.
  set (ka := set_vhxc (set_vext (f_ks f) (Some (fun _ _ => 0))) (Some (fun _ _ => 0))).
  destruct (eff_pot_total ka (fun _ _ => 0) (fun _ _ => 0) eq_refl eq_refl) as (k1 & E1); [exact (proj2 C)|]. rewrite E1. cbn [bind].
  assert (F1 : frame (f_ks f) k1) by (eapply frame_trans; [|eapply frame_eff; exact E1]; unfold ka; eapply frame_trans; [apply frame_vext|apply frame_vhxc]).
  destruct (density_total g w (f_ks f) HN A C D k1 (ps_iter o) (Fin 0) l F1 (schedule_frame _ _ _ F1 SC)) as (k2 & n & DE & S). rewrite DE. cbn [bind fst snd].
  pose proof (density_frame _ _ _ _ _ _ _ _ DE) as F2.
  destruct (chempot_frag_total g w (f_ks f) (fk f (set_n k2 (Some n))) HN AB) as (f' & E').
  - cbn [fk f_ks]. eapply frame_trans; [exact F1|]. eapply frame_trans; [exact F2|apply frame_n].
  - exact S.
  - exists f'. split; auto. apply chempot_inv in E'. destruct E' as (_ & _ & _ & _ & u & ->). cbn [fk f_ks]. split; [|exact S]. cbn [set_u set_n k_veff].
    pose proof (density_inv _ _ _ _ _ _ _ _ DE) as (sol & n0 & -> & _). cbn [set_sol k_veff]. apply eff_pot in E1. destruct E1 as (a & b & _ & _ & E1 & _). rewrite E1. eexists. reflexivity.
Qed.
Lemma step_frag_total : forall g w o l dif vp f, (0 < Nelem g)%nat -> able g w (f_ks f) -> schedule (f_ks f) l -> some (k_n (f_ks f)) -> some (k_vext (f_ks f)) -> some (k_vhxc (f_ks f)) -> (ps_sdft o = true -> some (f_V f "vp"%string)) ->
  exists f', step_frag g w o l dif vp f = Ok f' /\ some (k_veff (f_ks f')) /\ some (k_vext (f_ks f')) /\ (o_int (k_opt (f_ks f)) <> "ni"%string -> some (V_eh (k_V (f_ks f'))) /\ some (V_ex (k_V (f_ks f'))) /\ some (V_ec (k_V (f_ks f')))) /\ all_solved (f_ks f').
Proof.
  intros g w o l dif vp f HN AB SC (n & N) (ve & V) (vh & X) SD. pose proof AB as (A & B & C & D). unfold step_frag.
  match goal with |- exists f', bind ?m _ = _ /\ _ => assert (Q : exists k0, m = Ok k0 /\ frame (f_ks f) k0 /\ k_n k0 = Some n /\ some (k_vext k0) /\ k_vhxc k0 = Some vh) end.
  { assert (Y : exists k0, (if ps_sdft o then do v <- attr (f_V f) "vp"; Ok (set_vext (f_ks f) (Some v)) else Ok (set_vext (f_ks f) (Some vp))) = Ok k0 /\ frame (f_ks f) k0 /\ k_n k0 = Some n /\ some (k_vext k0) /\ k_vhxc k0 = Some vh).
    { destruct (ps_sdft o); [destruct (SD eq_refl) as (v & Hv); unfold attr; rewrite Hv; cbn [have bind]|]; (eexists; split; [reflexivity|]; split; [apply frame_vext|]; split; [exact N|]; split; [eexists; reflexivity|exact X]). }
    destruct (f_frozen f) as [[|]|]; [|exact Y|exact Y]. exists (f_ks f). split; [reflexivity|]. split; [apply frame_refl|]. split; [exact N|]. split; [exists ve; exact V|exact X]. }
  destruct Q as (k0 & -> & F0 & N0 & (v0 & V0) & X0). cbn [bind]. pose proof F0 as (FO & _ & _ & FP & FL & FC & _).
  destruct (eff_pot_total k0 v0 vh V0 X0) as (k1 & E1); [lia|]. rewrite E1. cbn [bind]. pose proof (frame_trans _ _ _ F0 (frame_eff _ _ E1)) as F1.
  apply eff_pot in E1. destruct E1 as (a & b & P1 & P2 & P3 & _ & _ & P6 & P7 & P8 & _).
  destruct (density_total g w (f_ks f) HN A C D k1 (ps_iter o) dif l F1 (schedule_frame _ _ _ F1 SC)) as (k2 & nout & DE & S). rewrite DE. cbn [bind fst snd].
  pose proof (frame_trans _ _ _ F1 (density_frame _ _ _ _ _ _ _ _ DE)) as F2. apply density_inv in DE. destruct DE as (sol & n0 & K2 & _).
  destruct (chempot_frag_total g w (f_ks f) (fk f k2) HN AB F2 S) as (f1 & E'). rewrite E'. cbn [bind]. apply chempot_inv in E'. destruct E' as (_ & _ & _ & _ & u & E'). cbn [fk f_ks] in E'.
  assert (N1 : k_n (f_ks f1) = Some n) by (rewrite E', K2; cbn [set_u set_sol k_n]; congruence). rewrite N1. cbn [need bind]. cbv zeta.
  set (mix := fun x s => _). destruct (energy_total g w (f_ks f) HN B C D (set_n (f_ks f1) (Some mix))) as (k3 & E3).
  - eapply frame_trans; [exact F2|]. rewrite E'. eapply frame_trans; [apply frame_u|apply frame_n].
  - rewrite E'. exact S.
  - eexists; reflexivity.
  - exists v0. rewrite E', K2. cbn [set_n set_u set_sol k_vext]. congruence.
  - exists vh. rewrite E', K2. cbn [set_n set_u set_sol k_vhxc]. congruence.
  - rewrite E3. cbn [bind]. eexists. split; [reflexivity|]. cbn [fk f_ks]. pose proof (energy_keep _ _ _ _ E3) as (e & W & K3). split; [|split; [|split]].
    + rewrite K3, E', K2. cbn [set_EV set_n set_u set_sol k_veff]. rewrite P3. eexists; reflexivity.
    + exists v0. rewrite K3, E', K2. cbn [set_EV set_n set_u set_sol k_vext]. congruence.
    + intros NI. assert (NI' : o_int (k_opt (set_n (f_ks f1) (Some mix))) <> "ni"%string) by (rewrite E', K2; cbn [set_n set_u set_sol k_opt]; destruct F1 as (FO1 & _); rewrite FO1; exact NI).
      unfold ks_energy in E3. destruct (energy_loop g _) as [[[[aE aV] aT] ev]|]; [|discriminate]. cbn [bind] in E3.
      destruct (String.eqb_spec (o_int (k_opt (set_n (f_ks f1) (Some mix)))) "ni"); [contradiction|]. cbv zeta in E3.
      repeat match type of E3 with bind ?m _ = _ => let Y := fresh in destruct m as [?|] eqn:Y; [|discriminate]; cbn [bind] in E3 end.
      repeat match type of E3 with context [let '(_, _) := ?x in _] => destruct x end. injection E3 as <-. cbn. split; [|split]; eexists; reflexivity.
    + rewrite K3, E'. exact S.
Qed.

(** * The partition potential *)
Definition all_f (P : frag -> Prop) (p : part) : Prop := forall c, member (p_ens p) c -> exists f, p_f p c = Some f /\ P f.
Lemma all_run : forall (P P' : frag -> Prop) (h : comp -> part -> frag -> res frag) (body : comp -> part -> res part) p, ignores_f h ->
  (forall c q, body c q = (do f <- get_f q c; do f' <- h c q f; Ok (set_frag q c f'))) -> all_f P p ->
  (forall c f, P f -> exists f', h c p f = Ok f' /\ P' f') -> exists p', forL (comps (p_ens p)) body p = Ok p' /\ p' = with_f p (p_f p') /\ all_f P' p'.
Proof.
  intros P P' h body p I E A H. destruct (forL_run h body (comps (p_ens p)) p I (comps_nodup _) E) as (p' & R & W & M & _).
  - intros c Hc. apply in_comps in Hc. destruct (A c Hc) as (f & F & Pf). destruct (H c f Pf) as (f' & Q & _). eauto.
  - exists p'. split; auto. split; auto. intros c Hc. rewrite W in Hc. cbn [with_f p_ens] in Hc. destruct (A c Hc) as (f0 & F0 & P0). apply in_comps in Hc. destruct (M c Hc) as (f & f' & M1 & M2 & M3).
    rewrite F0 in M1. injection M1 as <-. destruct (H c f0 P0) as (f1 & H1 & H2). rewrite M2 in H1. injection H1 as <-. eauto.
Qed.
Lemma all_mono : forall (P P' : frag -> Prop) p, all_f P p -> (forall f, P f -> P' f) -> all_f P' p.
Proof. intros P P' p A H c Hc. destruct (A c Hc) as (f & F & X). eauto. Qed.
(** Density, Q function, with [dft] the fragment's own potentials, with [kt] the kinetic energy, and the attributes [l]. *)
Definition fgood (dft kt : bool) (l : list string) (f : frag) : Prop := some (k_n (f_ks f)) /\ some (f_Q f) /\
  (dft = true -> some (V_vh (k_V (f_ks f))) /\ some (V_vx (k_V (f_ks f))) /\ some (V_vc (k_V (f_ks f)))) /\ (kt = true -> some (f_VTs f)) /\ forall nm, In nm l -> some (f_V f nm).
Lemma fV_some : forall f k x nm, some (f_V f nm) -> some (f_V (fV f k x) nm).
Proof. intros f k x nm H. destruct (string_dec nm k) as [->|N]; [rewrite fV_same; eexists; reflexivity|rewrite fV_other by auto; auto]. Qed.
Lemma fgood_V : forall dft kt l f k x, fgood dft kt l f -> fgood dft kt (k :: l) (fV f k x).
Proof.
  intros dft kt l f k x (A & B & C & D & E). split; [exact A|]. split; [exact B|]. split; [exact C|]. split; [exact D|]. intros nm [<-|H]; [rewrite fV_same; eexists; reflexivity|apply fV_some; auto].
Qed.
Lemma fgood_vt : forall dft kt l f x, fgood dft kt l f -> fgood dft kt l (fvt f x). Proof. intros dft kt l f x H. exact H. Qed.
Lemma fgood_sub : forall dft kt l l' f, fgood dft kt l f -> (forall nm, In nm l' -> In nm l) -> fgood dft kt l' f.
Proof. intros dft kt l l' f (A & B & C & D & E) H. repeat (split; [assumption|]). auto. Qed.

(** The kinetic functional and, for interaction_type dft, Hartree, exchange and correlation can be evaluated. *)
Definition kin_available (g : grid) (w : penv) (p : part) : Prop := po_kin (p_opt p) = "none"%string \/
  (po_kin (p_opt p) = "inversion"%string /\ po_ab (p_opt p) = false /\ po_ess (p_opt p) = false /\ lsq_answers (pe_inv w)) \/
  (po_kin (p_opt p) = "libxcke"%string /\ forall n, exists x, get_xc g (e_lib (pe_env w)) (po_kfam (p_opt p)) (po_kid (p_opt p)) (p_pol p) n = Ok x).
Definition int_available (g : grid) (w : penv) (p : part) : Prop := (po_int (p_opt p) = "ni"%string /\ po_hxc (p_opt p) = "exact"%string) \/
  (po_int (p_opt p) = "dft"%string /\ (po_hxc (p_opt p) = "exact"%string \/ po_hxc (p_opt p) = "hartree"%string) /\
   (forall n, exists x c vh, get_xc g (e_lib (pe_env w)) (po_fam (p_opt p)) (po_xid (p_opt p)) (p_pol p) n = Ok x /\ get_xc g (e_lib (pe_env w)) (po_fam (p_opt p)) (po_cid (p_opt p)) (p_pol p) n = Ok c /\
      v_hartree g (e_spL (pe_env w)) (e_spU (pe_env w)) (A2 (p_pol p) n) = Ok vh) /\
   (forall n, exists vh, v_hartree g (e_spL (pe_env w)) (e_spU (pe_env w)) (A1 n) = Ok vh)).
(** Settings under which the potential and the energies of interacting fragments can be evaluated. *)
Definition workable (g : grid) (w : penv) (p : part) : Prop := po_iso (p_opt p) = true \/
  (po_vp (p_opt p) = "component"%string /\ kin_available g w p /\ int_available g w p).
Definition dftb (p : part) : bool := String.eqb (po_int (p_opt p)) "dft".
Definition ktb (p : part) : bool := String.eqb (po_kin (p_opt p)) "libxcke".
Definition fin_mat (f : nmat) : Prop := forall k s, is_fin (f k s) = true.

Lemma nuclear_total_ok : forall p dft kt, all_f (fgood dft kt []) p -> some (p_V p "vext"%string) -> exists p', vp_nuclear p = Ok p' /\ p' = with_f p (p_f p') /\ all_f (fgood dft kt ["vp_pot"]%string) p'.
Proof.
  intros p dft kt A (v & V). unfold vp_nuclear.
  apply (all_run (fgood dft kt []) (fgood dft kt ["vp_pot"]%string) (fun c q f => do v <- attr (p_V q) "vext"; Ok (fV f "vp_pot" (fun k s => v k s - k_vnuc (f_ks f) k s)))).
  - intros ? ? ? ?. reflexivity.
  - intros c q. destruct (get_f q c); cbn [bind]; auto. destruct (attr (p_V q) "vext"); reflexivity.
  - exact A.
  - intros c f H. unfold attr. rewrite V. cbn [have bind]. eexists. split; [reflexivity|]. apply fgood_V. exact H.
Qed.
(** after the first half of vp_kinetic *)
Definition kin_ready (dft kt : bool) (l : list string) (f : frag) : Prop := fgood dft kt l f /\ exists vf, f_vt f = Some vf /\ fin_mat vf.
Lemma finish_total : forall g p dft kt l d v, po_kin (p_opt p) <> "twoorbital"%string -> po_kin (p_opt p) <> "fixed"%string -> all_f (kin_ready dft kt l) p -> p_vt p = Some (d, v) -> bdim d (p_pol p) = Some (p_pol p) -> fin_mat v ->
  exists p', vpk_finish g p = Ok p' /\ p' = with_f p (p_f p') /\ all_f (fgood dft kt ("vp_kin" :: l)%string) p'.
Proof.
  intros g p dft kt l d v K1 K2 A V BD FV. unfold vpk_finish.
  apply String.eqb_neq in K1, K2. rewrite K1, K2.
  set (h := fun (c : comp) (q : part) (f : frag) => do v <- have (p_vt q); do vf <- have (f_vt f);
      match bdim (fst v) (p_pol q) with
      | Some d => if negb (d =? p_pol q)%nat then Err ValueError else
          do x <- finite (Nelem g) (p_pol q) (fun k s => no_nan (nsub (snd v k (bix (fst v) s)) (vf k s)));
          Ok (fV f "vp_kin" x)
      | None => Err ValueError
      end).
  apply (all_run (kin_ready dft kt l) (fgood dft kt ("vp_kin" :: l)%string) h).
  - intros ? ? ? ?. reflexivity.
  - intros c q. unfold h. destruct (get_f q c) as [f|]; cbn [bind]; auto. destruct (have (p_vt q)) as [u|]; cbn [bind]; auto. destruct (have (f_vt f)) as [vf|]; cbn [bind]; auto. destruct (bdim (fst u) (p_pol q)) as [dd|]; auto.
    destruct (negb (dd =? p_pol q)%nat); auto. destruct (finite _ _ _); reflexivity.
  - exact A.
  - intros c f (G & vf & E & FF). unfold h. rewrite V, E. cbn [have bind fst snd]. rewrite BD, Nat.eqb_refl. cbn [negb].
    destruct (finite_total (Nelem g) (p_pol p) (fun k s => no_nan (nsub (v k (bix d s)) (vf k s)))) as (x & ->).
    + intros k s. specialize (FV k (bix d s)). specialize (FF k s). destruct (v k (bix d s)); try discriminate. destruct (vf k s); try discriminate. reflexivity.
    + cbn [bind]. eexists. split; [reflexivity|]. apply fgood_V. exact G.
Qed.
Lemma nuc_frame : forall p p', p' = with_f p (p_f p') -> p_nf p' = p_nf p /\ p_opt p' = p_opt p /\ p_pol p' = p_pol p /\ p_ens p' = p_ens p /\ p_x p' = p_x p /\ p_c p' = p_c p /\ p_k p' = p_k p /\ p_V p' = p_V p.
Proof. intros p p' ->. repeat split. Qed.
(** ** The inversion *)
(** What the inversion needs of a component: [lv] levels, one column per spin, solved solvers, an effective potential. *)
Definition finv (pol lv : nat) (k : ks) : Prop := k_lv k = lv /\ k_cols k = pol /\ all_solved k /\ (forall i j, place k i j -> whole (k_sol k i j)) /\ some (k_veff k).
(** The inverter can run and has L solvers. *)
Section Inverting.
Variable Lv : nat.
Definition sized (E : invenv) (iv : inverter) : Prop := inv_ready E iv /\ i_lv iv = Lv.
Lemma sized_same : forall E iv iv', sized E iv -> same_inv iv iv' -> sized E iv'.
Proof. intros E iv iv' (A & B) S. split; [eapply ready_same; eauto|]. destruct S as (S & _). congruence. Qed.
Definition inv_live (w : penv) (p : part) : Prop := inverting p = true -> exists iv, p_inv p = Some iv /\ sized (pe_inv w) iv.
Definition inv_frags (p : part) : Prop := inverting p = true -> exists lv, all_f (fun f => finv (p_pol p) lv (f_ks f)) p.
(** After the inversion. *)
Definition inv_done (w : penv) (p : part) : Prop := inverting p = true -> exists iv o inf, p_inv p = Some iv /\ sized (pe_inv w) iv /\ inv_solved iv /\
  p_info p = Some (OArr (i_lv iv) 1 o) /\ (forall i, o i 0%nat = Some inf) /\ answer (pe_inv w) inf.
Lemma done_live : forall w p, inv_done w p -> inv_live w p.
Proof. intros w p H I. destruct (H I) as (iv & o & inf & H1 & H2 & _). eauto. Qed.
Lemma forN_ex : forall (S : Type) n (f : nat -> S -> res S) s, (forall i x, (i < n)%nat -> exists y, f i x = Ok y) -> exists y, forN n f s = Ok y.
Proof. intros S n f s H. destruct (forN_total S (fun _ _ => True) n f s Logic.I) as (y & E & _); eauto. intros i x Hi _. destruct (H i x Hi) as (y & E). eauto. Qed.
Lemma chem_all_total : forall p pol lv, all_f (fun f => k_lv (f_ks f) = lv /\ k_cols (f_ks f) = pol) p -> exists u, inv_chempot p = Ok u.
Proof.
  intros p pol lv A. assert (L : forall fa fb ub ua, k_lv (f_ks fb) = k_lv (f_ks fa) /\ k_cols (f_ks fb) = k_cols (f_ks fa) -> exists u, chem_loop fa fb ub ua = Ok u).
  { intros fa fb ub ua (S1 & S2). unfold chem_loop. apply (forN_ex _ _ _ _). intros i u Hi. apply (forN_ex _ _ _ _). intros j u' Hj. unfold chem_step, sol_at. rewrite S1, S2.
    replace (i <? k_lv (f_ks fa))%nat with true by (symmetry; apply Nat.ltb_lt; exact Hi). replace (j <? k_cols (f_ks fa))%nat with true by (symmetry; apply Nat.ltb_lt; exact Hj). cbn [andb bind]. eauto. }
  destruct (A Ca Logic.I) as (fa & Fa & A1 & A2). destruct (A Cb Logic.I) as (fb & Fb & B1 & B2).
  unfold inv_chempot, get_f. rewrite Fa, Fb. cbn [have bind]. destruct (L fa fb (- 1 / feps) (- 1 / feps)) as (u1 & ->); [split; congruence|]. cbn [bind].
  destruct (p_ens p) eqn:E; [|cbn [bind]; eauto]. destruct (A CA) as (fA & FA & A3 & A4); [rewrite E; reflexivity|]. destruct (A CB) as (fB & FB & B3 & B4); [rewrite E; reflexivity|]. rewrite FA, FB. cbn [have bind].
  destruct (L fA fB (- 1 / feps) u1) as (u2 & ->); [split; congruence|]. cbn [bind]. eauto.
Qed.
Lemma column_total : forall c (f : mat) j, (j < c)%nat -> exists v, column c f j = Ok v.
Proof. intros c f j H. unfold column. apply Nat.ltb_lt in H. rewrite H. eauto. Qed.
Lemma sol_at_total : forall f i j, place (f_ks f) i j -> sol_at f i j = Ok (k_sol (f_ks f) i j).
Proof. intros f i j (A & B). unfold sol_at. apply Nat.ltb_lt in A, B. rewrite A, B. reflexivity. Qed.
Lemma sol_phi_total : forall f i j, place (f_ks f) i j -> all_solved (f_ks f) -> exists l, sol_phi f i j = Ok l.
Proof. intros f i j P S. unfold sol_phi. rewrite sol_at_total by exact P. cbn [bind]. destruct (S i j P) as (_ & c & e & ph & -> & _). eauto. Qed.
Lemma guess_total : forall g w spin p lv, po_ab (p_opt p) = false -> po_ess (p_opt p) = false -> (spin < p_pol p)%nat -> all_f (fun f => finv (p_pol p) lv (f_ks f) /\ some (f_Q f)) p ->
  exists r, initialguessinvert g w spin p = Ok r.
Proof.
  intros g w spin p lv AB ES HS A. unfold initialguessinvert.
  assert (M : forall c, In c (comps_ab p) -> member (p_ens p) c) by (intros c Hc; apply in_comps_ab in Hc; apply Hc).
  assert (V : exists v0, guess_v0 g spin p = Ok v0).
  { unfold guess_v0. rewrite ES, AB.
    match goal with |- context [forL ?l ?h ?s] => destruct (forL_inv_total _ _ (fun _ => True) l h s Logic.I) as (b & -> & _) end; [|cbn [bind]; eauto].
    intros c s Hc _. destruct (A c (M c Hc)) as (f & F & (_ & _ & _ & _ & (ve & VE)) & (q & HQ)). unfold get_f. rewrite F. cbn [have bind]. rewrite VE. cbn [need bind].
    destruct (column_total (p_pol p) ve spin HS) as (cv & ->). cbn [bind]. unfold Qcol. rewrite HQ. destruct (column_total (p_pol p) q spin HS) as (cq & ->). cbn [bind]. eauto. }
  destruct V as (v0 & ->). cbn [bind].
  match goal with |- context [forL ?l ?h ?s] => destruct (forL_inv_total _ _ (fun m => (m <= lv)%nat) l h s) as (Nsol & -> & HN) end.
  { lia. }
  { intros c m Hc Hm. destruct (A c (M c Hc)) as (f & F & (K1 & K2 & _) & _). unfold get_f. rewrite F. cbn [have bind]. rewrite K1, K2. destruct (Nat.ltb_spec spin (p_pol p)); [|lia]. eexists. split; [reflexivity|lia]. }
  cbn [bind].
  match goal with |- context [forN ?n ?h ?s] => destruct (forN_ex _ n h s) as (r & ->); [|cbn [bind]; eauto] end.
  intros i acc Hi. assert (Q : exists b, guess_basis spin i p = Ok b); [|destruct Q as (b & ->); cbn [bind]; destruct (guess_level g w (po_ess (p_opt p)) v0 b); eauto].
  assert (P : forall c, member (p_ens p) c -> exists f l, p_f p c = Some f /\ sol_phi f i spin = Ok l /\ sol_at f i spin = Ok (k_sol (f_ks f) i spin)).
  { intros c Hc. destruct (A c Hc) as (f & F & (K1 & K2 & K3 & _) & _). assert (PL : place (f_ks f) i spin) by (split; lia). destruct (sol_phi_total f i spin PL K3) as (l & L). exists f, l. split; auto. split; auto. apply sol_at_total. exact PL. }
  destruct (P Ca Logic.I) as (fa & la & Fa & La & Sa). destruct (P Cb Logic.I) as (fb & lb & Fb & Lb & Sb).
  unfold guess_basis, get_f. rewrite Fa, Fb, AB. cbn [have bind]. rewrite La, Sa, Sb. cbn [bind].
  destruct (p_ens p) eqn:E; [|cbn [bind]; rewrite Lb; cbn [bind]; eauto].
  destruct (P CA eq_refl) as (fA & lA & FA & LA & SA). destruct (P CB eq_refl) as (fB & lB & FB & LB & SB). rewrite FA, FB. cbn [have bind]. rewrite LA, SA. cbn [bind]. rewrite Lb. cbn [bind]. rewrite LB. cbn [bind]. eauto.
Qed.
Lemma bdim_one : forall n, bdim 1 n = Some n. Proof. intros n. unfold bdim. destruct (Nat.eqb_spec 1 n) as [<-|]; reflexivity. Qed.
Lemma inversion_total : forall g w p dft l, po_kin (p_opt p) = "inversion"%string -> po_ab (p_opt p) = false -> po_ess (p_opt p) = false -> po_iso (p_opt p) = false -> lsq_answers (pe_inv w) -> (1 <= p_pol p)%nat ->
  all_f (fgood dft false l) p -> some (p_nf p) -> inv_live w p -> inv_frags p ->
  exists p1 v, vpk_inversion g w p = Ok p1 /\ all_f (kin_ready dft false l) p1 /\ p_vt p1 = Some (1%nat, v) /\ fin_mat v /\ inv_done w p1 /\ p_pol p1 = p_pol p /\ p_opt p1 = p_opt p.
Proof.
  intros g w p dft l K AB ES IS LC HP A (nf & NF) LV FR. assert (IV : inverting p = true) by (unfold inverting; rewrite K, IS; reflexivity).
  destruct (LV IV) as (iv & HI & RD). destruct (FR IV) as (lv & FI). unfold vpk_inversion.
  destruct (chem_all_total p (p_pol p) lv) as (u & ->); [eapply all_mono; [exact FI|]; intros f (X & Y & _); auto|]. cbn [bind].
  assert (AF : all_f (fun f => fgood dft false l f /\ finv (p_pol p) lv (f_ks f)) p).
  { intros c Hc. destruct (A c Hc) as (f & F & G). destruct (FI c Hc) as (f' & F' & G'). rewrite F in F'. injection F' as <-. eauto. }
  destruct (all_run (fun f => fgood dft false l f /\ finv (p_pol p) lv (f_ks f)) (fun f => kin_ready dft false l f /\ finv (p_pol p) lv (f_ks f)) (fun c q f => do v <- have (k_veff (f_ks f)); Ok (fvt f (fun k s => Fin (u - v k s))))
    (fun c p => do f <- get_f p c; do v <- have (k_veff (f_ks f)); Ok (set_frag p c (fvt f (fun k s => Fin (u - v k s))))) p) as (p1 & E1 & W1 & A1).
  { intros ? ? ? ?. reflexivity. } { intros c q. destruct (get_f q c) as [f|]; cbn [bind]; auto. destruct (have (k_veff (f_ks f))); reflexivity. } { exact AF. }
  { intros c f (G & I). pose proof I as (_ & _ & _ & _ & (v & ->)). cbn [have bind]. eexists. split; [reflexivity|]. split; [|exact I]. split; [exact G|]. eexists. split; [reflexivity|]. intros k s. reflexivity. }
  rewrite E1. cbn [bind]. rewrite ES. destruct (nuc_frame _ _ W1) as (N1 & O1 & P1 & En1 & _).
  assert (I1 : p_inv p1 = Some iv) by (rewrite W1; exact HI).
  destruct (forN_total part (fun i q => p_opt q = p_opt p /\ p_pol q = p_pol p /\ p_ens q = p_ens p /\ p_nf q = p_nf p /\ p_f q = p_f p1 /\
      exists jv, p_inv q = Some jv /\ sized (pe_inv w) jv /\ ((0 < i)%nat -> exists o inf us vs, inv_solved jv /\ p_info q = Some (OArr (i_lv jv) 1 o) /\ (forall i, o i 0%nat = Some inf) /\ answer (pe_inv w) inf /\ i_us jv = Some (U2 1 1 us) /\ i_vs jv = Some (A2 1 vs)))
    (p_pol p) (fun spin p => inv_spin g w spin p) p1) as (p2 & E2 & O2 & P2 & En2 & N2 & F2 & jv & J1 & J2 & J3).
  { repeat (split; [assumption || reflexivity|]). exists iv. split; auto. split; auto. intros X. lia. }
  { intros i q Hi (Q1 & Q2 & Q3 & Q4 & Q5 & jv & Q6 & Q7 & _). unfold inv_spin. rewrite Q4, NF. cbn [have bind]. rewrite Q2. destruct (column_total (p_pol p) nf i Hi) as (c & ->). cbn [bind]. cbv zeta.
    destruct (guess_total g w i q lv) as ([[ph e] v0] & ->); [congruence|congruence|lia| |].
    { rewrite Q2. intros c0 Hc. rewrite Q5. rewrite Q3, <- En1 in Hc. destruct (A1 c0 Hc) as (f & F & ((_ & B & _) & _) & I). exists f. auto. }
    cbn [bind]. rewrite Q6. cbn [have bind].
    match goal with |- context [invert g (pe_inv w) (GridModel.A1 ?n) (Some (A2 1 ?v)) ?a ?b i jv] => destruct (wuyang_total g (pe_inv w) n v a b i jv (proj1 Q7) LC) as (kv & inf & o & us & vs & -> & O & OP & SI & SO & US & VS) end.
    cbn [bind fst snd]. eexists. split; [reflexivity|]. cbn [set_info set_inv p_opt p_pol p_ens p_nf p_f p_inv p_info]. do 5 (split; [congruence|]). exists kv. split; auto. split; [eapply sized_same; eauto|].
    intros _. exists o, inf, us, vs. split; auto. split; [do 2 f_equal; symmetry; apply SI|]. auto. }
  rewrite E2. cbn [bind]. rewrite J1. cbn [have bind]. destruct (J3 ltac:(lia)) as (o & inf & us & vs & S1 & S2 & S3 & S4 & S5 & S6). destruct (vt_total g jv us vs S5 S6) as (r & t & ->). cbn [bind].
  eexists _, _. split; [reflexivity|]. cbn [set_vt set_inv p_vt p_pol p_opt]. split; [|split; [reflexivity|split; [intros k s; reflexivity|split; [|auto]]]].
  - intros c Hc. cbn [set_vt set_inv p_ens p_f] in *. rewrite F2. rewrite En2, <- En1 in Hc. destruct (A1 c Hc) as (f & F & X & _). eauto.
  - intros _. exists jv, o, inf. split; [reflexivity|]. do 2 (split; [assumption|]). split; [exact S2|]. auto.
Qed.
Lemma not_inverting : forall w p p', po_kin (p_opt p) <> "inversion"%string -> p_opt p' = p_opt p -> inv_done w p'.
Proof. intros w p p' K O I. unfold inverting in I. rewrite O in I. apply String.eqb_neq in K. rewrite K in I. discriminate. Qed.
Lemma kinetic_total : forall g w p dft, all_f (fgood dft false ["vp_pot"]%string) p -> kin_available g w p -> some (p_nf p) -> po_iso (p_opt p) = false -> (1 <= p_pol p)%nat -> inv_live w p -> inv_frags p ->
  exists p', vp_kinetic g w p = Ok p' /\ all_f (fgood dft (ktb p) ("vp_kin" :: "vp_pot" :: (if ktb p then ["ts"] else []))%string) p' /\ (ktb p = true -> some (p_k p')) /\ inv_done w p'.
Proof.
  intros g w p dft A K NF0 IS HP LV FR. pose proof NF0 as (nf & NF). unfold vp_kinetic, ktb. cbv zeta. destruct K as [K|[(K & AB & ES & LC)|(K & KX)]]; rewrite K.
  - cbn -[vpk_none vpk_finish]. unfold vpk_none. rewrite NF. cbn [have bind].
    destruct (all_run (fgood dft false ["vp_pot"]%string) (kin_ready dft false ["vp_pot"]%string) (fun c q f => do n <- need (k_n (f_ks f)); Ok (fvt f (fun _ _ => Fin 0)))
      (fun c p => do f <- get_f p c; do n <- need (k_n (f_ks f)); Ok (set_frag p c (fvt f (fun _ _ => Fin 0)))) (set_vt p (p_pol p) (fun _ _ => Fin 0))) as (p1 & E1 & W1 & A1).
    + intros ? ? ? ?. reflexivity.
    + intros c q. destruct (get_f q c) as [f|]; cbn [bind]; auto. destruct (need (k_n (f_ks f))); reflexivity.
    + exact A.
    + intros c f H. destruct (need_total _ _ (proj1 H)) as (n & ->). cbn [bind]. eexists. split; [reflexivity|]. split; [exact H|]. eexists. split; [reflexivity|]. intros k s. reflexivity.
    + change (p_ens (set_vt p (p_pol p) (fun _ _ => Fin 0))) with (p_ens p) in E1. rewrite E1. cbn [bind].
      destruct (finish_total g p1 dft false ["vp_pot"]%string (p_pol p) (fun _ _ => Fin 0)) as (p2 & E2 & W2 & A2); [rewrite W1; cbn [set_vt with_f p_opt]; rewrite K; discriminate|rewrite W1; cbn [set_vt with_f p_opt]; rewrite K; discriminate|exact A1|rewrite W1; reflexivity|rewrite W1; apply bdim_same|intros ? ?; reflexivity|].
      exists p2. split; [exact E2|]. split; [exact A2|]. split; [discriminate|]. apply (not_inverting w p); [rewrite K; discriminate|rewrite W2, W1; reflexivity].
  - cbn -[vpk_inversion vpk_finish]. destruct (inversion_total g w p dft ["vp_pot"]%string K AB ES IS LC HP A NF0 LV FR) as (p1 & v & -> & A1 & V1 & F1 & D1 & P1 & O1). cbn [bind].
    destruct (finish_total g p1 dft false ["vp_pot"]%string 1 v) as (p2 & E2 & W2 & A2); [rewrite O1, K; discriminate|rewrite O1, K; discriminate|exact A1|exact V1|apply bdim_one|exact F1|].
    exists p2. split; [exact E2|]. split; [exact A2|]. split; [discriminate|]. rewrite W2. exact D1.
  - cbn -[vpk_libxc vpk_finish]. unfold vpk_libxc. cbv zeta. rewrite NF. cbn [have bind]. destruct (KX nf) as ([[T t] v] & ->). cbn [bind].
    set (q0 := set_vt (set_kin p (T, t)) (p_pol p) (fun k s => Fin (v k s))).
    set (h := fun (c : comp) (q : part) (f : frag) => do n <- need (k_n (f_ks f)); do x <- get_xc g (e_lib (pe_env w)) (po_kfam (p_opt p)) (po_kid (p_opt p)) (p_pol p) n; let '(T, t, v) := x in Ok (fvt (fV (fTs f T) "ts" (fun k _ => t k)) (fun k s => Fin (v k s)))).
    destruct (all_run (fgood dft false ["vp_pot"]%string) (kin_ready dft true ["vp_pot"; "ts"]%string) h
      (fun c p0 => do f <- get_f p0 c; do n <- need (k_n (f_ks f)); do x <- get_xc g (e_lib (pe_env w)) (po_kfam (p_opt p)) (po_kid (p_opt p)) (p_pol p) n; let '(T, t, v) := x in Ok (set_frag p0 c (fvt (fV (fTs f T) "ts" (fun k _ => t k)) (fun k s => Fin (v k s))))) q0) as (p1 & E1 & W1 & A1).
    + intros ? ? ? ?. reflexivity.
    + intros c q. unfold h. destruct (get_f q c) as [f|]; cbn [bind]; auto. destruct (need (k_n (f_ks f))) as [n|]; cbn [bind]; auto. destruct (get_xc _ _ _ _ _ n) as [[[T' t'] v']|]; reflexivity.
    + exact A.
    + intros c f H. unfold h. destruct (need_total _ _ (proj1 H)) as (n & ->). cbn [bind]. destruct (KX n) as ([[T' t'] v'] & ->). cbn [bind]. eexists. split; [reflexivity|].
      assert (G : fgood dft true ["ts"; "vp_pot"]%string (fvt (fV (fTs f T') "ts" (fun k _ => t' k)) (fun k s => Fin (v' k s)))).
      { apply fgood_vt, fgood_V. destruct H as (H1 & H2 & H3 & H4 & H5). split; [exact H1|]. split; [exact H2|]. split; [exact H3|]. split; [intros _; eexists; reflexivity|exact H5]. }
      split; [eapply fgood_sub; [exact G|simpl; tauto]|]. eexists. split; [reflexivity|]. intros k s. reflexivity.
    + change (p_ens q0) with (p_ens p) in E1. rewrite E1. cbn [bind].
      destruct (finish_total g p1 dft true ["vp_pot"; "ts"]%string (p_pol p) (fun k s => Fin (v k s))) as (p2 & E2 & W2 & A2); [rewrite W1; unfold q0; cbn [set_vt set_kin with_f p_opt]; rewrite K; discriminate|rewrite W1; unfold q0; cbn [set_vt set_kin with_f p_opt]; rewrite K; discriminate|exact A1|rewrite W1; reflexivity|rewrite W1; apply bdim_same|intros ? ?; reflexivity|].
      exists p2. split; [exact E2|]. split; [exact A2|]. split; [intros _; rewrite W2, W1; eexists; reflexivity|]. apply (not_inverting w p); [rewrite K; discriminate|rewrite W2, W1; reflexivity].
Qed.
Lemma put_total : forall dft kt l p (h : frag -> mat -> mat -> mat -> res mat), (forall f a b d, exists v, h f a b d = Ok v) -> all_f (fgood dft kt l) p -> In "vp_h"%string l -> In "vp_x"%string l -> In "vp_c"%string l ->
  exists p', put_hxc h p = Ok p' /\ p' = with_f p (p_f p') /\ all_f (fgood dft kt ("vp_hxc" :: l)%string) p'.
Proof.
  intros dft kt l p h HH A I1 I2 I3. unfold put_hxc.
  apply (all_run (fgood dft kt l) (fgood dft kt ("vp_hxc" :: l)%string) (fun c q f => do a <- attr (f_V f) "vp_h"; do b <- attr (f_V f) "vp_x"; do d <- attr (f_V f) "vp_c"; do v <- h f a b d; Ok (fV f "vp_hxc" v))).
  - intros ? ? ? ?. reflexivity.
  - intros c q. destruct (get_f q c) as [f|]; cbn [bind]; auto. destruct (attr (f_V f) "vp_h"); cbn [bind]; auto. destruct (attr (f_V f) "vp_x"); cbn [bind]; auto. destruct (attr (f_V f) "vp_c"); cbn [bind]; auto. destruct (h _ _ _ _); reflexivity.
  - exact A.
  - intros c f G. pose proof G as (_ & _ & _ & _ & G5). destruct (G5 _ I1) as (a & Ea). destruct (G5 _ I2) as (b & Eb). destruct (G5 _ I3) as (d & Ed). unfold attr. rewrite Ea, Eb, Ed. cbn [have bind].
    destruct (HH f a b d) as (v & ->). cbn [bind]. eexists. split; [reflexivity|]. apply fgood_V. exact G.
Qed.
Definition hnames (l : list string) : list string := ("vp_c" :: "vp_x" :: "vp_h" :: l)%string.
(** Parts of the partition that only the kinetic terms touch. *)
Notation kk p := (p_k p, p_inv p, p_info p) (only parsing).
Lemma parts_total : forall g w p kt l, all_f (fgood (dftb p) kt l) p -> int_available g w p -> some (p_nf p) ->
  exists p', vp_hxc_parts g (pe_env w) p = Ok p' /\ all_f (fgood (dftb p) kt (hnames l)) p' /\ (dftb p = true -> some (p_x p') /\ some (p_c p')) /\ kk p' = kk p.
Proof.
  intros g w p kt l A IA (nf & NF). unfold vp_hxc_parts. cbv zeta. destruct IA as [(I & X)|(I & X & AV & _)].
  - unfold dftb in *. rewrite I, X in *. cbn -[forL] in *. destruct (all_run (fgood false kt l) (fgood false kt (hnames l)) (fun c q f => do _ <- have (p_nf q); Ok (fV (fV (fV f "vp_h" (fun _ _ => 0)) "vp_x" (fun _ _ => 0)) "vp_c" (fun _ _ => 0)))
      (fun c p => do f <- get_f p c; do _ <- have (p_nf p); Ok (set_frag p c (fV (fV (fV f "vp_h" (fun _ _ => 0)) "vp_x" (fun _ _ => 0)) "vp_c" (fun _ _ => 0)))) p) as (p1 & E1 & W1 & A1).
    + intros ? ? ? ?. reflexivity.
    + intros c q. destruct (get_f q c); cbn [bind]; auto. destruct (have (p_nf q)); reflexivity.
    + exact A.
    + intros c f G. rewrite NF. cbn [have bind]. eexists. split; [reflexivity|]. unfold hnames. do 3 apply fgood_V. exact G.
    + exists p1. split; [exact E1|]. split; [exact A1|]. split; [discriminate|]. rewrite W1. reflexivity.
  - unfold dftb in *. rewrite I in *. replace (String.eqb (po_hxc (p_opt p)) "exact" && String.eqb "dft" "ni")%bool with false by (rewrite andb_false_r; reflexivity). cbn -[forL] in *.
    rewrite NF. cbn [have bind]. destruct (AV nf) as ([[ex epx] vx] & [[ec epc] vc] & vh & -> & -> & ->). cbn [bind].
    set (q0 := set_xc _ _ _).
    destruct (all_run (fgood true kt l) (fgood true kt (hnames l)) (fun c q f => let V := k_V (f_ks f) in do fh <- have (V_vh V); do fx <- have (V_vx V); do fc <- have (V_vc V);
        let h := msub (arr_fun vh) fh in let x := msub vx fx in let c1 := msub vc fc in Ok (fV (fV (fV (fV f "vp_h" h) "vp_x" x) "vp_c" c1) "vp_hxc" (add3 h x c1)))
      (fun c p => do f <- get_f p c; let V := k_V (f_ks f) in do fh <- have (V_vh V); do fx <- have (V_vx V); do fc <- have (V_vc V);
        let h := msub (arr_fun vh) fh in let x := msub vx fx in let c1 := msub vc fc in Ok (set_frag p c (fV (fV (fV (fV f "vp_h" h) "vp_x" x) "vp_c" c1) "vp_hxc" (add3 h x c1)))) q0) as (p1 & E1 & W1 & A1).
    + intros ? ? ? ?. reflexivity.
    + intros c q. destruct (get_f q c) as [f|]; cbn [bind]; auto. cbv zeta. destruct (have (V_vh _)); cbn [bind]; auto. destruct (have (V_vx _)); cbn [bind]; auto. destruct (have (V_vc _)); reflexivity.
    + exact A.
    + intros c f G. pose proof G as (_ & _ & G3 & _). destruct (G3 eq_refl) as ((a & Ea) & (b & Eb) & (d & Ed)). cbv zeta. rewrite Ea, Eb, Ed. cbn [have bind]. eexists. split; [reflexivity|].
      eapply (fgood_sub _ _ ("vp_hxc" :: hnames l)%string); [|intros nm Hn; right; exact Hn]. unfold hnames. do 4 apply fgood_V. exact G.
    + exists p1. split; [exact E1|]. split; [exact A1|]. split; [|rewrite W1; reflexivity]. intros _. rewrite W1. split; eexists; reflexivity.
Qed.
Lemma hxc_pot_total : forall g w p kt l, all_f (fgood (dftb p) kt l) p -> int_available g w p -> some (p_nf p) ->
  exists p', vp_hxc g (pe_env w) p = Ok p' /\ all_f (fgood (dftb p) kt ("vp_hxc" :: hnames l)%string) p' /\ (dftb p = true -> some (p_x p') /\ some (p_c p')) /\ kk p' = kk p.
Proof.
  intros g w p kt l A IA NF. unfold vp_hxc. destruct (parts_total g w p kt l A IA NF) as (p1 & E1 & A1 & X1 & K1). rewrite E1. cbn [bind]. cbv zeta.
  assert (H : po_hxc (p_opt p) = "exact"%string \/ po_hxc (p_opt p) = "hartree"%string) by (destruct IA as [(_ & H)|(_ & H & _)]; auto).
  replace (String.eqb (po_hxc (p_opt p)) "overlap_xc" || String.eqb (po_hxc (p_opt p)) "overlap_hxc")%bool with false by (destruct H as [-> | ->]; reflexivity). cbn [bind].
  assert (Q : forall h, (forall f a b d, exists v, h f a b d = Ok v) -> exists p', put_hxc h p1 = Ok p' /\ all_f (fgood (dftb p) kt ("vp_hxc" :: hnames l)%string) p' /\ (dftb p = true -> some (p_x p') /\ some (p_c p')) /\ kk p' = kk p).
  { intros h Hh. destruct (put_total _ _ _ p1 h Hh A1) as (p2 & E2 & W2 & A2); [unfold hnames; simpl; auto|unfold hnames; simpl; auto|unfold hnames; simpl; auto|]. exists p2. split; [exact E2|]. split; [exact A2|]. rewrite W2. split; [exact X1|exact K1]. }
  destruct H as [-> | ->]; cbn -[put_hxc hnames]; apply Q; intros; eexists; reflexivity.
Qed.
Lemma accum_total : forall dft kt l c p, all_f (fgood dft kt l) p -> member (p_ens p) c -> (forall nm, In nm vp_names -> nm <> "vp"%string -> In nm l) -> (forall nm, In nm vp_names -> some (p_V p nm)) ->
  exists p', vp_accum c p = Ok p' /\ p_ens p' = p_ens p /\ all_f (fgood dft kt l) p' /\ (forall nm, In nm vp_names -> some (p_V p' nm)) /\ p_x p' = p_x p /\ p_c p' = p_c p /\ kk p' = kk p /\
    (exists f, p_f p' c = Some f /\ some (f_V f "vp"%string)) /\ (forall d, d <> c -> p_f p' d = p_f p d).
Proof.
  intros dft kt l c p A M HL HV. destruct (A c M) as (f & F & G). pose proof G as (_ & (Q & GQ) & _ & _ & G5). unfold vp_accum, vp_own. unfold get_f at 1. rewrite F. cbn [have bind].
  assert (N : forall nm, In nm vp_names -> nm <> "vp"%string -> some (f_V f nm)) by auto.
  destruct (N "vp_pot"%string) as (a & Ea); [simpl; auto|discriminate|]. destruct (N "vp_kin"%string) as (b & Eb); [simpl; auto|discriminate|]. destruct (N "vp_hxc"%string) as (d & Ed); [simpl; auto|discriminate|].
  unfold attr at 1 2 3. rewrite Ea, Eb, Ed. cbn [have bind]. set (f1 := fV f "vp" (add3 a b d)).
  assert (G1 : fgood dft kt ("vp" :: l)%string f1) by (apply fgood_V; exact G). pose proof G1 as (_ & (Q1 & GQ1) & _ & _ & G6).
  destruct (forL_inv_total string part (fun q => p_ens q = p_ens p /\ p_f q = p_f (set_frag p c f1) /\ (forall nm, In nm vp_names -> some (p_V q nm)) /\ p_x q = p_x p /\ p_c q = p_c p /\ kk q = kk p) vp_names
     (fun nm p => do f <- get_f p c; do v <- attr (f_V f) nm; do Q <- getQ f; do s <- attr (p_V p) nm; Ok (set_V p nm (fun k x => s k x + v k x * Q k x))) (set_frag p c f1)) as (p' & E & I1 & I2 & I3 & I4 & I5 & I6).
  - repeat (split; [solve [auto]|]). reflexivity.
  - intros nm q Hn (J1 & J2 & J3 & J4 & J5 & J6). unfold get_f. rewrite J2, set_frag_same. cbn [have bind].
    assert (S1 : some (f_V f1 nm)). { apply G6. destruct (string_dec nm "vp") as [->|Y]; [left; auto|right; auto]. } destruct S1 as (v & Ev). unfold attr. rewrite Ev. cbn [have bind]. unfold getQ. rewrite GQ1. cbn [bind].
    destruct (J3 nm Hn) as (s & Es). rewrite Es. cbn [have bind]. eexists. split; [reflexivity|]. cbn [set_V p_ens p_f p_x p_c p_k p_inv p_info]. repeat (split; [solve [auto]|]). split; [|auto]. intros nm' Hn'. cbn [set_V p_V].
    destruct (string_dec nm' nm) as [->|Y]; [rewrite aset_same; eexists; reflexivity|rewrite aset_other by auto; auto].
  - exists p'. split; [exact E|]. split; [exact I1|]. split.
    { intros e Me. rewrite I1 in Me. rewrite I2. destruct (comp_dec e c) as [->|Y]; [rewrite set_frag_same; exists f1; split; auto; eapply fgood_sub; [exact G1|intros; right; auto]|rewrite set_frag_other by auto; apply A; auto]. }
    split; [exact I3|]. repeat (split; [solve [auto]|]). split; [|intros e Y; rewrite I2; apply set_frag_other; auto]. exists f1. split; [rewrite I2; apply set_frag_same|]. apply G6. left; auto.
Qed.
Lemma accums_total : forall dft kt l cs p, all_f (fgood dft kt l) p -> NoDup cs -> (forall c, In c cs -> member (p_ens p) c) -> (forall nm, In nm vp_names -> nm <> "vp"%string -> In nm l) -> (forall nm, In nm vp_names -> some (p_V p nm)) ->
  exists p', forL cs vp_accum p = Ok p' /\ p_ens p' = p_ens p /\ all_f (fgood dft kt l) p' /\ (forall nm, In nm vp_names -> some (p_V p' nm)) /\ p_x p' = p_x p /\ p_c p' = p_c p /\ kk p' = kk p /\
    (forall c, In c cs -> exists f, p_f p' c = Some f /\ some (f_V f "vp"%string)) /\ (forall d, ~ In d cs -> p_f p' d = p_f p d).
Proof.
  intros dft kt l cs. induction cs as [|c cs IH]; intros p A N M HL HV; cbn [forL].
  - exists p. repeat (split; [solve [auto]|]). split; [intros c []|auto].
  - inversion N as [|? ? N1 N2]; subst. destruct (accum_total dft kt l c p A (M c (or_introl eq_refl)) HL HV) as (p1 & E1 & B1 & B2 & B3 & B4 & B5 & B6 & B7 & B8). rewrite E1. cbn [bind].
    destruct (IH p1 B2 N2) as (p2 & E2 & D1 & D2 & D3 & D4 & D5 & D6 & D7 & D8); [intros d Hd; rewrite B1; apply M; right; auto|auto|auto|].
    exists p2. split; [exact E2|]. split; [congruence|]. split; [exact D2|]. split; [exact D3|]. repeat (split; [congruence|]). split.
    + intros d [<-|Hd]; [rewrite D8 by auto; exact B7|apply D7; auto].
    + intros d Hd. rewrite D8 by (intros Y; apply Hd; right; auto). apply B8. intros ->. apply Hd. left; auto.
Qed.
Lemma map_total : forall h p, (forall nm, In nm vp_names -> some (p_V p nm)) -> exists p', vp_map h p = Ok p' /\ p_f p' = p_f p /\ p_ens p' = p_ens p /\ p_opt p' = p_opt p /\ (forall nm, In nm vp_names -> some (p_V p' nm)) /\ p_x p' = p_x p /\ p_c p' = p_c p /\ kk p' = kk p.
Proof.
  intros h p H. unfold vp_map.
  destruct (forL_inv_total string part (fun q => p_f q = p_f p /\ p_ens q = p_ens p /\ p_opt q = p_opt p /\ (forall nm, In nm vp_names -> some (p_V q nm)) /\ p_x q = p_x p /\ p_c q = p_c p /\ kk q = kk p) vp_names
     (fun nm p => do v <- attr (p_V p) nm; Ok (set_V p nm (h v))) p) as (p' & E & I).
  - repeat (split; [solve [auto]|]). reflexivity.
  - intros nm q Hn (J1 & J2 & J3 & J4 & J5). destruct (J4 nm Hn) as (v & Ev). unfold attr. rewrite Ev. cbn [have bind]. eexists. split; [reflexivity|]. cbn [set_V p_ens p_f p_x p_c p_k p_inv p_info p_opt]. do 3 (split; [solve [auto]|]). split; [|auto].
    intros nm' Hn'. cbn [set_V p_V]. destruct (string_dec nm' nm) as [->|Y]; [rewrite aset_same; eexists; reflexivity|rewrite aset_other by auto; auto].
  - exists p'. split; [exact E|exact I].
Qed.
(** what the energies need from the potential step *)
Definition kinl (p : part) : list string := if ktb p then ["ts"]%string else [].
Definition after_vp (w : penv) (p p' : part) : Prop := all_f (fgood (dftb p) (ktb p) (kinl p)) p' /\ (ktb p = true -> some (p_k p')) /\ (dftb p = true -> some (p_x p') /\ some (p_c p')) /\ inv_done w p'.
Lemma done_same : forall w p p', p_opt p' = p_opt p -> p_inv p' = p_inv p -> p_info p' = p_info p -> inv_done w p -> inv_done w p'.
Proof. intros w p p' O I F D. unfold inv_done, inverting. rewrite O, I, F. exact D. Qed.
Lemma component_total : forall g w p, po_vp (p_opt p) = "component"%string -> kin_available g w p -> int_available g w p -> all_f (fgood (dftb p) false []) p -> some (p_nf p) -> some (p_V p "vext"%string) -> po_iso (p_opt p) = false -> (1 <= p_pol p)%nat -> inv_live w p -> inv_frags p ->
  exists p' v, partition_potential g w p = Ok (p', v) /\ after_vp w p p' /\ forall c, member (p_ens p) c -> exists f, p_f p' c = Some f /\ some (f_V f "vp"%string).
Proof.
  intros g w p PV KA IA A NF VX IS HP LV FR. unfold partition_potential. rewrite PV. cbn [String.eqb]. rewrite ?String.eqb_refl.
  change (String.eqb "component" "component") with true. cbn iota. unfold vp_component.
  destruct (nuclear_total_ok p (dftb p) false A VX) as (p1 & E1 & W1 & A1). rewrite E1. cbn [bind]. destruct (nuc_frame _ _ W1) as (N1 & O1 & P1 & En1 & X1 & C1 & K1 & V1).
  assert (KA1 : kin_available g w p1) by (unfold kin_available; rewrite O1, P1; exact KA).
  destruct (kinetic_total g w p1 (dftb p) A1 KA1) as (p2 & E2 & A2 & K2 & DN2); [rewrite N1; exact NF|rewrite O1; exact IS|rewrite P1; exact HP| | |].
  { unfold inv_live, inverting. rewrite O1, W1. exact LV. }
  { unfold inv_frags, inverting. rewrite O1, P1. intros I. destruct (FR I) as (lv & F). exists lv. intros c Hc. pose proof (vp_nuclear_same _ _ E1) as PS. rewrite En1 in Hc. destruct (F c Hc) as (f & Ff & Q). destruct (psame_f' _ _ _ _ PS Ff) as (f' & F' & (K' & _)). exists f'. split; auto. rewrite K'. exact Q. } rewrite E2. cbn [bind]. pose proof (vp_kinetic_same _ _ _ _ E2) as S2.
  assert (T2 : ktb p1 = ktb p) by (unfold ktb; rewrite O1; reflexivity). rewrite T2 in *. clear T2.
  pose proof S2 as (O2 & P2 & _ & _ & _ & _ & En2 & _ & _ & _ & _ & N2 & _). rewrite O1 in O2. rewrite P1 in P2. rewrite N1 in N2. rewrite En1 in En2.
  assert (IA2 : int_available g w p2) by (unfold int_available; rewrite O2, P2; exact IA). assert (D2 : dftb p2 = dftb p) by (unfold dftb; rewrite O2; reflexivity).
  destruct (hxc_pot_total g w p2 (ktb p) ("vp_kin" :: "vp_pot" :: kinl p)%string) as (p3 & E3 & A3 & X3 & K3); [rewrite D2; exact A2|exact IA2|rewrite N2; exact NF|]. rewrite E3. cbn [bind]. rewrite D2 in *.
  pose proof (vp_hxc_same _ _ _ _ E3) as (O3 & P3 & _ & _ & _ & _ & En3 & _ & _ & _ & _ & N3 & _). rewrite O2 in O3. rewrite P2 in P3. rewrite N2 in N3. rewrite En2 in En3.
  set (l := ("vp_hxc" :: hnames ("vp_kin" :: "vp_pot" :: kinl p))%string) in *.
  destruct (forL_inv_total string part (fun q => p_nf q = p_nf p /\ p_f q = p_f p3 /\ p_ens q = p_ens p /\ p_x q = p_x p3 /\ p_c q = p_c p3 /\ kk q = kk p3) vp_names (fun nm p => do _ <- have (p_nf p); Ok (set_V p nm (fun _ _ => 0))) p3) as (p4 & E4 & I1 & I2 & I3 & I4 & I5 & I6).
  { repeat (split; [solve [auto]|]). reflexivity. }
  { intros nm q _ (J1 & J2). destruct NF as (nf & NF). rewrite J1, NF. cbn [have bind]. eexists. split; [reflexivity|]. cbn [set_V p_nf p_f p_ens p_x p_c p_k p_inv p_info]. split; [congruence|exact J2]. }
  rewrite E4. cbn [bind].
  assert (V4 : forall nm, In nm vp_names -> some (p_V p4 nm)).
  { assert (E4' : forL vp_names (fun nm p => do x <- (do _ <- have (p_nf p); Ok (fun _ _ => 0)); Ok (set_V p nm x)) p3 = Ok p4) by (rewrite <- E4; apply forL_ext; intros nm q _; destruct (have (p_nf q)); reflexivity).
    apply (forL_names (fun nm p => do _ <- have (p_nf p); Ok (fun _ _ => 0))) in E4'; [|apply vp_names_nodup|reflexivity]. destruct E4' as (_ & B & _). intros nm Hn. destruct (B nm Hn) as (x & _ & Ex). exists x. exact Ex. }
  destruct (accums_total (dftb p) (ktb p) l (comps (p_ens p)) p4) as (p5 & E5 & B1 & B2 & B3 & B4 & B5 & B6 & B7 & _).
  { intros c Hc. rewrite I2. apply A3. rewrite En3. rewrite I3 in Hc. exact Hc. }
  { apply comps_nodup. }
  { intros c Hc. rewrite I3. apply in_comps. exact Hc. }
  { intros nm Hn Hv. unfold l, hnames. simpl in Hn. simpl. destruct Hn as [<-|[<-|[<-|[<-|[<-|[<-|[<-|[]]]]]]]]; auto 10. congruence. }
  { exact V4. }
  rewrite E5. cbn [bind].
  assert (M6 : exists p6, (if po_ess (p_opt p) then vp_map (fun v => with_flip true (p_pol p) v) p5 else Ok p5) = Ok p6 /\ p_f p6 = p_f p5 /\ p_ens p6 = p_ens p5 /\ p_opt p6 = p_opt p5 /\ (forall nm, In nm vp_names -> some (p_V p6 nm)) /\ p_x p6 = p_x p5 /\ p_c p6 = p_c p5 /\ kk p6 = kk p5).
  { destruct (po_ess (p_opt p)); [apply map_total; exact B3|]. exists p5. auto 10. }
  destruct M6 as (p6 & E6 & F1 & F2 & F3 & F4 & F5 & F6 & F7). rewrite E6. cbn [bind].
  assert (M7 : exists p7, (if po_ab (p_opt p) then vp_map (sym_avgR g) p6 else Ok p6) = Ok p7 /\ p_f p7 = p_f p6 /\ p_ens p7 = p_ens p6 /\ p_opt p7 = p_opt p6 /\ (forall nm, In nm vp_names -> some (p_V p7 nm)) /\ p_x p7 = p_x p6 /\ p_c p7 = p_c p6 /\ kk p7 = kk p6).
  { destruct (po_ab (p_opt p)); [apply map_total; exact F4|]. exists p6. auto 10. }
  destruct M7 as (p7 & E7 & G1 & G2 & G3 & G4 & G5 & G6 & G7). rewrite E7. cbn [bind].
  destruct (G4 "vp"%string) as (v & Ev); [simpl; auto|]. unfold attr. rewrite Ev. cbn [have bind]. exists p7, v. split; [reflexivity|]. assert (KE : kk p7 = kk p2) by congruence. injection KE as KE1 KE2 KE3. split; [split; [|split; [|split]]|].
  - intros c Hc. rewrite G1, F1. assert (Hc5 : member (p_ens p5) c) by (rewrite <- F2, <- G2; exact Hc). destruct (B2 c Hc5) as (f & Ff & GG). exists f. split; auto. eapply fgood_sub; [exact GG|]. intros nm Hn. unfold l, hnames. simpl. auto 10.
  - intros KT. rewrite KE1. apply K2. exact KT.
  - intros DT. rewrite G5, F5, B4, I4, G6, F6, B5, I5. apply X3. exact DT.
  - apply (done_same w p2); auto. assert (E' : vp_component g w p = Ok p7) by (unfold vp_component; rewrite E1; cbn [bind]; rewrite E2; cbn [bind]; rewrite E3; cbn [bind]; rewrite E4; cbn [bind]; rewrite E5; cbn [bind]; rewrite E6; cbn [bind]; exact E7).
    pose proof (vp_component_same _ _ _ _ E') as (PS & _). congruence.
  - intros c Hc. rewrite G1, F1. apply B7. apply in_comps. exact Hc.
Qed.

(** * The energies *)
(** energies of a component, its energy densities for [dft], and what the kinetic part needs *)
Definition egood (dft kt : bool) (l : list string) (f : frag) : Prop := some (k_n (f_ks f)) /\ some (f_Q f) /\
  (exists e E T, k_E (f_ks f) = Some e /\ E_E e = Fin E /\ E_Ts e = Fin T /\ (dft = true -> some (E_Eh e) /\ some (E_Vhxc e))) /\
  (dft = true -> some (V_eh (k_V (f_ks f))) /\ some (V_ex (k_V (f_ks f))) /\ some (V_ec (k_V (f_ks f)))) /\ (kt = true -> some (f_VTs f)) /\ forall nm, In nm l -> some (f_V f nm).
Lemma es_total : forall dft kt l p cs a, all_f (egood dft kt l) p -> (forall c, In c cs -> member (p_ens p) c) -> exists b, forL cs (es_step dft p) a = Ok b.
Proof.
  intros dft kt l p cs a A M. destruct (forL_inv_total comp esum (fun _ => True) cs (es_step dft p) a Logic.I) as (b & E & _); [|eauto].
  intros c s Hc _. destruct (A c (M c Hc)) as (f & F & _ & _ & (e & E & T & K & E1 & E2 & E3) & _). unfold es_step, get_f. rewrite F. cbn [have bind]. rewrite K. cbn [have bind]. cbv zeta. rewrite E1, E2. cbn [fin bind].
  destruct dft; [|eauto]. destruct (E3 eq_refl) as ((h & ->) & (v & ->)). cbn [have bind]. eauto.
Qed.
Lemma evals_total : forall dft kt l p cs, all_f (egood dft kt l) p -> (forall c, In c cs -> member (p_ens p) c) -> exists b, evals_of p cs = Ok b.
Proof.
  intros dft kt l p cs A M. unfold evals_of. destruct (forL_inv_total comp (list R) (fun _ => True) cs (fun c acc => do f <- get_f p c; do e <- have (k_E (f_ks f)); Ok (acc ++ E_evals e)%list) [] Logic.I) as (b & E & _); [|eauto].
  intros c s Hc _. destruct (A c (M c Hc)) as (f & F & _ & _ & (e & E & T & K & _) & _). unfold get_f. rewrite F. cbn [have bind]. rewrite K. cbn [have bind]. eauto.
Qed.
Lemma frag_ts_total : forall g p f lv, finv (p_pol p) lv (f_ks f) -> some (k_n (f_ks f)) -> exists t, frag_ts g p f = Ok t.
Proof.
  intros g p f lv (K1 & K2 & K3 & K4 & _) (n & N). unfold frag_ts. cbv zeta.
  match goal with |- context [forN ?n ?h ?s] => destruct (forN_ex _ n h s) as (ts & ->) end; [|cbn [bind]; rewrite N; cbn [axis1 bind]; eauto].
  intros i x Hi. match goal with |- exists y, forN ?n ?h ?s = _ => apply (forN_ex _ n h s) end. intros j y Hj. assert (P : place (f_ks f) i j) by (split; auto).
  destruct (ked_total g (hamiltonian g (s_m (k_sol (f_ks f) i j))) _ (K3 i j P) (K4 i j P)) as (t & ->). cbn [bind]. rewrite K2 in Hj. apply Nat.ltb_lt in Hj. rewrite Hj. eauto.
Qed.
Lemma epk_inversion_total : forall g w p dft, inverting p = true -> po_ab (p_opt p) = false -> all_f (egood dft (ktb p) (kinl p)) p -> inv_done w p -> inv_frags p -> some (p_nf p) ->
  exists q Tm Tf tm tf, epk_inversion g p = Ok (q, (SC Tm, tm, SC Tf, tf)) /\ inv_done w q /\ p_E q = p_E p /\ p_x q = p_x p /\ p_c q = p_c p /\ p_f q = p_f p.
Proof.
  intros g w p dft IV AB A D FR (nf & NF). destruct (D IV) as (iv & o & inf & HI & RD & SO & HF & HO & OP). destruct (FR IV) as (lv & FI). pose proof RD as ((R1 & R2 & R3 & R4 & R5) & _).
  assert (WH : forall i, (i < i_lv iv)%nat -> whole (i_sol iv i 0%nat)) by (intros i Hi; apply (R5 i _ Hi (static_refl _))).
  unfold epk_inversion. rewrite HI. cbn [have bind]. destruct (ts_total g iv R2 R3 SO WH) as (jv & ts & -> & J1 & J2 & J3 & J4). cbn [bind fst snd]. rewrite NF. cbn [have bind]. cbv zeta.
  assert (SJ : inv_solved jv) by (intros i Hi; rewrite J1; apply SO; rewrite <- J3; exact Hi).
  destruct (Ts_total g jv) as (T & ->); [congruence|congruence|exact SJ|]. cbn [bind fin].
  match goal with |- context [forL ?l ?h ?s] => destruct (forL_inv_total _ _ (fun _ => True) l h s Logic.I) as (a & -> & _) end.
  { intros c acc Hc _. apply in_comps_ab in Hc. destruct Hc as (Hc & _). destruct (A c Hc) as (f & F & N & (q & HQ) & (e & E & T' & X1 & X2 & X3 & _) & _). destruct (FI c Hc) as (f' & F' & K). rewrite F in F'. injection F' as <-.
    unfold get_f. rewrite F. cbn [have bind]. rewrite X1. cbn [have bind]. rewrite X3. cbn [fin bind]. destruct (frag_ts_total g p f lv K N) as (t & ->). cbn [bind]. unfold getQ. rewrite HQ. cbn [bind]. eauto. }
  cbn [bind]. rewrite AB. destruct a as [Tf tf]. do 5 eexists. split; [reflexivity|]. split; [|repeat split].
  intros _. exists jv, o, inf. split; [reflexivity|]. split; [|split; [exact SJ|split; [cbn [set_inv p_info]; rewrite J3; exact HF|auto]]].
  eapply sized_same; [exact RD|]. split; [exact J3|]. split; [exact J4|]. rewrite J1, J2. split; auto. split; auto. intros i. apply static_refl.
Qed.
Lemma kin_ep_total : forall g w p dft, all_f (egood dft (ktb p) (kinl p)) p -> kin_available g w p -> (ktb p = true -> some (p_k p)) -> po_iso (p_opt p) = false -> inv_done w p -> inv_frags p -> some (p_nf p) ->
  exists p' r, ep_kinetic g p = Ok p' /\ p_T p' "Ep_kin"%string = Some (SC r) /\ p_E p' = p_E p /\ p_x p' = p_x p /\ p_c p' = p_c p /\ p_f p' = p_f p /\ inv_done w p'.
Proof.
  intros g w p dft A KA KK IS DN FR NF. unfold ep_kinetic. cbv zeta. destruct KA as [K|[(K & AB & ES & _)|(K & _)]].
  - rewrite K. cbn -[sv_op arr_map2]. destruct (po_ess (p_opt p)); eexists _, _; (split; [reflexivity|]; split; [apply aset_same|auto 10]).
  - rewrite K. assert (IV : inverting p = true) by (unfold inverting; rewrite K, IS; reflexivity). change (String.eqb "inversion" "vonweiz") with false. change (String.eqb "inversion" "libxcke" || String.eqb "inversion" "paramke")%bool with false. rewrite String.eqb_refl. cbn iota.
    destruct (epk_inversion_total g w p dft IV AB A DN FR NF) as (q & Tm & Tf & tm & tf & -> & Q1 & Q2 & Q3 & Q4 & Q5). cbn [bind]. rewrite ES. eexists _, _. split; [reflexivity|]. split; [apply aset_same|]. cbn [set_epk set_T p_E p_x p_c p_f]. do 4 (split; [assumption|]). exact Q1.
  - unfold ktb, kinl in *. unfold ktb in *. rewrite K in *. change (String.eqb "libxcke" "vonweiz") with false. change (String.eqb "libxcke" "libxcke" || String.eqb "libxcke" "paramke")%bool with true. cbn iota. unfold epk_libxc.
    destruct (KK eq_refl) as (T & ->). cbn [have bind].
    match goal with |- context [forL ?l ?h ?s] => destruct (forL_inv_total _ _ (fun _ => True) l h s Logic.I) as (b & -> & _) end.
    + intros c s Hc _. apply in_comps in Hc. destruct (A c Hc) as (f & F & _ & (q & HQ) & _ & _ & HT & HL). unfold get_f. rewrite F. cbn [have bind]. destruct (HT eq_refl) as (t & ->). cbn [have bind]. unfold getQ. rewrite HQ. cbn [bind].
      destruct (HL "ts"%string) as (x & Hx); [simpl; auto|]. unfold attr. rewrite Hx. cbn [have bind]. eauto.
    + cbn [bind]. destruct (po_ess (p_opt p)); eexists _, _; (split; [reflexivity|]; split; [apply aset_same|auto 10]).
Qed.
Lemma dft_ep_total : forall g w p kt l, all_f (egood (dftb p) kt l) p -> int_available g w p -> some (p_nf p) -> (dftb p = true -> some (p_x p) /\ some (p_c p)) -> some (p_E p "Ehf"%string) -> some (p_E p "Exf"%string) -> some (p_E p "Ecf"%string) ->
  exists p', ep_dft g (pe_env w) p = Ok p' /\ some (p_E p' "Ep_h"%string) /\ some (p_E p' "Ep_x"%string) /\ some (p_E p' "Ep_c"%string) /\ p_E p' "Ep_pot"%string = p_E p "Ep_pot"%string /\ p_T p' = p_T p /\ p_f p' = p_f p /\ p_inv p' = p_inv p /\ p_info p' = p_info p.
Proof.
  intros g w p kt l A IA (nf & NF) XC (eh & EH) (ex & EX) (ec & EC). unfold ep_dft, dftb in *. destruct IA as [(I & _)|(I & _ & _ & AV)]; rewrite I in *.
  - cbn -[aset]. eexists. split; [reflexivity|]. cbn. repeat (split; [eexists; reflexivity|]). repeat split.
  - cbn -[forL integrate1 sum_cols exf_sum comps_ab attr]. rewrite NF. cbn [have bind]. destruct (AV (sum_cols (p_pol p) nf)) as (vh & ->). cbn [bind]. unfold attr. rewrite EH, EX, EC. cbn [have bind].
    assert (M : forall c, In c (comps_ab p) -> member (p_ens p) c) by (intros c Hc; apply in_comps_ab in Hc; apply Hc).
    match goal with |- context [forL ?l ?h ?s] => destruct (forL_inv_total _ _ (fun _ => True) l h s Logic.I) as (a & -> & _) end.
    { intros c s Hc _. destruct (A c (M c Hc)) as (f & F & _ & (q & HQ) & _ & HV & _). unfold ehf_step, get_f. rewrite F. cbn [have bind]. destruct (active f); cbn [bind]; [|eauto]. unfold getQ. rewrite HQ. cbn [bind]. destruct (HV eq_refl) as ((h & ->) & _). cbn [have bind]. eauto. }
    cbn [bind]. destruct (XC eq_refl) as ((x & ->) & (c0 & ->)). cbn [have bind].
    assert (X : forall e, (forall c f, member (p_ens p) c -> p_f p c = Some f -> some (e (k_V (f_ks f)))) -> exists a, exf_sum g p e = Ok a).
    { intros e He. unfold exf_sum. match goal with |- context [forL ?l ?h ?s] => destruct (forL_inv_total _ _ (fun _ => True) l h s Logic.I) as (b & -> & _) end; [|cbn [bind]; eauto].
      intros c s Hc _. destruct (A c (M c Hc)) as (f & F & _ & (q & HQ) & _). unfold get_f. rewrite F. cbn [have bind]. destruct (active f); [|eauto]. unfold getQ. rewrite HQ. cbn [bind]. destruct (He c f (M c Hc) F) as (y & ->). cbn [have bind]. eauto. }
    destruct (X V_ex) as (a1 & ->). { intros c f Hc F. destruct (A c Hc) as (f' & F' & _ & _ & _ & HV & _). rewrite F in F'. injection F' as <-. apply (HV eq_refl). }
    cbn [bind]. destruct (X V_ec) as (a2 & ->). { intros c f Hc F. destruct (A c Hc) as (f' & F' & _ & _ & _ & HV & _). rewrite F in F'. injection F' as <-. apply (HV eq_refl). }
    cbn [bind]. eexists. split; [reflexivity|]. cbn. repeat (split; [eexists; reflexivity|]). repeat split.
Qed.
Lemma hxc_ep_total : forall g w p kt l, all_f (egood (dftb p) kt l) p -> int_available g w p -> some (p_nf p) -> (dftb p = true -> some (p_x p) /\ some (p_c p)) -> some (p_E p "Ehf"%string) -> some (p_E p "Exf"%string) -> some (p_E p "Ecf"%string) ->
  exists p', ep_hxc g (pe_env w) p = Ok p' /\ some (p_E p' "Ep_hxc"%string) /\ p_E p' "Ep_pot"%string = p_E p "Ep_pot"%string /\ p_T p' = p_T p /\ p_f p' = p_f p /\ p_inv p' = p_inv p /\ p_info p' = p_info p.
Proof.
  intros g w p kt l A IA NF XC EH EX EC. destruct (dft_ep_total g w p kt l A IA NF XC EH EX EC) as (p1 & E1 & (h & H1) & (x & H2) & (c & H3) & H4 & H5 & H6 & H7 & H8). unfold ep_hxc. rewrite E1. cbn [bind]. cbv zeta. unfold attr. rewrite H1, H2, H3. cbn [have bind].
  assert (H : po_hxc (p_opt p) = "exact"%string \/ po_hxc (p_opt p) = "hartree"%string) by (destruct IA as [(_ & H)|(_ & H & _)]; auto).
  destruct H as [-> | ->]; cbn -[aset]; (eexists; split; [reflexivity|]; cbn; split; [eexists; reflexivity|auto 10]).
Qed.
Definition ekeep (p q : part) : Prop := p_opt q = p_opt p /\ p_pol q = p_pol p /\ p_f q = p_f p /\ p_ens q = p_ens p /\ p_na q = p_na p /\ p_nb q = p_nb p /\ p_nf q = p_nf p /\ p_x q = p_x p /\ p_c q = p_c p /\ p_k q = p_k p /\ p_inv q = p_inv p /\ p_info q = p_info p.
Lemma ekeep_E : forall p q k x, ekeep p q -> ekeep p (set_E q k x). Proof. intros. exact H. Qed.
Lemma ekeep_T : forall p q k x, ekeep p q -> ekeep p (set_T q k x). Proof. intros. exact H. Qed.
Lemma ekeep_eks : forall p q x, ekeep p q -> ekeep p (set_eks q x). Proof. intros. exact H. Qed.
Lemma ekeep_refl : forall p, ekeep p p. Proof. intros. repeat split. Qed.
Lemma E_at : forall p k x, some (p_E (set_E p k x) k). Proof. intros. cbn [set_E p_E]. rewrite aset_same. eexists; reflexivity. Qed.
Lemma E_on : forall p k x nm, some (p_E p nm) -> some (p_E (set_E p k x) nm).
Proof. intros p k x nm H. cbn [set_E p_E]. destruct (string_dec nm k) as [->|N]; [rewrite aset_same; eexists; reflexivity|rewrite aset_other by auto; auto]. Qed.
Lemma E_eks : forall p x nm, some (p_E p nm) -> some (p_E (set_eks p x) nm). Proof. intros. exact H. Qed.
Lemma T_E_evals : forall p q r x Vnn, p_T (set_evals (set_T (set_E (set_T p "Et" q) "Vnn" Vnn) "E" r) x) "E"%string = Some r.
Proof. intros. cbn [set_evals set_T p_T]. apply aset_same. Qed.
Lemma iso_T : forall p, p_T (set_E (set_T (set_E (set_T p "Ep" (SC 0)) "Ep_pot" 0) "Ep_kin" (SC 0)) "Ep_hxc" 0) "Ep"%string = Some (SC 0). Proof. reflexivity. Qed.
Lemma T_at : forall p k x, p_T (set_T p k x) k = Some x. Proof. intros. cbn [set_T p_T]. apply aset_same. Qed.
Lemma E_at' : forall p k x, p_E (set_E p k x) k = Some x. Proof. intros. cbn [set_E p_E]. apply aset_same. Qed.
Lemma f_T : forall p k x, p_f (set_T p k x) = p_f p /\ p_ens (set_T p k x) = p_ens p. Proof. split; reflexivity. Qed.
#[local] Opaque set_E set_T set_eks set_evals ekeep.
Lemma energy_all_total : forall g w p, workable g w p -> all_f (egood (dftb p) (ktb p) (if po_iso (p_opt p) then [] else kinl p)) p \/ (po_iso (p_opt p) = true /\ all_f (egood (dftb p) false []) p) -> some (p_na p) -> some (p_nb p) -> some (p_nf p) ->
  (po_iso (p_opt p) = false -> (ktb p = true -> some (p_k p)) /\ (dftb p = true -> some (p_x p) /\ some (p_c p))) -> inv_done w p -> inv_frags p -> exists p' r, energy g (pe_env w) p = Ok p' /\ p_T p' "E"%string = Some (SC r) /\ inv_done w p'.
Proof.
  intros g w p WK A (na & NA) (nb & NB) NF PR DN FR. unfold energy. cbv zeta.
  assert (A0 : all_f (egood (dftb p) false []) p).
  { destruct A as [A|(_ & A)]; [|exact A]. eapply all_mono; [exact A|]. intros f (X1 & X2 & X3 & X4 & _ & _). split; auto. split; auto. split; auto. split; auto. split; [discriminate|intros ? []]. }
  fold (dftb p).
  assert (MA : forall c, In c (comps_a (p_ens p)) -> member (p_ens p) c) by (intros c Hc; apply in_comps_a in Hc; apply Hc).
  assert (MB : forall c, In c (comps_b (p_ens p)) -> member (p_ens p) c) by (destruct (p_ens p); intros c Hc; simpl in Hc; intuition; subst; simpl; auto).
  assert (MB' : forall c, In c (energy_b (p_ens p)) -> member (p_ens p) c) by (destruct (p_ens p); intros c Hc; simpl in Hc; intuition; subst; simpl; auto).
  destruct (es_total _ _ _ p (comps_a (p_ens p)) es0 A0 MA) as (a & ->). cbn [bind].
  destruct (es_total _ _ _ p (energy_b (p_ens p)) es0 A0 MB') as (b0 & Eb0).
  assert (B : exists b, (if po_ab (p_opt p) then Ok a else forL (energy_b (p_ens p)) (es_step (dftb p) p) es0) = Ok b) by (destruct (po_ab (p_opt p)); eauto). destruct B as (b & ->). cbn [bind].
  match goal with |- exists p' r, (do p3 <- partition_energy g (pe_env w) ?q; _) = _ /\ _ => set (p2 := q) end.
  assert (S2 : p_opt p2 = p_opt p /\ p_pol p2 = p_pol p /\ p_f p2 = p_f p /\ p_ens p2 = p_ens p /\ p_na p2 = p_na p /\ p_nb p2 = p_nb p /\ p_nf p2 = p_nf p /\ p_x p2 = p_x p /\ p_c p2 = p_c p /\ p_k p2 = p_k p /\ p_inv p2 = p_inv p /\ p_info p2 = p_info p /\ some (p_E p2 "Ehf"%string) /\ some (p_E p2 "Exf"%string) /\ some (p_E p2 "Ecf"%string)).
  { assert (EK : ekeep p p2) by (unfold p2; apply ekeep_eks; repeat apply ekeep_E; apply ekeep_refl).
    assert (S3 : some (p_E p2 "Ehf"%string) /\ some (p_E p2 "Exf"%string) /\ some (p_E p2 "Ecf"%string)).
    { unfold p2. split; [|split]; apply E_eks; repeat first [apply E_at|apply E_on]. }
    clearbody p2. Transparent ekeep. unfold ekeep in EK. Opaque ekeep. intuition. }
  destruct S2 as (O2 & P2 & F2 & En2 & NA2 & NB2 & NF2 & X2 & C2 & K2 & IV2 & IF2 & EH & EX & EC). clearbody p2.
  assert (Q : exists p3 r, partition_energy g (pe_env w) p2 = Ok p3 /\ p_T p3 "Ep"%string = Some (SC r) /\ p_f p3 = p_f p /\ inv_done w p3).
  { unfold partition_energy. rewrite O2. destruct (po_iso (p_opt p)) eqn:I.
    - eexists _, _. split; [reflexivity|]. split; [apply iso_T|]. assert (EK : ekeep p2 (set_E (set_T (set_E (set_T p2 "Ep" (SC 0)) "Ep_pot" 0) "Ep_kin" (SC 0)) "Ep_hxc" 0)) by (apply ekeep_E, ekeep_T, ekeep_E, ekeep_T, ekeep_refl).
      destruct EK as (X1 & _ & -> & _ & _ & _ & _ & _ & _ & _ & X2' & X3). split; [exact F2|]. apply (done_same w p); [congruence|congruence|congruence|exact DN].
    - destruct A as [A|(A & _)]; [|discriminate]. destruct WK as [W|(_ & KA & IA)]; [congruence|]. unfold ep_nuclear. rewrite NA2, NB2, NA, NB. cbn [axis1 have bind].
      match goal with |- exists p3 r, (do p5 <- ep_kinetic g ?q; _) = _ /\ _ => set (q1 := q) end.
      assert (EK : ekeep p2 q1) by (unfold q1; apply ekeep_E, ekeep_refl). destruct EK as (O5 & P5 & F5 & En5 & _ & _ & NF5 & X5 & C5 & K5 & IV5 & IF5).
      assert (EP : some (p_E q1 "Ep_pot"%string)) by apply E_at. assert (EH5 : some (p_E q1 "Ehf"%string)) by (apply E_on; exact EH). assert (EX5 : some (p_E q1 "Exf"%string)) by (apply E_on; exact EX). assert (EC5 : some (p_E q1 "Ecf"%string)) by (apply E_on; exact EC).
      clearbody q1. rewrite O2 in O5. rewrite P2 in P5. rewrite F2 in F5. rewrite En2 in En5. rewrite NF2 in NF5. rewrite X2 in X5. rewrite C2 in C5. rewrite K2 in K5.
      destruct (PR eq_refl) as (PR1 & PR2).
      destruct (kin_ep_total g w q1 (dftb p)) as (q2 & r & E2 & T2 & EE & X3 & C3 & F3 & D3).
      { replace (ktb q1) with (ktb p) by (unfold ktb; rewrite O5; reflexivity). replace (kinl q1) with (kinl p) by (unfold kinl, ktb; rewrite O5; reflexivity).
        intros c Hc. rewrite F5. rewrite En5 in Hc. apply A. exact Hc. }
      { unfold kin_available. rewrite O5, P5. exact KA. }
      { unfold ktb. rewrite O5, K5. exact PR1. }
      { rewrite O5. exact I. }
      { apply (done_same w p); [congruence|congruence|congruence|exact DN]. }
      { unfold inv_frags, all_f, inverting. rewrite O5, F5, P5, En5. exact FR. }
      { rewrite NF5. exact NF. }
      rewrite E2. cbn [bind]. pose proof (ep_kinetic_same _ _ _ E2) as (O4 & P4 & _ & _ & _ & _ & En4 & _ & _ & _ & _ & N4 & _).
      destruct (hxc_ep_total g w q2 (ktb p) (kinl p)) as (q3 & E3 & (e & HE) & HP & HT & HF & HI1 & HI2).
      { unfold dftb. rewrite O4, O5. intros c Hc. rewrite F3, F5. apply A. rewrite En4, En5 in Hc. exact Hc. }
      { unfold int_available. rewrite O4, P4, O5, P5. exact IA. }
      { rewrite N4, NF5. exact NF. }
      { unfold dftb. rewrite O4, X3, C3, O5, X5, C5. exact PR2. }
      { rewrite EE. exact EH5. }
      { rewrite EE. exact EX5. }
      { rewrite EE. exact EC5. }
      rewrite E3. cbn [bind]. unfold attr. destruct EP as (ep & EP). rewrite HP, EE, EP, HT, T2, HE. cbn [have bind]. eexists _, _. split; [reflexivity|]. split; [apply T_at|].
      rewrite (proj1 (f_T _ _ _)), HF, F3. split; [exact F5|]. pose proof (ep_hxc_same _ _ _ _ E3) as (O6 & _).
      match goal with |- inv_done w (set_T ?a ?b ?c) => assert (EK : ekeep a (set_T a b c)) by (apply ekeep_T, ekeep_refl) end. destruct EK as (Y1 & _ & _ & _ & _ & _ & _ & _ & _ & _ & Y2 & Y3). apply (done_same w q2); [congruence|congruence|congruence|exact D3]. }
  destruct Q as (p3 & r & E3 & T3 & F3 & D3). rewrite E3. cbn [bind]. unfold attr. rewrite T3. cbn [have bind].
  match goal with |- exists p' r, (do ea <- evals_of ?q _; _) = _ /\ _ => set (p4 := q) end. assert (TE : forall x, p_T (set_evals p4 x) "E"%string = p_T p4 "E"%string) by reflexivity. assert (DE : forall x, inv_done w p4 -> inv_done w (set_evals p4 x)) by (intros ? X; exact X).
  assert (EK : ekeep p3 p4) by (unfold p4; apply ekeep_T, ekeep_E, ekeep_T, ekeep_refl). destruct EK as (O4 & _ & F4 & En4 & _ & _ & _ & _ & _ & _ & IV4 & IF4).
  assert (En3 : p_ens p3 = p_ens p) by (rewrite <- En2; apply (partition_energy_same _ _ _ _ E3)).
  assert (A4 : all_f (egood (dftb p) false []) p4) by (intros c Hc; rewrite F4, F3; apply A0; rewrite En4, En3 in Hc; exact Hc).
  destruct (evals_total _ _ _ p4 (comps_a (p_ens p)) A4) as (ea & ->); [intros c Hc; rewrite En4, En3; auto|]. cbn [bind].
  destruct (evals_total _ _ _ p4 (comps_b (p_ens p)) A4) as (eb0 & Eeb); [intros c Hc; rewrite En4, En3; auto|].
  assert (B : exists eb, (if po_ab (p_opt p) then Ok ea else evals_of p4 (comps_b (p_ens p))) = Ok eb) by (destruct (po_ab (p_opt p)); eauto). destruct B as (eb & ->). cbn [bind].
  eexists _, _. split; [reflexivity|]. split; [unfold p4; apply T_E_evals|]. apply DE. apply (done_same w p3); auto.
Qed.
#[local] Transparent set_E set_T set_eks set_evals ekeep.

(** * One pass *)
Lemma mirror_frag_total : forall g a b, some (k_n (f_ks a)) -> some (k_veff (f_ks a)) -> some (k_vext (f_ks a)) -> exists b', mirror_frag g a b = Ok b' /\ some (k_n (f_ks b')) /\ f_VTs b' = f_VTs b /\ (some (f_Q a) -> some (f_Q b')) /\
  k_E (f_ks b') = k_E (f_ks a) /\ (forall nm, some (f_V b nm) -> some (f_V b' nm)) /\
  (some (V_vh (k_V (f_ks a))) -> some (V_vh (k_V (f_ks b')))) /\ (some (V_vx (k_V (f_ks a))) -> some (V_vx (k_V (f_ks b')))) /\ (some (V_vc (k_V (f_ks a))) -> some (V_vc (k_V (f_ks b')))) /\
  (some (V_eh (k_V (f_ks a))) -> some (V_eh (k_V (f_ks b')))) /\ (some (V_ex (k_V (f_ks a))) -> some (V_ex (k_V (f_ks b')))) /\ (some (V_ec (k_V (f_ks a))) -> some (V_ec (k_V (f_ks b')))).
Proof.
  intros g a b (n & N) (ve & E) (vx & X). unfold mirror_frag. cbv zeta. rewrite N, E, X. cbn [have bind].
  set (kb := set_EV _ _ _). set (b1 := fE _ _).
  assert (KS : forall b', b' = b1 \/ (exists v, b' = fV b1 "vp" v) -> f_ks b' = kb /\ f_VTs b' = f_VTs b /\ f_Q b' = omap (mirror2 g) (f_Q a) /\ forall nm, some (f_V b nm) -> some (f_V b' nm)).
  { intros b' [->|(v & ->)]; (split; [reflexivity|]; split; [reflexivity|]; split; [reflexivity|]); intros nm H; [exact H|apply fV_some; exact H]. }
  eexists. split; [reflexivity|]. match goal with |- context [f_VTs ?x = _] => destruct (KS x) as (-> & -> & -> & K) end; [destruct (f_V a "vp"%string); eauto|].
  split; [eexists; reflexivity|]. split; [reflexivity|]. split; [intros (q & ->); eexists; reflexivity|]. split; [reflexivity|]. split; [exact K|].
  unfold kb. cbn [set_EV k_V]. unfold mirror_ksv. cbn [V_vh V_vx V_vc V_eh V_ex V_ec]. repeat split; intros (q & ->); eexists; reflexivity.
Qed.
Lemma member_twin : forall e c, member e (twin c) <-> member e c. Proof. intros e []; simpl; tauto. Qed.
Lemma member_cases : forall e c, member e c -> of_a c \/ exists d, c = twin d /\ of_a d /\ member e d.
Proof. unfold of_a. intros e [] H; [left; auto|left; auto|right; exists Ca; simpl; auto|right; exists CA; simpl in *; auto]. Qed.
Lemma mirrorAB_total : forall g p, (forall c, member (p_ens p) c -> exists f, p_f p c = Some f /\ (of_a c -> some (k_n (f_ks f)) /\ some (k_veff (f_ks f)) /\ some (k_vext (f_ks f)))) -> exists p', mirrorAB g p = Ok p'.
Proof.
  intros g p H. unfold mirrorAB. destruct (p_ens p) eqn:En; cbn [comps_a comps_b combine forL fst snd].
  - destruct (H Ca Logic.I) as (a & Fa & Ha). destruct (H Cb Logic.I) as (b & Fb & _). destruct (H CA eq_refl) as (A & FA & HA). destruct (H CB eq_refl) as (B & FB & _). unfold get_f. rewrite Fa, Fb. cbn [have bind].
    destruct (Ha (or_introl eq_refl)) as (X1 & X2 & X3). destruct (mirror_frag_total g a b X1 X2 X3) as (b' & -> & _). cbn [bind]. rewrite !set_frag_other by discriminate. rewrite FA, FB. cbn [have bind].
    destruct (HA (or_intror eq_refl)) as (Y1 & Y2 & Y3). destruct (mirror_frag_total g A B Y1 Y2 Y3) as (B' & -> & _). cbn [bind]. eauto.
  - destruct (H Ca Logic.I) as (a & Fa & Ha). destruct (H Cb Logic.I) as (b & Fb & _). unfold get_f. rewrite Fa, Fb. cbn [have bind].
    destruct (Ha (or_introl eq_refl)) as (X1 & X2 & X3). destruct (mirror_frag_total g a b X1 X2 X3) as (b' & -> & _). cbn [bind]. eauto.
Qed.
Lemma Q_total : forall p, all_f (fun f => some (k_n (f_ks f))) p -> some (p_nf p) -> exists p', calc_Q p = Ok p'.
Proof.
  intros p A (nf & NF). unfold calc_Q.
  destruct (all_run (fun f => some (k_n (f_ks f))) (fun _ => True) (fun c q f => do n <- need (k_n (f_ks f)); do nf <- have (p_nf q); Ok (fQ f (Some (fun k s => to_R (ndiv (f_scale f * n k s) (nf k s))))))
    (fun c p => do f <- get_f p c; do n <- need (k_n (f_ks f)); do nf <- have (p_nf p); Ok (set_frag p c (fQ f (Some (fun k s => to_R (ndiv (f_scale f * n k s) (nf k s))))))) p) as (p' & E & _).
  - intros ? ? ? ?. reflexivity.
  - intros c q. destruct (get_f q c) as [f|]; cbn [bind]; auto. destruct (need (k_n (f_ks f))); cbn [bind]; auto. destruct (have (p_nf q)); reflexivity.
  - exact A.
  - intros c f (n & N). rewrite N, NF. cbn [need have bind]. eauto.
  - eauto.
Qed.
Lemma proto_total : forall p, all_f (fun f => some (k_n (f_ks f))) p -> exists p', calc_protomolecule p = Ok p' /\ p_f p' = p_f p /\ p_ens p' = p_ens p /\ some (p_na p') /\ some (p_nb p') /\ some (p_nf p') /\ p_opt p' = p_opt p.
Proof.
  intros p A. unfold calc_protomolecule, scaled_sum.
  assert (S : forall cs, (forall c, In c cs -> member (p_ens p) c) -> exists s, forL cs (fun c acc => do f <- get_f p c; do n <- need (k_n (f_ks f)); Ok (fun k s => acc k s + n k s * f_scale f)) (fun _ _ => 0) = Ok s).
  { intros cs M. match goal with |- context [forL ?l ?h ?s] => destruct (forL_inv_total _ _ (fun _ => True) l h s Logic.I) as (b & -> & _) end; [|eauto]. intros c s Hc _. destruct (A c (M c Hc)) as (f & F & (n & N)). unfold get_f. rewrite F. cbn [have bind]. rewrite N. cbn [need bind]. eauto. }
  destruct (S (comps_a (p_ens p))) as (na & ->); [intros c Hc; apply in_comps_a in Hc; apply Hc|]. cbn [bind].
  destruct (S (comps_b (p_ens p))) as (nb & ->); [destruct (p_ens p); intros c Hc; simpl in Hc; intuition; subst; simpl; auto|]. cbn [bind]. cbv zeta.
  eexists. split; [reflexivity|]. cbn. repeat (split; [reflexivity|]). repeat (split; [eexists; reflexivity|]). reflexivity.
Qed.

(** What holds for every component, and for those that are solved (all but fragment B with ab_sym). *)
Definition stage (P : comp -> frag -> Prop) (B : frag -> Prop) (p : part) : Prop := forall c, member (p_ens p) c -> exists f, p_f p c = Some f /\ B f /\ (computed p c -> P c f).
Lemma stage_mono : forall (P P' : comp -> frag -> Prop) (B B' : frag -> Prop) p, stage P B p -> (forall c f, P c f -> B f -> P' c f) -> (forall f, B f -> B' f) -> stage P' B' p.
Proof. intros P P' B B' p S H1 H2 c Hc. destruct (S c Hc) as (f & F & X & Y). exists f. auto 6. Qed.
Lemma stage_all : forall P (B B' : frag -> Prop) p, stage P B p -> (forall f, B f -> B' f) -> all_f B' p.
Proof. intros P B B' p S H c Hc. destruct (S c Hc) as (f & F & X & _). exists f. auto. Qed.
Lemma stage_run : forall (P P' : comp -> frag -> Prop) (B B' : frag -> Prop) (h : comp -> part -> frag -> res frag) (body : comp -> part -> res part) p, ignores_f h ->
  (forall c q, body c q = (do f <- get_f q c; do f' <- h c q f; Ok (set_frag q c f'))) -> stage P B p ->
  (forall c f, P c f -> B f -> exists f', h c p f = Ok f' /\ P' c f' /\ B' f') -> (forall f, B f -> B' f) -> exists p', forL (comps_ab p) body p = Ok p' /\ p' = with_f p (p_f p') /\ stage P' B' p'.
Proof.
  intros P P' B B' h body p I E S H HB. destruct (forL_run h body (comps_ab p) p I (comps_ab_nodup _) E) as (p' & R & W & M & N).
  - intros c Hc. apply computed_in in Hc. destruct (S c (proj1 Hc)) as (f & F & X & Y). destruct (H c f (Y Hc) X) as (f' & Q & _). eauto.
  - exists p'. split; auto. split; auto. intros c Hc. assert (EN : p_ens p' = p_ens p) by (rewrite W; reflexivity). assert (CE : computed p' c <-> computed p c) by (rewrite W; reflexivity). rewrite EN in Hc.
    destruct (S c Hc) as (f & F & X & Y). destruct (comps_ab_dec p c) as [T|T].
    + destruct (M c T) as (f1 & f2 & M1 & M2 & M3). rewrite F in M1. injection M1 as <-. apply computed_in in T. destruct (H c f (Y T) X) as (f3 & H1 & H2 & H3). rewrite M2 in H1. injection H1 as <-. eauto.
    + exists f. rewrite N by auto. split; auto. split; auto. rewrite CE. intros Q. apply computed_in in Q. contradiction.
Qed.
Lemma stage_mirror : forall g (P : comp -> frag -> Prop) (B B' : frag -> Prop) p, stage P B p ->
  (forall c a, P c a -> B a -> some (k_n (f_ks a)) /\ some (k_veff (f_ks a)) /\ some (k_vext (f_ks a))) -> (forall c a, P c a -> B a -> B' a) ->
  (forall c a b b', P c a -> B a -> B b -> mirror_frag g a b = Ok b' -> B' b') -> exists p', (if po_ab (p_opt p) then mirrorAB g p else Ok p) = Ok p' /\ p' = with_f p (p_f p') /\ stage P B' p'.
Proof.
  intros g P B B' p S H1 H2 H3. destruct (po_ab (p_opt p)) eqn:A.
  - assert (C : forall c, member (p_ens p) c -> of_a c -> computed p c) by (intros c X Y; split; auto).
    destruct (mirrorAB_total g p) as (p' & E).
    { intros c Hc. destruct (S c Hc) as (f & F & X & Y). exists f. split; auto. intros T. apply (H1 c); auto. }
    exists p'. split; auto. apply mirrorAB_inv in E. destruct E as (W & M & _). split; auto. intros c Hc. assert (EN : p_ens p' = p_ens p) by (rewrite W; reflexivity). assert (CE : computed p' c <-> computed p c) by (rewrite W; reflexivity). rewrite EN in Hc.
    destruct (member_cases _ _ Hc) as [T|(d & -> & T & Md)].
    + destruct (M c Hc T) as (-> & _). destruct (S c Hc) as (f & F & X & Y). exists f. split; auto. split; [apply (H2 c); auto|]. intros _. auto.
    + destruct (M d Md T) as (_ & a & b & b' & M1 & M2 & M3 & M4). destruct (S d Md) as (f & F & X & Y). rewrite M1 in F. injection F as <-. destruct (S _ Hc) as (f2 & F2 & X2 & _). rewrite M2 in F2. injection F2 as <-.
      exists b'. split; auto. split; [eapply (H3 d); eauto|]. rewrite CE. intros (_ & Q). specialize (Q A). exfalso. revert Q T. unfold of_a. destruct d; simpl; intuition discriminate.
  - exists p. split; auto. split; [symmetry; apply with_f_id|]. intros c Hc. destruct (S c Hc) as (f & F & X & Y). assert (computed p c) by (split; auto; congruence). exists f. split; auto. split; auto. apply (H2 c); auto.
Qed.

Lemma hxc_body : forall g w c q, psc_hxc g w c q = (do f <- get_f q c; do f' <- hxc_frag g w f; Ok (set_frag q c f')).
Proof.
  intros g w c q. unfold psc_hxc. destruct (get_f q c) as [f|]; cbn [bind]; auto. unfold hxc_frag. destruct (calc_hxc_potential g w (f_ks f)) as [k|]; cbn [bind]; auto.
  destruct (need (k_vhxc k)); cbn [bind]; auto. destruct (need (k_vhxc (f_ks f))); reflexivity.
Qed.
Lemma step_body : forall g w o sched dif vp c q, psc_fragment g w o sched dif vp c q = (do f <- get_f q c; do f' <- step_frag g w o (sched c) dif vp f; Ok (set_frag q c f')).
Proof.
  intros g w o sched dif vp c q. unfold psc_fragment. destruct (get_f q c) as [f|]; cbn [bind]; auto. unfold step_frag. match goal with |- _ = (do f' <- (do k0 <- ?m; _); _) => destruct m as [k0|]; cbn [bind]; auto end.
  destruct (set_effective_potential k0) as [k1|]; cbn [bind]; auto. destruct (ks_density g w (ps_iter o) dif (sched c) k1) as [kn|]; cbn [bind]; auto. destruct (frag_chempot (fk f (fst kn))) as [f1|]; cbn [bind]; auto.
  destruct (need (k_n (f_ks f1))) as [n|]; cbn [bind]; auto. cbv zeta. destruct (ks_energy _ _ _); reflexivity.
Qed.
Lemma step_VTs : forall g w o l dif vp f f', step_frag g w o l dif vp f = Ok f' -> f_VTs f' = f_VTs f.
Proof.
  intros g w o l dif vp f f' H. unfold step_frag in H.
  match type of H with bind ?m _ = _ => destruct m as [k0|]; [|discriminate] end. cbn [bind] in H. destruct (set_effective_potential k0) as [k1|]; [|discriminate]. cbn [bind] in H.
  destruct (ks_density g w (ps_iter o) dif l k1) as [kn|]; [|discriminate]. cbn [bind] in H. destruct (frag_chempot (fk f (fst kn))) as [f1|] eqn:C; [|discriminate]. cbn [bind] in H.
  destruct (need (k_n (f_ks f1))) as [n|]; [|discriminate]. cbn [bind] in H. cbv zeta in H. destruct (ks_energy _ _ _) as [k2|]; [|discriminate]. cbn [bind] in H. injection H as <-. cbn [fk f_VTs].
  unfold frag_chempot in C. destruct (calc_chempot _); [|discriminate]. cbn [bind] in C. injection C as <-. reflexivity.
Qed.
Lemma vp_total : forall g w p (Pk : comp -> ks -> Prop) (Bk : ks -> Prop), workable g w p -> (1 <= p_pol p)%nat -> inv_live w p -> inv_frags p -> (po_iso (p_opt p) = false -> some (p_V p "vext"%string)) -> some (p_nf p) ->
  stage (fun c f => Pk c (f_ks f)) (fun f => Bk (f_ks f) /\ some (f_Q f)) p ->
  (forall k, Bk k -> some (k_n k) /\ (dftb p = true -> some (V_vh (k_V k)) /\ some (V_vx (k_V k)) /\ some (V_vc (k_V k)))) ->
  exists pv, psc_vp g w p = Ok pv /\ stage (fun c f => Pk c (f_ks f) /\ some (f_V f "vp"%string)) (fun f => Bk (f_ks f) /\ some (f_Q f) /\ (po_iso (p_opt p) = false -> (ktb p = true -> some (f_VTs f)) /\ forall nm, In nm (kinl p) -> some (f_V f nm))) (fst pv) /\
    (po_iso (p_opt p) = false -> (ktb p = true -> some (p_k (fst pv))) /\ (dftb p = true -> some (p_x (fst pv)) /\ some (p_c (fst pv)))) /\ inv_done w (fst pv).
Proof.
  intros g w p Pk Bk WK HP LV FR VX NF S HB. destruct (po_iso (p_opt p)) eqn:I.
  - unfold psc_vp. rewrite I. destruct (have_total _ _ NF) as (nf & ->). cbn [bind].
    destruct (stage_run (fun c f => Pk c (f_ks f)) (fun c f => Pk c (f_ks f) /\ some (f_V f "vp"%string)) (fun f => Bk (f_ks f) /\ some (f_Q f)) (fun f => Bk (f_ks f) /\ some (f_Q f)) (fun c q f => Ok (fV f "vp" (fun _ _ => 0))) (fun c p => do f <- get_f p c; Ok (set_frag p c (fV f "vp" (fun _ _ => 0)))) p) as (p' & -> & W & S'); [intros ? ? ? ?; reflexivity|intros c q; destruct (get_f q c); reflexivity|exact S| |auto|].
    + intros c f X Y. eexists. split; [reflexivity|]. split; [split; [exact X|rewrite fV_same; eexists; reflexivity]|exact Y].
    + cbn [bind]. eexists. split; [reflexivity|]. cbn [fst]. split; [|split; [discriminate|rewrite W; intros J; unfold inverting in J; cbn [with_f p_opt] in J; rewrite I, andb_false_r in J; discriminate]]. eapply stage_mono; [exact S'|auto|]. intros f (X & Y). split; auto. split; auto. discriminate.
  - destruct WK as [WK|(W1 & W2 & W3)]; [congruence|].
    destruct (component_total g w p W1 W2 W3) as (p' & v & E & (A1 & A2 & A3 & A5) & A4).
    { eapply stage_all; [exact S|]. intros f (X & Y). destruct (HB _ X) as (X1 & X2). split; auto. split; auto. split; auto. split; [discriminate|intros nm []]. }
    { auto. } { auto. } { exact I. } { exact HP. } { exact LV. } { exact FR. }
    assert (E' : psc_vp g w p = Ok (p', v)) by (unfold psc_vp; rewrite I; exact E). exists (p', v). split; auto. cbn [fst]. pose proof (psc_vp_same _ _ _ _ E') as PS. cbn [fst] in PS. split; [|auto].
    assert (EN : p_ens p' = p_ens p) by apply PS. assert (EO : p_opt p' = p_opt p) by apply PS.
    intros c Hc. destruct (A1 c Hc) as (f & F & (G1 & G2 & G3 & G4 & G5)). rewrite EN in Hc. destruct (A4 c Hc) as (f2 & F2 & V2). rewrite F in F2. injection F2 as <-.
    destruct (psame_f _ _ _ _ PS F) as (f0 & F0 & (K0 & _)). destruct (S c Hc) as (f1 & F1 & (X & _) & Y). rewrite F0 in F1. injection F1 as <-. exists f. split; auto. rewrite K0. split; [split; auto|]. unfold computed in *. rewrite EN, EO. intros T. split; auto.
Qed.

(** Levels and columns asked for, and complete shells wherever occupation may be fractional. *)
Definition shape (sh : option (nat * nat)) (k : ks) : Prop := match sh with
  | Some (lv, pol) => k_lv k = lv /\ k_cols k = pol /\ forall i j, place k i j -> whole (k_sol k i j)
  | None => True end.
(** An inversion asks every component for the same number of levels and one column per spin. *)
Definition want (lv : nat) (p : part) : option (nat * nat) := if inverting p then Some (lv, p_pol p) else None.
(** A component that can be solved in every pass. *)
Definition ready (g : grid) (w : env) (sched : Z -> comp -> list (nat * nat)) (t : string) (sh : option (nat * nat)) (c : comp) (k : ks) : Prop :=
  able g w k /\ o_int (k_opt k) = t /\ shape sh k /\ forall it, schedule k (sched it c).
Lemma ready_frame : forall g w sched t sh c k k', ready g w sched t sh c k -> frame k k' -> ready g w sched t sh c k'.
Proof.
  intros g w sched t sh c k k' (A & B & D & C) F. split; [eapply able_frame; eauto|]. split; [destruct F as (-> & _); exact B|]. split; [|intros it; eapply schedule_frame; eauto].
  destruct sh as [[lv pol]|]; [|exact D]. destruct D as (D1 & D2 & D3). pose proof F as (_ & _ & _ & _ & F5 & F6 & _ & F8). split; [congruence|]. split; [congruence|]. intros i j (P1 & P2). eapply whole_static; [|apply F8]. apply D3. split; congruence.
Qed.
Definition has_potentials (k : ks) : Prop := some (k_vext k) /\ some (k_vhxc k) /\ some (k_veff k) /\ all_solved k.
(** The state between two passes. *)
Definition standing (g : grid) (w : env) (sched : Z -> comp -> list (nat * nat)) (lv : nat) (p : part) : Prop :=
  stage (fun c f => ready g w sched (po_int (p_opt p)) (want lv p) c (f_ks f) /\ has_potentials (f_ks f)) (fun f => some (k_n (f_ks f)) /\ some (f_Q f)) p /\ some (p_nf p).
Definition kin_left (p : part) (f : frag) : Prop := po_iso (p_opt p) = false -> (ktb p = true -> some (f_VTs f)) /\ forall nm, In nm (kinl p) -> some (f_V f nm).
Definition has_energy (dft : bool) (k : ks) : Prop := (exists e E T, k_E k = Some e /\ E_E e = Fin E /\ E_Ts e = Fin T /\ (dft = true -> some (E_Eh e) /\ some (E_Vhxc e))) /\
  (dft = true -> some (V_eh (k_V k)) /\ some (V_ex (k_V k)) /\ some (V_ec (k_V k))).
Lemma evaluated_energy : forall g w k dft, evaluated g w k -> (dft = true -> o_int (k_opt k) = "dft"%string) -> exists e E T, k_E k = Some e /\ E_E e = Fin E /\ E_Ts e = Fin T /\ (dft = true -> some (E_Eh e) /\ some (E_Vhxc e)).
Proof.
  intros g w k dft (k0 & H) D. pose proof (energy_keep _ _ _ _ H) as (e & W & EK). apply energy_inv in H. destruct H as (E & n & ve & H1 & _ & _ & _ & H5 & _ & _ & _ & _ & _ & _ & H12). exists E.
  destruct H12 as [(I & X)|(I & vhxc & vh & Ex & ex & vx & Ec & ec & vc & Eh & Y1 & Y2 & _ & _ & _ & Y6 & _ & Y8 & _)]; do 2 eexists; (split; [exact H1|]); (split; [eassumption|]); (split; [exact H5|]).
  - intros Q. specialize (D Q). rewrite EK in D. cbn [set_EV k_opt] in D. congruence.
  - intros _. split; eexists; eassumption.
Qed.
Lemma dif_total : forall g p oldE oldn r, (0 < Nelem g)%nat -> (1 <= p_pol p)%nat -> p_T p "E"%string = Some (SC r) -> some (p_nf p) -> exists x, psc_dif g p oldE oldn = Ok x.
Proof.
  intros g p oldE oldn r HN HP T (nf & N). unfold psc_dif, attr. rewrite T, N. cbn [have bind]. unfold dens_residual, integrate. destruct (Nat.eqb_spec (p_pol p) 1); cbn [bind]; [eauto|].
  destruct (Nelem g) eqn:Q; [lia|]. destruct (p_pol p); [lia|]. simpl. eauto.
Qed.
Lemma proto_stage : forall g o p (P : comp -> frag -> Prop) (B B' : frag -> Prop), ps_target o = false -> stage P B p ->
  (forall c a, P c a -> B a -> some (k_n (f_ks a)) /\ some (k_veff (f_ks a)) /\ some (k_vext (f_ks a))) -> (forall c a, P c a -> B a -> B' a) ->
  (forall c a b b', P c a -> B a -> B b -> mirror_frag g a b = Ok b' -> B' b') -> (forall f, B' f -> some (k_n (f_ks f))) -> (forall f q, B' f -> B' (fQ f (Some q))) -> (forall c f q, P c f -> P c (fQ f (Some q))) ->
  exists p', psc_proto g o p = Ok p' /\ stage P (fun f => B' f /\ some (f_Q f)) p' /\ some (p_na p') /\ some (p_nb p') /\ some (p_nf p') /\ p_k p' = p_k p /\ p_x p' = p_x p /\ p_c p' = p_c p /\ p_inv p' = p_inv p /\ p_info p' = p_info p.
Proof.
  intros g o p P B B' T S H1 H2 H3 H4 H5 H6. unfold psc_proto. rewrite T. destruct (stage_mirror g P B B' p S H1 H2 H3) as (p1 & -> & W1 & S1). cbn [bind].
  destruct (proto_total p1) as (p2 & E2 & F2 & N2 & A2 & B2 & C2 & O2); [eapply stage_all; [exact S1|exact H4]|]. rewrite E2. cbn [bind].
  assert (S2 : stage P B' p2). { intros c Hc. rewrite N2 in Hc. rewrite F2. destruct (S1 c Hc) as (f & X). exists f. unfold computed in *. rewrite N2, O2. exact X. }
  destruct (Q_total p2) as (p3 & E3); [eapply stage_all; [exact S2|exact H4]|exact C2|]. exists p3. split; auto. apply Q_inv in E3. destruct E3 as (nf & NF & W3 & M & _).
  assert (KX : p_k p2 = p_k p1 /\ p_x p2 = p_x p1 /\ p_c p2 = p_c p1 /\ p_inv p2 = p_inv p1 /\ p_info p2 = p_info p1). { unfold calc_protomolecule in E2. dm E2. cbv zeta in E2. injection E2 as <-. repeat split. }
  destruct KX as (K1 & K2 & K3 & K4 & K5). split.
  - intros c Hc. assert (CE : computed p3 c <-> computed p2 c) by (rewrite W3; reflexivity). replace (p_ens p3) with (p_ens p2) in Hc by (rewrite W3; reflexivity). destruct (S2 c Hc) as (f & F & X & Y). destruct (M c Hc) as (f1 & n & M1 & _ & M3). rewrite F in M1. injection M1 as <-.
    eexists. split; [exact M3|]. split; [split; [apply H5; exact X|eexists; reflexivity]|]. rewrite CE. intros Q. apply H6. auto.
  - rewrite W3. cbn [with_f p_na p_nb p_nf p_k p_x p_c p_inv p_info]. split; auto. split; auto. split; auto. rewrite K1, K2, K3, K4, K5. rewrite W1. auto 10.
Qed.

(** The inverter's option is set before the pass. *)
Lemma avoid_total : forall w it p, inv_live w p -> exists p1, psc_avoid it p = Ok p1 /\ p_f p1 = p_f p /\ p_ens p1 = p_ens p /\ p_opt p1 = p_opt p /\ p_pol p1 = p_pol p /\ p_V p1 = p_V p /\ p_nf p1 = p_nf p /\ inv_live w p1.
Proof.
  intros w it p LV. unfold psc_avoid. destruct (inverting p) eqn:I.
  - destruct (LV I) as (iv & HI & (R1 & R2 & R3 & R4 & R5) & R6). rewrite HI. cbn [have bind]. eexists. split; [reflexivity|]. repeat (split; [reflexivity|]). intros _. eexists. split; [reflexivity|]. split; [|exact R6]. do 4 (split; [assumption|]). exact R5.
  - exists p. auto 10.
Qed.
(** Every component of an inversion run is solved. *)
Lemma frags_of : forall g w sched t lv p (R : comp -> frag -> Prop) (B : frag -> Prop), (inverting p = true -> po_ab (p_opt p) = false) -> stage R B p -> (forall c f, R c f -> ready g w sched t (want lv p) c (f_ks f) /\ has_potentials (f_ks f)) -> inv_frags p.
Proof.
  intros g w sched t lv p R B AB S H I. exists lv. intros c Hc. destruct (S c Hc) as (f & F & _ & Y). exists f. split; auto. assert (C : computed p c) by (split; [exact Hc|rewrite (AB I); discriminate]). destruct (H c f (Y C)) as ((_ & _ & SH & _) & (_ & _ & V & SV)).
  unfold want in SH. rewrite I in SH. destruct SH as (S1 & S2 & S3). unfold finv. auto 10.
Qed.
Lemma workable_ab : forall g w p, workable g w p -> inverting p = true -> po_ab (p_opt p) = false.
Proof.
  intros g w p [W|(_ & K & _)] I; unfold inverting in I; [rewrite W, andb_false_r in I; discriminate|]. destruct K as [K|[(_ & K & _)|(K & _)]]; [|exact K|]; rewrite K in I; discriminate.
Qed.
Lemma done_fail : forall w p n, inv_done w p -> lsq_converges (pe_inv w) -> inverting p = true -> psc_fail (p_info p) n = Ok 0%nat.
Proof.
  intros w p n D C I. destruct (D I) as (iv & o & inf & _ & ((_ & _ & _ & R4 & _) & _) & _ & -> & HO & OP). unfold psc_fail.
  destruct (forN_total nat (fun i x => (0 < i)%nat -> x = 0%nat) (i_lv iv) (fun i n => forN 1 (fun j n => do x <- have (o i j); fail_step (optimality x) n) n) n) as (x & -> & X); [lia| |rewrite X by lia; reflexivity].
  intros i x Hi _. exists 0%nat. split; [|auto]. cbn [forN bind]. rewrite HO. cbn [have bind]. unfold fail_step. rewrite (C _ OP). reflexivity.
Qed.
(** One pass succeeds and leaves a state in which the next one can start. *)
Lemma pass_total : forall g w o sched lv s, (0 < Nelem g)%nat -> ps_target o = false -> let p := q_p s in (1 <= p_pol p)%nat -> workable g w p -> (po_iso (p_opt p) = false -> some (p_V p "vext"%string)) -> standing g (pe_env w) sched lv p -> inv_live w p ->
  exists p' r, psc_work g w o (sched (q_iter s)) s = Ok (p', r) /\ watching p' = inverting p' /\ standing g (pe_env w) sched lv p' /\ inv_done w p'.
Proof.
  intros g w o sched lv s HN TG p0 HP0 WK0 VX0 (ST0 & NF0) LV0.
  destruct (avoid_total w (q_iter s) p0 LV0) as (p & E1 & Y1 & Y2 & Y3 & Y4 & Y5 & Y6 & LV).
  assert (HP : (1 <= p_pol p)%nat) by (rewrite Y4; exact HP0). assert (WK : workable g w p) by (unfold workable, kin_available, int_available; rewrite Y3, Y4; exact WK0).
  assert (VX : po_iso (p_opt p) = false -> some (p_V p "vext"%string)) by (rewrite Y3, Y5; exact VX0). assert (NF : some (p_nf p)) by (rewrite Y6; exact NF0).
  assert (ST : stage (fun c f => ready g (pe_env w) sched (po_int (p_opt p)) (want lv p) c (f_ks f) /\ has_potentials (f_ks f)) (fun f => some (k_n (f_ks f)) /\ some (f_Q f)) p).
  { unfold stage, want, computed, inverting in *. rewrite Y1, Y2, Y3, Y4. exact ST0. }
  clear HP0 WK0 VX0 ST0 NF0 LV0 Y1 Y2 Y3 Y4 Y5 Y6. pose proof (workable_ab g w p WK) as AB.
  set (sc := sched (q_iter s)). set (t := po_int (p_opt p)) in *. set (sh := want lv p) in *.
  assert (NW : watching p = inverting p).
  { unfold inverting, watching. destruct (po_iso (p_opt p)) eqn:I; [rewrite !andb_false_r; auto|]. destruct WK as [WK|(W1 & W2 & _)]; [congruence|]. rewrite W1.
    destruct W2 as [-> |[(-> & _)| (-> & _)]]; auto. }
  assert (DI : dftb p = true -> t <> "ni"%string /\ t = "dft"%string). { unfold dftb. fold t. intros H. apply String.eqb_eq in H. rewrite H. split; [discriminate|reflexivity]. }
  (* hxc *)
  pose (Bk := fun k => some (k_n k) /\ (dftb p = true -> some (V_vh (k_V k)) /\ some (V_vx (k_V k)) /\ some (V_vc (k_V k)))).
  pose (Pk := fun c k => ready g (pe_env w) sched t sh c k /\ has_potentials k).
  destruct (stage_run (fun c f => Pk c (f_ks f)) (fun c f => Pk c (f_ks f) /\ Bk (f_ks f)) (fun f => some (k_n (f_ks f)) /\ some (f_Q f)) (fun f => some (k_n (f_ks f)) /\ some (f_Q f)) (fun c q f => hxc_frag g (pe_env w) f) (psc_hxc g (pe_env w)) p) as (p2 & E2 & W2 & S2).
  { intros ? ? ? ?; reflexivity. } { intros; apply hxc_body. } { exact ST. }
  { intros c f ((R1 & R2 & RS & R3) & (V1 & V2 & V3 & V4)) (N & Q). destruct (hxc_frag_total g (pe_env w) f HN R1 N V1 V2) as (f' & E & VE & X). exists f'. split; auto.
    pose proof (hxc_frag_inv _ _ _ _ E) as ((FR & _ & _ & _ & FQ & _) & _ & H3 & H4 & _ & H6 & k & v & _ & _ & H9 & _).
    assert (N' : some (k_n (f_ks f'))) by (rewrite H3; exact N). split; [split; [split|]|].
    - eapply ready_frame; [|exact FR]. split; auto.
    - split; [rewrite H4; exact V1|]. split; [destruct (k_vhxc (f_ks f')) as [x|]; [exists x; auto|congruence]|split; [rewrite VE; exact V3|]]. destruct FR as (_ & _ & _ & _ & L1 & L2 & _). intros i j (P1 & P2). rewrite H6. apply V4. split; congruence.
    - split; auto. intros D. destruct (DI D) as (D1 & _). apply X. rewrite R2. exact D1.
    - split; auto. rewrite FQ. exact Q. }
  { auto. }
  assert (O2 : p_opt p2 = p_opt p) by (rewrite W2; reflexivity).
  (* mirror *)
  destruct (stage_mirror g (fun c f => Pk c (f_ks f) /\ Bk (f_ks f)) (fun f => some (k_n (f_ks f)) /\ some (f_Q f)) (fun f => Bk (f_ks f) /\ some (f_Q f)) p2 S2) as (p3 & E3 & W3 & S3).
  { intros c a ((_ & V1 & V2 & V3 & _) & _) (N & _). auto. } { intros c a (_ & X) (_ & Y). auto. }
  { intros c a b b' ((_ & V1 & V2 & V3 & _) & (N & D)) (_ & Q) _ M. destruct (mirror_frag_total g a b N V3 V1) as (b2 & M2 & X1 & _ & X3 & _ & _ & X6 & X7 & X8 & _). rewrite M in M2. injection M2 as <-. split; [split; auto|auto]. intros D0. destruct (D D0) as (D1 & D2 & D3). auto. }
  assert (O3 : p_opt p3 = p_opt p) by (rewrite W3; exact O2). assert (P3 : p_pol p3 = p_pol p) by (rewrite W3, W2; reflexivity). assert (VX3 : p_V p3 = p_V p) by (rewrite W3, W2; reflexivity). assert (NF3 : p_nf p3 = p_nf p) by (rewrite W3, W2; reflexivity).
  (* potential *)
  assert (DB3 : dftb p3 = dftb p) by (unfold dftb; rewrite O3; reflexivity). assert (KT3 : ktb p3 = ktb p) by (unfold ktb; rewrite O3; reflexivity). assert (KL3 : kinl p3 = kinl p) by (unfold kinl; rewrite KT3; reflexivity).
  assert (WKF : forall q, p_opt q = p_opt p -> p_pol q = p_pol p -> workable g w q). { intros q Q1 Q2. unfold workable, kin_available, int_available. rewrite Q1, Q2. exact WK. }
  destruct (vp_total g w p3 (fun c k => Pk c k /\ Bk k) Bk) as (pv & E4 & S4 & X4 & D4); [apply WKF; auto|rewrite P3; exact HP| | |rewrite O3, VX3; exact VX|rewrite NF3; exact NF|exact S3|rewrite DB3; auto|].
  { unfold inv_live, inverting. rewrite O3, W3, W2. exact LV. }
  { eapply (frags_of g (pe_env w) sched t lv); [unfold inverting; rewrite O3; exact AB|exact S3|]. intros c f (X & _). replace (want lv p3) with sh by (unfold sh, want, inverting; rewrite O3, P3; reflexivity). exact X. }
  pose proof (psc_vp_same _ _ _ _ E4) as PS4. assert (O4 : p_opt (fst pv) = p_opt p) by (rewrite <- O3; apply PS4). assert (P4 : p_pol (fst pv) = p_pol p) by (rewrite <- P3; apply PS4).
  rewrite O3, KT3, KL3, DB3 in *.
  assert (CA : comps_ab p = comps_ab (fst pv)). { unfold comps_ab. rewrite O4. replace (p_ens (fst pv)) with (p_ens p3) by (symmetry; apply PS4). rewrite W3, W2. reflexivity. }
  (* solve *)
  pose (Be := fun f => some (k_n (f_ks f)) /\ some (f_Q f) /\ kin_left p f).
  destruct (stage_run (fun c f => (Pk c (f_ks f) /\ Bk (f_ks f)) /\ some (f_V f "vp"%string)) (fun c f => Pk c (f_ks f) /\ has_energy (dftb p) (f_ks f)) Be Be (fun c q f => step_frag g (pe_env w) o (sc c) (q_dif s) (snd pv) f) (psc_fragment g (pe_env w) o sc (q_dif s) (snd pv)) (fst pv)) as (p5 & E5 & W5 & S5).
  { intros ? ? ? ?; reflexivity. } { intros; apply step_body. } { eapply stage_mono; [exact S4|auto|]. intros f ((X & _) & Y & Z). split; auto. }
  { intros c f ((((R1 & R2 & RS & R3) & (V1 & V2 & V3 & _)) & (N & D)) & VP) (_ & Q & KL). cbv beta in *.
    destruct (step_frag_total g (pe_env w) o (sc c) (q_dif s) (snd pv) f HN R1 (R3 _) N V1 V2) as (f' & E & VE & VX' & X & SV); [auto|]. exists f'. split; auto.
    pose proof (step_VTs _ _ _ _ _ _ _ _ E) as VT. apply step_inv in E. destruct E as ((FR & _ & _ & _ & FQ & FV) & x & k1 & k2 & n & nout & _ & _ & _ & _ & _ & _ & G7 & G8 & _ & G10).
    split; [split; [split|split]|].
    - eapply ready_frame; [|exact FR]. split; auto.
    - split; auto. split; [rewrite G10; exact V2|]. split; auto.
    - eapply evaluated_energy; [exact G8|]. intros D0. destruct FR as (-> & _). rewrite R2. apply (DI D0).
    - intros D0. apply X. rewrite R2. apply (DI D0).
    - split; [rewrite G7; eexists; reflexivity|]. split; [rewrite FQ; exact Q|]. unfold kin_left. rewrite VT, FV. exact KL. }
  { auto. }
  assert (O5 : p_opt p5 = p_opt p) by (rewrite W5; exact O4). assert (P5 : p_pol p5 = p_pol p) by (rewrite W5; exact P4).
  (* protomolecule *)
  destruct (proto_stage g o p5 (fun c f => Pk c (f_ks f) /\ has_energy (dftb p) (f_ks f)) Be (fun f => some (k_n (f_ks f)) /\ has_energy (dftb p) (f_ks f) /\ kin_left p f)) as (p6 & E6 & S6 & NA & NB & NF6 & K6 & KX & KC & KI & KF).
  { exact TG. } { exact S5. } { intros c a ((_ & V1 & V2 & V3 & _) & _) (N & _). auto. } { intros c a (_ & X) (N & _ & KL). auto. }
  { intros c a b b' ((_ & V1 & V2 & V3 & _) & (e & D)) (N & Q & _) (_ & _ & KL) M. destruct (mirror_frag_total g a b N V3 V1) as (b2 & M2 & X1 & X2 & _ & X4' & X5 & _ & _ & _ & X9 & X10 & X11). rewrite M in M2. injection M2 as <-.
    split; auto. split.
    - split; [rewrite X4'; exact e|]. intros D0. destruct (D D0) as (D1 & D2 & D3). auto.
    - intros I. destruct (KL I) as (L1 & L2). rewrite X2. split; auto. }
  { intros f (X & _). exact X. } { auto. } { auto. }
  assert (PS6 : pstat p5 p6) by (eapply psc_proto_stat; exact E6).
  assert (O6 : p_opt p6 = p_opt p) by (rewrite <- O5; apply PS6). assert (P6 : p_pol p6 = p_pol p) by (rewrite <- P5; apply PS6).
  assert (DB6 : dftb p6 = dftb p) by (unfold dftb; rewrite O6; reflexivity). assert (KT6 : ktb p6 = ktb p) by (unfold ktb; rewrite O6; reflexivity). assert (KL6 : kinl p6 = kinl p) by (unfold kinl; rewrite KT6; reflexivity).
  (* energy *)
  destruct (energy_all_total g w p6) as (p7 & r & E7 & T7 & D7); [apply WKF; auto| |exact NA|exact NB|exact NF6| | | |].
  { rewrite O6, DB6, KT6, KL6. destruct (po_iso (p_opt p)) eqn:I.
    - right. split; auto. eapply stage_all; [exact S6|]. intros f ((X1 & (X2 & X3) & X4') & X5). split; auto. split; auto. split; auto. split; auto. split; [discriminate|intros nm []].
    - left. eapply stage_all; [exact S6|]. intros f ((X1 & (X2 & X3) & X4') & X5). destruct (X4' I) as (L1 & L2). split; auto. }
  { rewrite O6, DB6, KT6, K6, KX, KC. rewrite W5. cbn [with_f p_k p_x p_c]. exact X4. }
  { apply (done_same w (fst pv)); [congruence|rewrite KI, W5; reflexivity|rewrite KF, W5; reflexivity|exact D4]. }
  { eapply (frags_of g (pe_env w) sched t lv); [unfold inverting; rewrite O6; exact AB|exact S6|]. intros c f (X & _). replace (want lv p6) with sh by (unfold sh, want, inverting; rewrite O6, P6; reflexivity). exact X. }
  pose proof (energy_same _ _ _ _ E7) as PS7. assert (O7 : p_opt p7 = p_opt p) by (rewrite <- O6; apply PS7). assert (P7 : p_pol p7 = p_pol p) by (rewrite <- P6; apply PS7).
  assert (NF7 : some (p_nf p7)) by (replace (p_nf p7) with (p_nf p6) by (symmetry; apply PS7); exact NF6).
  destruct (dif_total g p7 (q_oldE s) (q_oldn s) r HN) as (x & E8); [lia|exact T7|exact NF7|].
  exists p7, x. split; [|split; [|split]].
  - unfold psc_work. fold p0. rewrite E1. cbn [bind]. rewrite E2. cbn [bind]. rewrite E3. cbn [bind]. rewrite E4. cbn [bind]. fold sc. rewrite CA, E5. cbn [bind]. rewrite E6. cbn [bind]. rewrite E7. cbn [bind]. rewrite E8. reflexivity.
  - unfold watching, inverting in *. rewrite O7. exact NW.
  - split; [|exact NF7]. intros c Hc. replace (p_ens p7) with (p_ens p6) in Hc by (symmetry; apply PS7). destruct (S6 c Hc) as (f & F & ((X1 & _) & X2) & Y). destruct (psame_f' _ _ _ _ PS7 F) as (f' & F' & (K' & _ & Q' & _)). exists f'. split; auto.
    rewrite K', Q'. split; auto. intros T. replace (want lv p7) with sh by (unfold sh, want, inverting; rewrite O7, P7; reflexivity). rewrite O7. apply Y. unfold computed in *. replace (p_ens p6) with (p_ens p7) by apply PS7. rewrite O6, <- O7. exact T.
  - exact D7.
Qed.

(** * The whole run *)
Lemma setup_total : forall o p, List.length (ps_alpha o) = 1%nat \/ List.length (ps_alpha o) = 2%nat -> all_f (fun _ => True) p -> exists p', psc_setup o p = Ok p'.
Proof.
  intros o p AL A. unfold psc_setup.
  destruct (all_run (fun _ => True) (fun _ => True) (fun c q f => Ok (ffrozen f (if in_a c then ps_fa o else ps_fb o))) (fun c p => do f <- get_f p c; Ok (set_frag p c (ffrozen f (if in_a c then ps_fa o else ps_fb o)))) p) as (p1 & -> & W1 & A1); [intros ? ? ? ?; reflexivity|intros c q; destruct (get_f q c); reflexivity|exact A|eauto|]. cbn [bind].
  assert (X : exists al, (match ps_alpha o with [x] => Ok (x, x) | [x; y] => Ok (x, y) | _ => Err ValueError end) = Ok al) by (destruct (ps_alpha o) as [|x [|y [|]]]; simpl in AL; try (exfalso; lia); eauto).
  destruct X as (al & ->). cbn [bind]. replace (p_ens p) with (p_ens p1) by (rewrite W1; reflexivity).
  destruct (all_run (fun _ => True) (fun _ => True) (fun c q f => Ok (falpha f (if in_a c then fst al else snd al))) (fun c p => do f <- get_f p c; Ok (set_frag p c (falpha f (if in_a c then fst al else snd al)))) p1) as (p2 & -> & _); [intros ? ? ? ?; reflexivity|intros c q; destruct (get_f q c); reflexivity|exact A1|eauto|eauto].
Qed.
Lemma guess_body : forall g w o sched c q, ps_cont o = false -> psc_guess g w o sched c q = (do f <- get_f q c; do f' <- guess_frag g w o (sched c) f; Ok (set_frag q c f')).
Proof.
  intros g w o sched c q CO. unfold psc_guess, guess_frag. rewrite CO. destruct (get_f q c) as [f|]; cbn [bind]; auto.
  destruct (set_effective_potential _) as [k1|]; cbn [bind]; auto. destruct (ks_density _ _ _ _ _ k1) as [kn|]; cbn [bind]; auto.
Qed.
(** Every component exists; those that are solved can be solved. *)
Definition equipped (g : grid) (w : env) (sched : Z -> comp -> list (nat * nat)) (lv : nat) (p : part) : Prop :=
  stage (fun c f => ready g w sched (po_int (p_opt p)) (want lv p) c (f_ks f)) (fun _ => True) p.
Lemma start_total : forall g w o sched lv p, (0 < Nelem g)%nat -> ps_target o = false -> ps_cont o = false -> List.length (ps_alpha o) = 1%nat \/ List.length (ps_alpha o) = 2%nat -> equipped g w sched lv p ->
  exists p', psc_start g w o (sched 0%Z) p = Ok p' /\ standing g w sched lv p' /\ p_inv p' = p_inv p.
Proof.
  intros g w o sched lv p HN TG CO AL EQ. unfold psc_start. destruct (setup_total o p AL) as (p1 & E1); [eapply stage_all; [exact EQ|auto]|]. rewrite E1. cbn [bind]. apply setup_inv in E1. destruct E1 as (W1 & M1 & _).
  replace (comps_ab p) with (comps_ab p1) by (rewrite W1; reflexivity). assert (O1 : p_opt p1 = p_opt p) by (rewrite W1; reflexivity). assert (N1 : p_ens p1 = p_ens p) by (rewrite W1; reflexivity).
  set (P := fun c f => ready g w sched (po_int (p_opt p)) (want lv p) c (f_ks f)).
  destruct (stage_run P (fun c f => P c f /\ some (k_n (f_ks f)) /\ has_potentials (f_ks f)) (fun _ => True) (fun _ => True) (fun c q f => guess_frag g w o (sched 0%Z c) f) (psc_guess g w o (sched 0%Z)) p1) as (p2 & E2 & W2 & S2).
  { intros ? ? ? ?; reflexivity. } { intros; apply guess_body; auto. }
  { intros c Hc. rewrite N1 in Hc. destruct (M1 c Hc) as (f & al & F & _ & F'). destruct (EQ c Hc) as (f0 & F0 & _ & Y). rewrite F in F0. injection F0 as <-. eexists. split; [exact F'|]. split; auto. intros T. apply Y. unfold computed in *. rewrite N1, O1 in T. exact T. }
  { intros c f (R1 & R2 & RS & R3) _. destruct (guess_frag_total g w o (sched 0%Z c) f HN R1 (R3 _) CO) as (f' & E & VE & SV). exists f'. split; auto. split; auto. apply guess_frag_inv in E. rewrite CO in E. destruct E as ((FR & _) & n & N & k1 & k2 & _ & _ & V1 & V2).
    split; [eapply ready_frame; [split; eauto|exact FR]|]. split; [exists n; exact N|]. split; [rewrite V1; eexists; reflexivity|]. split; [rewrite V2; eexists; reflexivity|split; [exact VE|exact SV]]. }
  { auto. }
  rewrite E2. cbn [bind].
  destruct (proto_stage g o p2 (fun c f => P c f /\ some (k_n (f_ks f)) /\ has_potentials (f_ks f)) (fun _ => True) (fun f => some (k_n (f_ks f)))) as (p3 & E3 & S3 & _ & _ & NF & _ & _ & _ & KI & _).
  { exact TG. } { exact S2. } { intros c a (_ & N & V1 & _ & V3 & _) _. auto. } { intros c a (_ & N & _) _. exact N. }
  { intros c a b b' (_ & N & V1 & _ & V3 & _) _ _ M. destruct (mirror_frag_total g a b N V3 V1) as (b2 & M2 & X1 & _). rewrite M in M2. injection M2 as <-. exact X1. }
  { auto. } { auto. } { auto. }
  exists p3. split; auto. split; [split; auto|rewrite KI, W2, W1; reflexivity]. assert (O3 : p_opt p3 = p_opt p /\ p_pol p3 = p_pol p). { apply psc_proto_stat in E3. destruct E3 as ((E3 & E4 & _) & _). rewrite E3, E4, W2, W1. auto. }
  destruct O3 as (O3 & P3). replace (want lv p3) with (want lv p) by (unfold want, inverting; rewrite O3, P3; reflexivity). rewrite O3. eapply stage_mono; [exact S3| |auto]. intros c f (X & _ & Y) _. split; auto.
Qed.
Lemma loop_total : forall g w o sched lv n s, (0 < Nelem g)%nat -> ps_target o = false -> ps_auto o = false -> let p := q_p s in (1 <= p_pol p)%nat -> workable g w p -> (po_iso (p_opt p) = false -> some (p_V p "vext"%string)) -> standing g (pe_env w) sched lv p -> inv_live w p -> (inverting p = true -> lsq_converges (pe_inv w)) ->
  exists s', psc_loop g w o sched n s = Ok s'.
Proof.
  intros g w o sched lv n. induction n as [|n IH]; intros s HN TG AU p HP WK VX ST LV CV; cbn [psc_loop]; [eauto|].
  unfold psc_test. destruct (gtb (q_dif s) (Fin (ps_tol o))); [|rewrite AU; cbn [bind]; eauto]. cbn [bind]. destruct (q_iter s <=? ps_maxit o)%Z; [|eauto].
  destruct (pass_total g w o sched lv s HN TG HP WK VX ST LV) as (p' & r & E & W & S' & D'). rewrite body_work, E. cbn [bind fst].
  pose proof (pass_static _ _ _ _ _ _ _ E) as (A1 & A2 & _ & _ & _ & _ & _ & _ & _ & A10 & _).
  assert (FL : exists fl, (if watching p' then psc_fail (p_info p') (q_fail s) else Ok (q_fail s)) = Ok fl) by (rewrite W; destruct (inverting p') eqn:IV; [|eauto]; rewrite (done_fail w) by (auto; apply CV; unfold inverting in *; rewrite A1 in IV; exact IV); eauto). destruct FL as (fl & ->). cbn [bind fst snd]. assert (Q : q_p (psc_next o s p' r fl) = p') by (destruct r as [[? ?] ?]; reflexivity).
  apply IH; auto; rewrite Q.
  - rewrite A2. exact HP.
  - unfold workable, kin_available, int_available. rewrite A1, A2. exact WK.
  - rewrite A1, A10. exact VX.
  - exact S'.
  - apply done_live. exact D'.
  - unfold inverting. rewrite A1. exact CV.
Qed.
(** Partition.scf() returns. *)
Theorem scf_works : forall g w sched d p o lv, (0 < Nelem g)%nat -> psc_options p d = Ok o -> ps_target o = false -> ps_cont o = false -> ps_auto o = false -> List.length (ps_alpha o) = 1%nat \/ List.length (ps_alpha o) = 2%nat ->
  (1 <= p_pol p)%nat -> workable g w p -> (po_iso (p_opt p) = false -> some (p_V p "vext"%string)) -> equipped g (pe_env w) sched lv p -> inv_live w p -> (inverting p = true -> lsq_converges (pe_inv w)) -> exists s, partition_scf g w sched d p = Ok s.
Proof.
  intros g w sched d p o lv HN O TG CO AU AL HP WK VX EQ LV CV. unfold partition_scf. rewrite O. cbn [bind]. destruct (start_total g (pe_env w) o sched lv p HN TG CO AL EQ) as (p0 & E0 & S0 & I0). rewrite E0. cbn [bind].
  destruct (start_stat _ _ _ _ _ _ E0) as (p1 & E1 & (A1 & A2 & _ & _ & _ & _ & _ & _ & _ & A10 & _)). apply setup_inv in E1. destruct E1 as (W1 & _). rewrite W1 in A1, A2, A10. cbn [with_f p_opt p_pol p_V] in A1, A2, A10.
  pose proof S0 as (_ & NF). destruct (have_total _ _ NF) as (nf & ->). cbn [bind]. apply (loop_total g w o sched lv); auto; cbn [q_p].
  - rewrite A2. exact HP.
  - unfold workable, kin_available, int_available. rewrite A1, A2. exact WK.
  - rewrite A1, A10. exact VX.
  - unfold inv_live, inverting. rewrite A1, I0. exact LV.
  - unfold inverting. rewrite A1. exact CV.
Qed.
End Inverting.
