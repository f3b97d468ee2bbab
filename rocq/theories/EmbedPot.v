(** The partition potential of explicit kinetic functionals, written with the functionals of the densities. *)
From Coq Require Import Reals List Arith Lia Lra ZArith Bool String.
From Verif Require Import Base BaseLemmas GridModel GridSpec GridProofs HartreeModel SolverModel SolverSpec LibxcModel OptionsModel KSModel KSSpec KSProofs KSThms KSLoop KSEnergy KSTotal
  InverterModel PartitionModel PartitionSpec PartitionBase PartitionConstr PartitionDens PartitionFrame PartitionEnergy PartitionEp PartitionKin PartitionPot PartitionLoop PartitionStep PartitionKeep PartitionPass PartitionScf PartitionModes.
Import ListNotations.
Local Open Scope R_scope.

(** * Specification *)
(** Kinetic potential of the density n under the kinetic part of p: none, or a library functional. *)
Definition kinetic_pot (g : grid) (w : env) (p : part) (n v : mat) : Prop :=
  (po_kin (p_opt p) = "none"%string /\ forall x s, v x s = 0) \/
  (po_kin (p_opt p) = "libxcke"%string /\ exists T t, get_xc g (e_lib w) (po_kfam (p_opt p)) (po_kid (p_opt p)) (p_pol p) n = Ok (T, t, v)).
(** Potential of the repulsion of the density n as far as it enters the partition potential. *)
Definition repulsion_pot (g : grid) (w : env) (p : part) (n v : mat) : Prop :=
  (po_int (p_opt p) = "ni"%string /\ po_hxc (p_opt p) = "exact"%string /\ forall x s, v x s = 0) \/
  (po_int (p_opt p) = "dft"%string /\ exists x c vh, get_xc g (e_lib w) (po_fam (p_opt p)) (po_xid (p_opt p)) (p_pol p) n = Ok x /\ get_xc g (e_lib w) (po_fam (p_opt p)) (po_cid (p_opt p)) (p_pol p) n = Ok c /\
     v_hartree g (e_spL w) (e_spU w) (A2 (p_pol p) n) = Ok vh /\
     ((po_hxc (p_opt p) = "exact"%string /\ forall y s, v y s = entry vh y s + snd x y s + snd c y s) \/ (po_hxc (p_opt p) = "hartree"%string /\ forall y s, v y s = entry vh y s))).
(** Partitions whose potential is made of explicit functionals. *)
Definition explicit (p : part) : Prop := (po_kin (p_opt p) = "none" \/ po_kin (p_opt p) = "libxcke")%string /\ (po_hxc (p_opt p) = "exact" \/ po_hxc (p_opt p) = "hartree")%string /\
  (po_int (p_opt p) = "ni" \/ po_int (p_opt p) = "dft")%string.

(** * Parts *)
Lemma nuclear_part : forall p p', vp_nuclear p = Ok p' -> forall c, member (p_ens p) c -> exists f f' v x, p_f p c = Some f /\ p_f p' c = Some f' /\ f_ks f' = f_ks f /\ p_V p "vext"%string = Some v /\
  f_V f' "vp_pot"%string = Some x /\ forall k s, x k s = v k s - k_vnuc (f_ks f) k s.
Proof.
  intros p p' H c Hc. unfold vp_nuclear in H. set (h := fun (c : comp) (p : part) (f : frag) => do v <- attr (p_V p) "vext"; Ok (fV f "vp_pot" (fun k s => v k s - k_vnuc (f_ks f) k s))).
  assert (H' : forL (comps (p_ens p)) (fun c p => do f <- get_f p c; do f' <- h c p f; Ok (set_frag p c f')) p = Ok p').
  { rewrite <- H. apply forL_ext. intros e q _. unfold h. destruct (get_f q e); cbn [bind]; auto. destruct (attr (p_V q) "vext"); reflexivity. }
  apply (forL_frags h) in H'; [|intros ? ? ? ?; reflexivity|apply comps_nodup]. destruct H' as (_ & B & _). destruct (B c (proj2 (in_comps _ _) Hc)) as (f & f' & B1 & B2 & B3). unfold h in B2.
  destruct (attr (p_V p) "vext") as [v|] eqn:V; [|discriminate]. cbn [bind] in B2. injection B2 as <-. apply have_some in V.
  eexists f, _, v, _. split; [exact B1|]. split; [exact B3|]. split; [reflexivity|]. split; [exact V|]. split; [apply fV_same|]. reflexivity.
Qed.

Lemma finish_any : forall g p p' t, vpk_finish g p = Ok p' -> po_kin (p_opt p) <> "twoorbital"%string /\ po_kin (p_opt p) <> "fixed"%string -> p_vt p = Some (p_pol p, fun k s => Fin (t k s)) ->
  forall c f tc, member (p_ens p) c -> p_f p c = Some f -> f_vt f = Some (fun k s => Fin (tc k s)) -> exists f' x, p_f p' c = Some f' /\ f_ks f' = f_ks f /\ f_V f' "vp_kin"%string = Some x /\ f_V f' "vp_pot"%string = f_V f "vp_pot"%string /\
  forall k s, (k < Nelem g)%nat -> (s < p_pol p)%nat -> x k s = t k s - tc k s.
Proof.
  intros g p p' t H KT VT c f tc Hc F FV. unfold vpk_finish in H.
  destruct KT as (Q1 & Q2). apply String.eqb_neq in Q1, Q2. rewrite Q1, Q2 in H.
  set (h := fun (c : comp) (p : part) (f : frag) => do v <- have (p_vt p); do vf <- have (f_vt f); match bdim (fst v) (p_pol p) with Some d => if negb (d =? p_pol p)%nat then Err ValueError else
     do x <- finite (Nelem g) (p_pol p) (fun k s => no_nan (nsub (snd v k (bix (fst v) s)) (vf k s))); Ok (fV f "vp_kin" x) | None => Err ValueError end).
  assert (H' : forL (comps (p_ens p)) (fun c p => do f <- get_f p c; do f' <- h c p f; Ok (set_frag p c f')) p = Ok p').
  { rewrite <- H. apply forL_ext. intros e q _. unfold h. destruct (get_f q e) as [f9|]; cbn [bind]; auto. destruct (have (p_vt q)) as [v9|]; cbn [bind]; auto. destruct (have (f_vt f9)); cbn [bind]; auto.
    destruct (bdim (fst v9) (p_pol q)) as [d|]; auto. destruct (negb (d =? p_pol q)%nat); auto. destruct (finite _ _ _); reflexivity. }
  apply (forL_frags h) in H'; [|intros ? ? ? ?; reflexivity|apply comps_nodup]. destruct H' as (_ & B & _). destruct (B c (proj2 (in_comps _ _) Hc)) as (f0 & f' & B1 & B2 & B3). rewrite F in B1. injection B1 as <-.
  unfold h in B2. rewrite VT, FV in B2. cbn [have bind fst snd] in B2. unfold bdim in B2. rewrite Nat.eqb_refl in B2. cbv iota in B2. rewrite Nat.eqb_refl in B2. cbn [negb] in B2. cbv iota in B2.
  destruct (finite _ _ _) as [x|] eqn:E; [|discriminate]. cbn [bind] in B2. injection B2 as <-. exists (fV f "vp_kin" x), x. split; [exact B3|]. split; [reflexivity|]. split; [apply fV_same|]. split; [apply fV_other; discriminate|].
  intros k s Hk Hs. apply finite_ok in E. destruct E as (_ & E). rewrite E. unfold bix. destruct (Nat.eqb_spec (p_pol p) 1) as [P1|_]; [assert (s = 0%nat) as -> by lia|]; reflexivity.
Qed.
Lemma finish_part : forall g p p' t, vpk_finish g p = Ok p' -> po_kin (p_opt p) = "none"%string \/ po_kin (p_opt p) = "libxcke"%string -> p_vt p = Some (p_pol p, fun k s => Fin (t k s)) ->
  forall c f tc, member (p_ens p) c -> p_f p c = Some f -> f_vt f = Some (fun k s => Fin (tc k s)) -> exists f' x, p_f p' c = Some f' /\ f_ks f' = f_ks f /\ f_V f' "vp_kin"%string = Some x /\ f_V f' "vp_pot"%string = f_V f "vp_pot"%string /\
  forall k s, (k < Nelem g)%nat -> (s < p_pol p)%nat -> x k s = t k s - tc k s.
Proof. intros g p p' t H KT. apply (finish_any g p p' t H). destruct KT as [-> | ->]; split; discriminate. Qed.

Lemma kinetic_part : forall g w p p', vp_kinetic g w p = Ok p' -> po_kin (p_opt p) = "none"%string \/ po_kin (p_opt p) = "libxcke"%string -> exists nf t, p_nf p = Some nf /\ kinetic_pot g (pe_env w) p nf t /\
  forall c, member (p_ens p) c -> exists f n tc f' x, p_f p c = Some f /\ k_n (f_ks f) = Some n /\ kinetic_pot g (pe_env w) p n tc /\ p_f p' c = Some f' /\ f_ks f' = f_ks f /\ f_V f' "vp_kin"%string = Some x /\ f_V f' "vp_pot"%string = f_V f "vp_pot"%string /\
    forall k s, (k < Nelem g)%nat -> (s < p_pol p)%nat -> x k s = t k s - tc k s.
Proof.
  intros g w p p' H KT. unfold vp_kinetic in H. cbv zeta in H. destruct KT as [KT|KT]; rewrite KT in H; cbn [String.eqb Ascii.eqb Bool.eqb] in H.
  - destruct (vpk_none p) as [p1|] eqn:E1; [|discriminate]. cbn [bind] in H. unfold vpk_none in E1. destruct (have (p_nf p)) as [nf|] eqn:NF; [|discriminate]. cbn [bind] in E1. apply have_some in NF.
    set (h := fun (c : comp) (p : part) (f : frag) => do n <- need (k_n (f_ks f)); Ok (fvt f (fun _ _ => Fin 0))).
    assert (H' : forL (comps (p_ens p)) (fun c p => do f <- get_f p c; do f' <- h c p f; Ok (set_frag p c f')) (set_vt p (p_pol p) (fun _ _ => Fin 0)) = Ok p1).
    { rewrite <- E1. apply forL_ext. intros e q _. unfold h. destruct (get_f q e) as [f9|]; cbn [bind]; auto. destruct (need (k_n (f_ks f9))); reflexivity. }
    apply (forL_frags h) in H'; [|intros ? ? ? ?; reflexivity|apply comps_nodup]. destruct H' as (A & B & _).
    exists nf, (fun _ _ => 0). split; [exact NF|]. split; [left; split; auto|]. intros c Hc. destruct (B c (proj2 (in_comps _ _) Hc)) as (f & f1 & B1 & B2 & B3). unfold h in B2.
    destruct (need (k_n (f_ks f))) as [n|] eqn:N; [|discriminate]. cbn [bind] in B2. injection B2 as <-. apply need_some in N.
    destruct (finish_part g p1 p' (fun _ _ => 0) H) with (c := c) (f := fvt f (fun _ _ => Fin 0)) (tc := fun _ _ : nat => 0) as (f' & x & F1 & F2 & F3 & F4 & F5).
    + left. rewrite A. exact KT.
    + rewrite A. reflexivity.
    + rewrite A. exact Hc.
    + exact B3.
    + reflexivity.
    + exists f, n, (fun _ _ => 0), f', x. split; [exact B1|]. split; [exact N|]. split; [left; split; auto|]. split; [exact F1|]. split; [exact F2|]. split; [exact F3|]. split; [exact F4|]. intros k s Hk Hs. apply F5; auto. rewrite A. exact Hs.
  - destruct (vpk_libxc g w p) as [p1|] eqn:E1; [|discriminate]. cbn [bind] in H. unfold vpk_libxc in E1. cbv zeta in E1. destruct (have (p_nf p)) as [nf|] eqn:NF; [|discriminate]. cbn [bind] in E1. apply have_some in NF.
    destruct (get_xc g (e_lib (pe_env w)) (po_kfam (p_opt p)) (po_kid (p_opt p)) (p_pol p) nf) as [[[T t] v]|] eqn:X; [|discriminate]. cbn [bind] in E1.
    set (h := fun (c : comp) (q : part) (f : frag) => do n <- need (k_n (f_ks f)); do x <- get_xc g (e_lib (pe_env w)) (po_kfam (p_opt p)) (po_kid (p_opt p)) (p_pol p) n; let '(T, t, v) := x in Ok (fvt (fV (fTs f T) "ts" (fun k _ => t k)) (fun k s => Fin (v k s)))).
    assert (H' : forL (comps (p_ens p)) (fun c p => do f <- get_f p c; do f' <- h c p f; Ok (set_frag p c f')) (set_vt (set_kin p (T, t)) (p_pol p) (fun k s => Fin (v k s))) = Ok p1).
    { rewrite <- E1. apply forL_ext. intros e q _. unfold h. destruct (get_f q e) as [f9|]; cbn [bind]; auto. destruct (need (k_n (f_ks f9))) as [n9|]; cbn [bind]; auto. destruct (get_xc _ _ _ _ _ n9) as [[[? ?] ?]|]; reflexivity. }
    apply (forL_frags h) in H'; [|intros ? ? ? ?; reflexivity|apply comps_nodup]. destruct H' as (A & B & _).
    exists nf, v. split; [exact NF|]. split; [right; eauto|]. intros c Hc. destruct (B c (proj2 (in_comps _ _) Hc)) as (f & f1 & B1 & B2 & B3). unfold h in B2.
    destruct (need (k_n (f_ks f))) as [n|] eqn:N; [|discriminate]. cbn [bind] in B2. destruct (get_xc _ _ _ _ _ n) as [[[T1 t1] v1]|] eqn:X1 in B2; [|discriminate]. cbn [bind] in B2. injection B2 as <-. apply need_some in N.
    destruct (finish_part g p1 p' v H) with (c := c) (f := fvt (fV (fTs f T1) "ts" (fun k _ => t1 k)) (fun k s => Fin (v1 k s))) (tc := v1) as (f' & x & F1 & F2 & F3 & F4 & F5).
    + right. rewrite A. exact KT.
    + rewrite A. reflexivity.
    + rewrite A. exact Hc.
    + exact B3.
    + reflexivity.
    + exists f, n, v1, f', x. split; [exact B1|]. split; [exact N|]. split; [right; split; [exact KT|exists T1, t1; exact X1]|]. split; [exact F1|]. split; [exact F2|]. split; [exact F3|]. split; [rewrite F4; apply (fV_other (fTs f T1)); discriminate|]. intros k s Hk Hs. apply F5; auto. rewrite A. exact Hs.
Qed.

(** What the repulsion of a component contributes, read from its stored potentials. *)
Definition stored_pot (p : part) (k : ks) (v : mat) : Prop :=
  (po_int (p_opt p) = "ni"%string /\ po_hxc (p_opt p) = "exact"%string /\ forall x s, v x s = 0) \/
  (po_int (p_opt p) = "dft"%string /\ exists h x c, V_vh (k_V k) = Some h /\ V_vx (k_V k) = Some x /\ V_vc (k_V k) = Some c /\
     ((po_hxc (p_opt p) = "exact"%string /\ forall y s, v y s = h y s + x y s + c y s) \/ (po_hxc (p_opt p) = "hartree"%string /\ forall y s, v y s = h y s))).

Lemma repulsion_part : forall g w p p', vp_hxc g w p = Ok p' -> po_hxc (p_opt p) = "exact"%string \/ po_hxc (p_opt p) = "hartree"%string -> po_int (p_opt p) = "ni"%string \/ po_int (p_opt p) = "dft"%string ->
  exists nf h, p_nf p = Some nf /\ repulsion_pot g w p nf h /\ forall c, member (p_ens p) c -> exists f hc f' x, p_f p c = Some f /\ stored_pot p (f_ks f) hc /\ p_f p' c = Some f' /\
    f_V f' "vp_hxc"%string = Some x /\ f_V f' "vp_pot"%string = f_V f "vp_pot"%string /\ f_V f' "vp_kin"%string = f_V f "vp_kin"%string /\ forall k s, x k s = h k s - hc k s.
Proof.
  intros g w p p' H HX HI. unfold vp_hxc in H. destruct (vp_hxc_parts g w p) as [p1|] eqn:E1; [|discriminate]. cbn [bind] in H. cbv zeta in H.
  destruct HI as [HI|HI].
  - destruct HX as [HX|HX]; [|exfalso; unfold vp_hxc_parts in E1; rewrite HI, HX in E1; discriminate]. rewrite HX in H. cbn [String.eqb Ascii.eqb Bool.eqb orb bind] in H.
    unfold vp_hxc_parts in E1. rewrite HX, HI in E1. cbn [String.eqb Ascii.eqb Bool.eqb andb] in E1. cbv zeta iota in E1.
    set (hh := fun (c : comp) (p : part) (f : frag) => do _ <- have (p_nf p); Ok (fV (fV (fV f "vp_h" (fun _ _ => 0)) "vp_x" (fun _ _ => 0)) "vp_c" (fun _ _ => 0))).
    assert (H' : forL (comps (p_ens p)) (fun c p => do f <- get_f p c; do f' <- hh c p f; Ok (set_frag p c f')) p = Ok p1).
    { rewrite <- E1. apply forL_ext. intros e q _. unfold hh. destruct (get_f q e) as [f9|]; cbn [bind]; auto. destruct (have (p_nf q)); reflexivity. }
    apply (forL_frags hh) in H'; [|intros ? ? ? ?; reflexivity|apply comps_nodup]. destruct H' as (A & B & _).
    assert (NF : exists nf, p_nf p = Some nf). { destruct (B Ca) as (f & f' & _ & B2 & _); [apply in_comps; exact Logic.I|]. unfold hh in B2. destruct (p_nf p); [eauto|discriminate]. }
    destruct NF as (nf & NF). exists nf, (fun _ _ => 0). split; auto. split; [left; auto|]. intros c Hc. destruct (B c (proj2 (in_comps _ _) Hc)) as (f & f1 & B1 & B2 & B3). unfold hh in B2. rewrite NF in B2. cbn [have bind] in B2. injection B2 as <-.
    destruct (put_hxc_inv _ _ _ H c) as (f2 & f' & a & b & d & v & C1 & C2 & C3 & C4 & C5 & C6 & C7); [rewrite A; exact Hc|]. rewrite B3 in C1. injection C1 as <-. injection C5 as <-.
    exists f, (fun _ _ => 0), f', (add3 a b d). split; auto. split; [left; auto|]. split; auto. subst f'. split; [apply fV_same|]. rewrite !fV_other by discriminate. split; [reflexivity|]. split; [reflexivity|].
    cbv [fV f_V aset String.eqb Ascii.eqb Bool.eqb] in C2, C3, C4. injection C2 as <-. injection C3 as <-. injection C4 as <-. intros. unfold add3. ring.
  - unfold vp_hxc_parts in E1. rewrite HI in E1. change (String.eqb "dft" "ni") with false in E1. rewrite andb_false_r in E1. change (negb (String.eqb "dft" "dft")) with false in E1. cbv zeta iota in E1.
    destruct (have (p_nf p)) as [nf|] eqn:NF; [|discriminate]. cbn [bind] in E1. apply have_some in NF. destruct (v_hartree g (e_spL w) (e_spU w) (A2 (p_pol p) nf)) as [vh|] eqn:VH; [|discriminate]. cbn [bind] in E1.
    destruct (get_xc g (e_lib w) (po_fam (p_opt p)) (po_xid (p_opt p)) (p_pol p) nf) as [[[ex epx] vx]|] eqn:X; [|discriminate]. cbn [bind] in E1.
    destruct (get_xc g (e_lib w) (po_fam (p_opt p)) (po_cid (p_opt p)) (p_pol p) nf) as [[[ec epc] vc]|] eqn:C; [|discriminate]. cbn [bind] in E1.
    set (hh := fun (c : comp) (p : part) (f : frag) => do fh <- have (V_vh (k_V (f_ks f))); do fx <- have (V_vx (k_V (f_ks f))); do fc <- have (V_vc (k_V (f_ks f)));
      Ok (fV (fV (fV (fV f "vp_h" (msub (arr_fun vh) fh)) "vp_x" (msub vx fx)) "vp_c" (msub vc fc)) "vp_hxc" (add3 (msub (arr_fun vh) fh) (msub vx fx) (msub vc fc)))).
    match type of E1 with forL _ _ ?q = _ => set (q0 := q) in * end.
    assert (H' : forL (comps (p_ens p)) (fun c p => do f <- get_f p c; do f' <- hh c p f; Ok (set_frag p c f')) q0 = Ok p1).
    { rewrite <- E1. apply forL_ext. intros e q _. unfold hh. destruct (get_f q e) as [f9|]; cbn [bind]; auto. destruct (have (V_vh (k_V (f_ks f9)))); cbn [bind]; auto. destruct (have (V_vx (k_V (f_ks f9)))); cbn [bind]; auto. destruct (have (V_vc (k_V (f_ks f9)))); reflexivity. }
    apply (forL_frags hh) in H'; [|intros ? ? ? ?; reflexivity|apply comps_nodup]. destruct H' as (A & B & _).
    exists nf, (fun y s => if String.eqb (po_hxc (p_opt p)) "exact" then entry vh y s + vx y s + vc y s else entry vh y s). split; auto. split.
    { right. split; auto. exists (ex, epx, vx), (ec, epc, vc), vh. split; auto. split; auto. split; auto. destruct HX as [HX|HX]; [left|right]; split; auto; intros; rewrite HX; reflexivity. }
    intros c Hc. destruct (B c (proj2 (in_comps _ _) Hc)) as (f & f1 & B1 & B2 & B3). unfold hh in B2. destruct (V_vh (k_V (f_ks f))) as [fh|] eqn:G1; [|discriminate]. cbn [have bind] in B2.
    destruct (V_vx (k_V (f_ks f))) as [fx|] eqn:G2; [|discriminate]. cbn [have bind] in B2. destruct (V_vc (k_V (f_ks f))) as [fc|] eqn:G3; [|discriminate]. cbn [have bind] in B2. injection B2 as <-.
    assert (E0 : entry vh = arr_fun vh) by (destruct vh; reflexivity).
    destruct HX as [HX|HX]; rewrite HX in H; cbn [String.eqb Ascii.eqb Bool.eqb orb bind] in H;
      (destruct (put_hxc_inv _ _ _ H c) as (f2 & f' & a & b & d & v & C1 & C2 & C3 & C4 & C5 & C6 & C7); [rewrite A; exact Hc|]); rewrite B3 in C1; injection C1 as <-; injection C5 as <-;
      cbv [fV f_V aset String.eqb Ascii.eqb Bool.eqb] in C2, C3, C4; injection C2 as <-; injection C3 as <-; injection C4 as <-.
    + exists f, (fun y s => fh y s + fx y s + fc y s), f', (add3 (msub (arr_fun vh) fh) (msub vx fx) (msub vc fc)). split; [exact B1|]. split; [right; split; [exact HI|]; exists fh, fx, fc; do 3 (split; [assumption|]); auto|]. split; [exact C6|]. subst f'. split; [apply fV_same|]. rewrite !fV_other by discriminate. split; [reflexivity|]. split; [reflexivity|].
      intros. rewrite HX. cbn [String.eqb Ascii.eqb Bool.eqb]. rewrite E0. unfold add3, msub. ring.
    + exists f, fh, f', (msub (arr_fun vh) fh). split; [exact B1|]. split; [right; split; [exact HI|]; exists fh, fx, fc; do 3 (split; [assumption|]); auto|]. split; [exact C6|]. subst f'. split; [apply fV_same|]. rewrite !fV_other by discriminate. split; [reflexivity|]. split; [reflexivity|].
      intros. rewrite HX. cbn [String.eqb Ascii.eqb Bool.eqb]. rewrite E0. unfold msub. ring.
Qed.

(** * One evaluation of the potential *)
Lemma component_explicit : forall g w p p', vp_component g w p = Ok p' -> explicit p -> exists vext nf t h, p_V p "vext"%string = Some vext /\ p_nf p = Some nf /\ kinetic_pot g (pe_env w) p nf t /\ repulsion_pot g (pe_env w) p nf h /\
  forall c, member (p_ens p) c -> exists f n tc hc f' v, p_f p c = Some f /\ k_n (f_ks f) = Some n /\ kinetic_pot g (pe_env w) p n tc /\ stored_pot p (f_ks f) hc /\ p_f p' c = Some f' /\ f_V f' "vp"%string = Some v /\ f_Q f' = f_Q f /\
    forall k s, (k < Nelem g)%nat -> (s < p_pol p)%nat -> v k s = (vext k s + t k s + h k s) - (k_vnuc (f_ks f) k s + tc k s + hc k s).
Proof.
  intros g w p p' H (KT & HX & HI). pose proof (vp_component_same _ _ _ _ H) as SS. unfold vp_component in H. destruct (vp_nuclear p) as [p1|] eqn:E1; [|discriminate]. cbn [bind] in H.
  destruct (vp_kinetic g w p1) as [p2|] eqn:E2; [|discriminate]. cbn [bind] in H. destruct (vp_hxc g (pe_env w) p2) as [p3|] eqn:E3; [|discriminate]. cbn [bind] in H.
  match type of H with bind ?m _ = _ => destruct m as [p4|] eqn:E4; [|discriminate] end. cbn [bind] in H.
  match type of H with bind ?m _ = _ => destruct m as [p5|] eqn:E5; [|discriminate] end. cbn [bind] in H.
  match type of H with bind ?m _ = _ => destruct m as [p6|] eqn:E6; [|discriminate] end. cbn [bind] in H.
  assert (H4 : forL vp_names (fun nm p => do x <- (do _ <- have (p_nf p); Ok (fun _ _ => 0)); Ok (set_V p nm x)) p3 = Ok p4).
  { rewrite <- E4. apply forL_ext. intros nm q _. destruct (have (p_nf q)); reflexivity. }
  apply (forL_names (fun nm p => do _ <- have (p_nf p); Ok (fun _ _ => 0))) in H4; [|apply vp_names_nodup|reflexivity]. destruct H4 as (F4 & _).
  destruct (accum_all _ _ _ (comps_nodup _) E5) as (u & q & U1 & _).
  assert (F6 : p_f p6 = p_f p5) by (destruct (po_ess (p_opt p)); [apply vp_map_inv in E6; apply E6|injection E6 as <-; reflexivity]).
  assert (F7 : p_f p' = p_f p6) by (destruct (po_ab (p_opt p)); [apply vp_map_inv in H; apply H|injection H as <-; reflexivity]).
  pose proof (vp_nuclear_same _ _ E1) as (O1 & P1 & _ & _ & _ & _ & EN1 & _ & _ & _ & _ & N1 & _). pose proof (psame_trans _ _ _ (vp_nuclear_same _ _ E1) (vp_kinetic_same _ _ _ _ E2)) as (O2 & P2 & _ & _ & _ & _ & EN2 & _ & _ & _ & _ & N2 & _).
  assert (PK : forall n v, kinetic_pot g (pe_env w) p1 n v -> kinetic_pot g (pe_env w) p n v) by (intros n v; unfold kinetic_pot; rewrite O1, P1; auto).
  assert (PR : forall n v, repulsion_pot g (pe_env w) p2 n v -> repulsion_pot g (pe_env w) p n v) by (intros n v; unfold repulsion_pot; rewrite O2, P2; auto).
  assert (PS : forall k v, stored_pot p2 k v -> stored_pot p k v) by (intros k v; unfold stored_pot; rewrite O2; auto).
  destruct (kinetic_part _ _ _ _ E2) as (nf & t & NF & TP & KP); [rewrite O1; exact KT|]. destruct (repulsion_part _ _ _ _ E3) as (nf' & h & NF' & HP & RP); [rewrite O2; exact HX|rewrite O2; exact HI|].
  rewrite N1 in NF. rewrite N2, NF in NF'. injection NF' as <-. destruct (nuclear_part _ _ E1 Ca Logic.I) as (_ & _ & vext & _ & _ & _ & _ & VE & _).
  exists vext, nf, t, h. split; auto. split; auto. split; auto. split; auto. intros c Hc.
  destruct (nuclear_part _ _ E1 c Hc) as (f & f1 & v & x & A1 & A2 & A3 & A4 & A5 & A6). rewrite VE in A4. injection A4 as <-.
  destruct (KP c) as (f1' & n & tc & f2 & y & B1 & B2 & B3 & B4 & B5 & B6 & B7 & B8); [rewrite EN1; exact Hc|]. rewrite A2 in B1. injection B1 as <-.
  destruct (RP c) as (f2' & hc & f3 & z & C1 & C2 & C3 & C4 & C5 & C6 & C7); [rewrite EN2; exact Hc|]. rewrite B4 in C1. injection C1 as <-.
  destruct (U1 c (proj2 (in_comps _ _) Hc)) as (f3' & a & b & d & D1 & D2 & D3 & D4 & D5 & D6 & _). rewrite F4, C3 in D1. injection D1 as <-.
  rewrite C5, B7, A5 in D2. injection D2 as <-. rewrite C6, B6 in D3. injection D3 as <-. rewrite C4 in D4. injection D4 as <-.
  exists f, n, tc, hc, (fV f3 "vp" (add3 x y z)), (add3 x y z). split; auto. split; [rewrite <- B2, A3; reflexivity|]. split; [auto|]. split; [rewrite <- A3, <- B5; auto|]. assert (PF : p_f p' c = Some (fV f3 "vp" (add3 x y z))) by (rewrite F7, F6; exact D6). split; [exact PF|]. split; [apply fV_same|].
  split. { destruct SS as (_ & _ & _ & _ & _ & _ & _ & _ & _ & _ & _ & _ & _ & SS). specialize (SS c). rewrite A1, PF in SS. destruct SS as (_ & _ & Q & _). exact Q. }
  intros k s Hk Hs. unfold add3. rewrite A6, B8, C7 by (auto; rewrite P1; exact Hs). ring.
Qed.

(** * One pass *)
Lemma stored_hxc : forall g w k k', calc_hxc_potential g w k = Ok k' -> o_int (k_opt k) <> "ni"%string -> exists n x c vh, k_n k = Some n /\ get_xc g (e_lib w) (o_fam (k_opt k)) (o_xid (k_opt k)) (k_pol k) n = Ok x /\
  get_xc g (e_lib w) (o_fam (k_opt k)) (o_cid (k_opt k)) (k_pol k) n = Ok c /\ v_hartree g (e_spL w) (e_spU w) (A2 (k_pol k) n) = Ok vh /\
  V_vh (k_V k') = Some (entry vh) /\ V_vx (k_V k') = Some (snd x) /\ V_vc (k_V k') = Some (snd c).
Proof.
  intros g w k k' H NI. unfold calc_hxc_potential in H. destruct (String.eqb_spec (o_int (k_opt k)) "ni"); [contradiction|]. destruct (need (k_n k)) as [n0|] eqn:N; [|discriminate]. cbn [bind] in H. apply need_some in N.
  destruct (get_xc g (e_lib w) (o_fam (k_opt k)) (o_xid (k_opt k)) (k_pol k) n0) as [x|] eqn:X; [|discriminate]. cbn [bind] in H. destruct (get_xc g (e_lib w) (o_fam (k_opt k)) (o_cid (k_opt k)) (k_pol k) n0) as [c|] eqn:C; [|discriminate]. cbn [bind] in H.
  destruct (v_hartree g (e_spL w) (e_spU w) (A2 (k_pol k) n0)) as [vh|] eqn:V; [|discriminate]. cbn [bind] in H. cbv zeta in H. injection H as <-. exists n0, x, c, vh. repeat (split; [assumption|]). cbn [set_vhxc set_EV k_V V_vh V_vx V_vc]. assert (E : entry vh = arr_fun vh) by (destruct vh; reflexivity). rewrite E. auto.
Qed.
(** The components carry the settings of the partition object. *)
Definition uniform (p : part) : Prop := forall c f, member (p_ens p) c -> p_f p c = Some f -> k_pol (f_ks f) = p_pol p /\ o_int (k_opt (f_ks f)) = po_int (p_opt p) /\ o_xid (k_opt (f_ks f)) = po_xid (p_opt p) /\
  o_cid (k_opt (f_ks f)) = po_cid (p_opt p) /\ o_fam (k_opt (f_ks f)) = po_fam (p_opt p) /\ o_sym (k_opt (f_ks f)) = po_sym (p_opt p).
Lemma init_uniform : forall g Za Zb pol spec nua nub opt p, partition_init g Za Zb pol spec nua nub opt = Ok p -> uniform p.
Proof.
  intros g Za Zb pol spec nua nub opt p H c f Hc F. apply init_inv in H. destruct H as (d & _ & _ & _ & P & _ & _ & _ & _ & _ & _ & _ & _ & _ & FR). destruct (FR c Hc) as (f0 & FI & F0). rewrite F in F0. injection F0 as ->. apply frag_init_inv in FI.
  destruct FI as (k & -> & _ & _ & K3 & _ & _ & _ & _ & _ & _ & _ & _ & K11 & K12 & K13 & K14 & K15 & K16 & _). cbn [fscale new_frag f_ks]. repeat split; congruence.
Qed.
Lemma uniform_stat : forall p p', pstat p p' -> uniform p -> uniform p'.
Proof.
  intros p p' (O & P & _ & _ & _ & _ & E & _ & _ & _ & S) U c f' Hc F'. specialize (S c). rewrite F' in S. destruct (p_f p c) as [f|] eqn:F; [|destruct S]. destruct S as ((I1 & _ & _ & I4 & _) & _). rewrite E in Hc.
  destruct (U c f Hc F) as (A1 & A2 & A3 & A4 & A5 & A6). rewrite O, P. repeat split; congruence.
Qed.

Lemma explicit_eq : forall p p', p_opt p' = p_opt p -> explicit p -> explicit p'. Proof. intros p p' H. unfold explicit. rewrite H. auto. Qed.
Lemma kinetic_eq : forall g w p p' n v, p_opt p' = p_opt p -> p_pol p' = p_pol p -> kinetic_pot g w p n v -> kinetic_pot g w p' n v. Proof. intros g w p p' n v H H'. unfold kinetic_pot. rewrite H, H'. auto. Qed.
Lemma repulsion_eq : forall g w p p' n v, p_opt p' = p_opt p -> p_pol p' = p_pol p -> repulsion_pot g w p n v -> repulsion_pot g w p' n v. Proof. intros g w p p' n v H H'. unfold repulsion_pot. rewrite H, H'. auto. Qed.

Theorem pass_explicit : forall g w o sched s s', psc_body g w o sched s = Ok s' -> uniform (q_p s) -> explicit (q_p s) -> po_iso (p_opt (q_p s)) = false -> exists vext nf t h, p_V (q_p s) "vext"%string = Some vext /\ p_nf (q_p s) = Some nf /\
  kinetic_pot g (pe_env w) (q_p s) nf t /\ repulsion_pot g (pe_env w) (q_p s) nf h /\
  forall c, computed (q_p s) c -> exists f n tc hc f' v, p_f (q_p s) c = Some f /\ k_n (f_ks f) = Some n /\ kinetic_pot g (pe_env w) (q_p s) n tc /\ repulsion_pot g (pe_env w) (q_p s) n hc /\ p_f (q_p s') c = Some f' /\ f_V f' "vp"%string = Some v /\
    forall k j, (k < Nelem g)%nat -> (j < p_pol (q_p s))%nat -> v k j = (vext k j + t k j + h k j) - (k_vnuc (f_ks f) k j + tc k j + hc k j).
Proof.
  intros g w o sched s s' H UN EX IS. apply PartitionLoop.body_inv in H. destruct H as (p & r & fl & W & _ & ->). assert (Q : q_p (psc_next o s p r fl) = p) by (destruct r as [[? ?] ?]; reflexivity). rewrite Q. clear Q.
  destruct (work_frag _ _ _ _ _ _ _ W) as (p3 & pv & vp & X1 & X2 & X3 & X4 & _ & _ & X5). pose proof X2 as (O3 & P3 & _ & _ & _ & _ & EN3 & _ & _ & V3 & _).
  assert (EX3 : explicit p3) by (eapply explicit_eq; eauto). unfold psc_vp in X1. rewrite O3, IS in X1. unfold partition_potential in X1. destruct (String.eqb (po_vp (p_opt p3)) "component"); [|exfalso; destruct (vp_inversion p3) eqn:V; [|discriminate]; eapply vp_inversion_never; eauto].
  destruct (vp_component g w p3) as [p3'|] eqn:C; [|discriminate]. cbn [bind] in X1. destruct (attr (p_V p3') "vp"); [|discriminate]. cbn [bind] in X1. injection X1 as -> _.
  destruct (component_explicit _ _ _ _ C EX3) as (vext & nf & t & h & Y1 & Y2 & Y3 & Y4 & Y5). exists vext, nf, t, h. split; [congruence|]. split; [congruence|].
  split; [eapply kinetic_eq; [| |exact Y3]; congruence|]. split; [eapply repulsion_eq; [| |exact Y4]; congruence|]. intros c Hc. pose proof (proj1 Hc) as Hm. apply computed_in in Hc.
  destruct (X5 c Hc) as (f & fh & fv & fs & f' & A1 & A2 & A3 & A4 & _ & _ & A7 & _ & _ & _ & _ & _ & A13).
  destruct (Y5 c) as (f3 & n & tc & hc & f3' & v & B1 & B2 & B3 & B4 & B5 & B6 & _ & B8); [rewrite EN3; exact Hm|]. rewrite A3 in B1. injection B1 as <-. rewrite A4 in B5. injection B5 as <-.
  apply hxc_frag_inv in A2. destruct A2 as ((F1 & _) & _ & N1 & _ & _ & _ & k & vk & K1 & _ & _ & _ & K5). destruct F1 as (_ & _ & _ & _ & _ & _ & FV & _).
  destruct (UN c f Hm A1) as (U1 & U2 & U3 & U4 & U5 & _).
  exists f, n, tc, hc, f', v. split; [exact A1|]. split; [congruence|]. split; [eapply kinetic_eq; [| |exact B3]; congruence|]. split.
  { unfold stored_pot in B4. rewrite O3 in B4. destruct B4 as [B4|(B4 & h0 & x0 & c0 & G1 & G2 & G3 & G4)]; [left; exact B4|]. right. split; [exact B4|].
    destruct (stored_hxc _ _ _ _ K1) as (n' & x & c' & vh & Z1 & Z2 & Z3 & Z4 & Z5 & Z6 & Z7); [rewrite U2, B4; discriminate|]. rewrite N1, Z1 in B2. injection B2 as <-. rewrite U1, U3, U5 in Z2. rewrite U1, U4, U5 in Z3. rewrite U1 in Z4.
    exists x, c', vh. split; [exact Z2|]. split; [exact Z3|]. split; [exact Z4|]. rewrite K5 in G1, G2, G3. rewrite Z5 in G1. rewrite Z6 in G2. rewrite Z7 in G3. injection G1 as <-. injection G2 as <-. injection G3 as <-. exact G4. }
  split; [exact A7|]. split; [rewrite A13; exact B6|]. intros k0 j Hk Hj. rewrite B8 by (auto; rewrite P3; exact Hj). rewrite FV. reflexivity.
Qed.

(** The common potential of a pass: the embedding potentials of the components weighted with their share of the density. *)
Theorem pass_common : forall g w o sched s s' F m na nb nf q, psc_body g w o sched s = Ok s' -> po_iso (p_opt (q_p s)) = false -> po_ab (p_opt (q_p s)) = false -> settled g (q_p s) F m na nb nf q -> exists vp u, p_V (q_p s') "vp"%string = Some vp /\
  (forall c, member (p_ens (q_p s)) c -> exists f', p_f (q_p s') c = Some f' /\ f_V f' "vp"%string = Some (u c)) /\
  forall k j, (k < Nelem g)%nat -> (j < p_pol (q_p s))%nat -> vp k j = lsum (if p_ens (q_p s) then [Ca; CA; Cb; CB] else [Ca; Cb]) (fun c => u c k j * q c k j) +
    (if po_ess (p_opt (q_p s)) then lsum (if p_ens (q_p s) then [Ca; CA; Cb; CB] else [Ca; Cb]) (fun c => u c k (p_pol (q_p s) - 1 - j)%nat * q c k (p_pol (q_p s) - 1 - j)%nat) else 0).
Proof.
  intros g w o sched s s' F m na nb nf q H IS AB ((DF & _) & _ & QF & _). apply PartitionLoop.body_inv in H. destruct H as (p & r & fl & W & _ & ->). assert (Q : q_p (psc_next o s p r fl) = p) by (destruct r as [[? ?] ?]; reflexivity). rewrite Q. clear Q.
  destruct (work_frag _ _ _ _ _ _ _ W) as (p3 & pv & vp & X1 & X2 & X3 & X4 & _ & _ & X5). pose proof X2 as (O3 & P3 & _ & _ & _ & _ & EN3 & _ & _ & V3 & _).
  unfold psc_vp in X1. rewrite O3, IS in X1. unfold partition_potential in X1. destruct (String.eqb (po_vp (p_opt p3)) "component"); [|exfalso; destruct (vp_inversion p3) eqn:V; [|discriminate]; eapply vp_inversion_never; eauto].
  destruct (vp_component g w p3) as [p3'|] eqn:C; [|discriminate]. cbn [bind] in X1. destruct (attr (p_V p3') "vp") as [v|] eqn:A; [|discriminate]. cbn [bind] in X1. injection X1 as -> ->. apply have_some in A.
  destruct (component_inv _ _ _ _ C) as (p9 & u & q' & _ & U & S). exists vp, (fun c => u c "vp"%string). split; [apply X4, IS|].
  assert (QQ : forall c, member (p_ens (q_p s)) c -> q' c = q c /\ exists f', p_f p c = Some f' /\ f_V f' "vp"%string = Some (u c "vp"%string)).
  { intros c Hc. assert (CC : In c (comps_ab (q_p s))) by (apply in_comps_ab; split; [exact Hc|rewrite AB; discriminate]). destruct (X5 c CC) as (f & fh & fv & fs & f' & A1 & A2 & A3 & A4 & A5 & _ & A7 & _ & _ & _ & _ & _ & A13).
    destruct (U c) as (f3 & fv' & _ & B2 & B3 & _ & B5 & _); [rewrite EN3; exact Hc|]. rewrite A4 in B2. injection B2 as <-. rewrite (DF c Hc) in A1. injection A1 as <-. destruct (QF c Hc) as (QF1 & _).
    apply hxc_frag_inv in A2. destruct A2 as ((_ & _ & _ & _ & FQ & _) & _). destruct A5 as (_ & _ & SQ & _). split; [congruence|]. exists f'. split; [exact A7|]. rewrite A13. apply B5. simpl; auto. }
  split; [intros c Hc; apply (QQ c Hc)|]. intros k j Hk Hj. destruct (S "vp"%string) as (v & S1 & S2); [simpl; auto|]. rewrite A in S1. injection S1 as <-. rewrite S2 by (auto; rewrite P3; exact Hj). unfold processed. cbv zeta. rewrite O3, AB, EN3, P3.
  assert (LS : forall k j, lsum (if p_ens (q_p s) then [Ca; CA; Cb; CB] else [Ca; Cb]) (fun c => u c "vp"%string k j * q' c k j) = lsum (if p_ens (q_p s) then [Ca; CA; Cb; CB] else [Ca; Cb]) (fun c => u c "vp"%string k j * q c k j)).
  { intros k0 j0. apply lsum_ext. intros c Hc. rewrite (proj1 (QQ c ltac:(destruct (p_ens (q_p s)); simpl in Hc; intuition (subst; simpl; auto)))). reflexivity. }
  rewrite !LS. reflexivity.
Qed.

(** * Runs *)
Lemma run_uniform : forall g w sched d p o n l s, passes g w sched d p o n l s -> uniform p -> uniform (q_p s).
Proof.
  intros g w sched d p o n l s P U c f Hc F. destruct (run_static _ _ _ _ _ _ _ _ _ P) as (O & PP & _ & _ & _ & _ & E & _ & _ & _ & S). rewrite E in Hc. destruct (S c Hc) as (f0 & f' & F0 & F' & (I1 & _ & _ & I4 & _) & _). rewrite F in F'. injection F' as <-.
  destruct (U c f0 Hc F0) as (A1 & A2 & A3 & A4 & A5 & A6). rewrite O, PP. repeat split; congruence.
Qed.

(** The embedding potential of a component: the other nucleus, and the functionals of the whole density minus those of the component. *)
Theorem embedding_functional : forall g w Za Zb pol spec nua nub opt p sched d o n l s0 s, partition_init g Za Zb pol spec nua nub opt = Ok p -> (pol <= 2)%nat -> po_sym (p_opt p) = false -> explicit p -> po_iso (p_opt p) = false ->
  passes g w sched d p o n l s0 -> psc_body g w o (sched (q_iter s0)) s0 = Ok s -> exists nf t h, p_nf (q_p s0) = Some nf /\ kinetic_pot g (pe_env w) p nf t /\ repulsion_pot g (pe_env w) p nf h /\
  forall c, computed p c -> exists f0 m tc hc f v, p_f (q_p s0) c = Some f0 /\ k_n (f_ks f0) = Some m /\ kinetic_pot g (pe_env w) p m tc /\ repulsion_pot g (pe_env w) p m hc /\ p_f (q_p s) c = Some f /\ f_V f "vp"%string = Some v /\
    (forall k j, (k < Nelem g)%nat -> (j < pol)%nat -> k_vnuc (f_ks f0) k j = match c with Ca | CA => coulomb g Za 0 k | _ => coulomb g 0 Zb k end) /\
    forall k j, (k < Nelem g)%nat -> (j < pol)%nat -> v k j = match c with Ca | CA => coulomb g 0 Zb k | _ => coulomb g Za 0 k end + (t k j - tc k j) + (h k j - hc k j).
Proof.
  intros g w Za Zb pol spec nua nub opt p sched d o n l s0 s H HP SY EX IS P B. pose proof (run_uniform _ _ _ _ _ _ _ _ _ P (init_uniform _ _ _ _ _ _ _ _ _ H)) as U.
  destruct (run_static _ _ _ _ _ _ _ _ _ P) as (O & PP & _ & _ & _ & _ & E & _ & _ & VV & S). destruct (init_nuclei _ _ _ _ _ _ _ _ _ H SY HP) as (F & v0 & FR & AN & V0 & V1). apply init_inv in H. destruct H as (_ & _ & _ & _ & P1 & _ & _ & _ & _ & _ & VA & VB & _).
  destruct (pass_explicit _ _ _ _ _ _ B U) as (vext & nf & t & h & Y1 & Y2 & Y3 & Y4 & Y5); [eapply explicit_eq; eauto|rewrite O; exact IS|]. rewrite VV, V0 in Y1. injection Y1 as <-.
  exists nf, t, h. split; [exact Y2|]. split; [eapply kinetic_eq; [| |exact Y3]; congruence|]. split; [eapply repulsion_eq; [| |exact Y4]; congruence|]. intros c (Hc & Hab).
  destruct (Y5 c) as (f0 & m & tc & hc & f & v & A1 & A2 & A3 & A4 & A5 & A6 & A7); [split; [rewrite E; exact Hc|rewrite O; exact Hab]|].
  destruct (S c Hc) as (g0 & g1 & G0 & G1 & (_ & _ & _ & _ & _ & _ & VN & _) & _). rewrite A1 in G1. injection G1 as <-. rewrite (FR c Hc) in G0. injection G0 as <-.
  exists f0, m, tc, hc, f, v. split; [exact A1|]. split; [exact A2|]. split; [eapply kinetic_eq; [| |exact A3]; congruence|]. split; [eapply repulsion_eq; [| |exact A4]; congruence|]. split; [exact A5|]. split; [exact A6|].
  assert (K : forall k j, (k < Nelem g)%nat -> (j < pol)%nat -> k_vnuc (f_ks f0) k j = match c with Ca | CA => coulomb g Za 0 k | _ => coulomb g 0 Zb k end).
  { intros k j Hk Hj. rewrite VN, (AN c Hc) by (rewrite P1; exact Hj). rewrite VA, VB. destruct c; reflexivity. }
  split; [exact K|]. intros k j Hk Hj. rewrite A7 by (auto; rewrite PP, P1; exact Hj). rewrite K by assumption. rewrite V1 by (rewrite P1; exact Hj). rewrite VA, VB. destruct c; ring.
Qed.

(** With their own embedding potentials (sdft) the components move in the potential of the whole molecule, up to the kinetic potential of their own density. *)
Theorem subsystem_potential : forall g w Za Zb pol spec nua nub opt p sched d o n l s0 s, partition_init g Za Zb pol spec nua nub opt = Ok p -> (pol <= 2)%nat -> po_sym (p_opt p) = false -> explicit p -> po_hxc (p_opt p) = "exact"%string -> po_iso (p_opt p) = false ->
  passes g w sched d p o n l s0 -> psc_body g w o (sched (q_iter s0)) s0 = Ok s -> ps_sdft o = true -> exists nf t h, p_nf (q_p s0) = Some nf /\ kinetic_pot g (pe_env w) p nf t /\ repulsion_pot g (pe_env w) p nf h /\
  forall c, computed p c -> match c with Ca | CA => ps_fa o | _ => ps_fb o end = false -> exists f0 m tc f k1 k2 nout ve, p_f (q_p s0) c = Some f0 /\ k_n (f_ks f0) = Some m /\ kinetic_pot g (pe_env w) p m tc /\ p_f (q_p s) c = Some f /\
    frame (f_ks f0) k1 /\ ks_density g (pe_env w) (ps_iter o) (q_dif s0) (sched (q_iter s0) c) k1 = Ok (k2, nout) /\ k_n (f_ks f) = Some (fun x j => (1 - f_alpha f0) * m x j + f_alpha f0 * nout x j) /\ k_veff k1 = Some ve /\
    forall k j, (k < Nelem g)%nat -> (j < pol)%nat -> ve k j = coulomb g Za 0 k + coulomb g 0 Zb k + h k j + (t k j - tc k j).
Proof.
  intros g w Za Zb pol spec nua nub opt p sched d o n l s0 s H HP SY EX HX IS P B SD. destruct (embedding_functional _ _ _ _ _ _ _ _ _ _ _ _ _ _ _ _ _ H HP SY EX IS P B) as (nf & t & h & Y1 & Y2 & Y3 & Y4).
  exists nf, t, h. split; auto. split; auto. split; auto. intros c Hc FZ. destruct (Y4 c Hc) as (f0 & m & tc & hc & f & v & A1 & A2 & A3 & A4 & A5 & A6 & A7 & A8).
  pose proof (run_uniform _ _ _ _ _ _ _ _ _ P (init_uniform _ _ _ _ _ _ _ _ _ H)) as U. destruct (run_static _ _ _ _ _ _ _ _ _ P) as (O & PP & _ & _ & _ & _ & E & _ & _ & _ & S). destruct (S c (proj1 Hc)) as (g0 & g1 & G0 & G1 & _ & _ & _ & FR). rewrite A1 in G1. injection G1 as <-.
  destruct (pass_vext _ _ _ _ _ _ B) as (vp & _ & _ & X). destruct (X c) as (f1 & f2 & m1 & nout & k1 & k2 & vext & vhxc & B1 & B2 & B3 & B4 & B5 & B6 & B7 & (k & B8 & vv & B9 & B10) & B11 & B12 & _ & B14).
  { split; [rewrite E; apply Hc|rewrite O; apply Hc]. } rewrite A1 in B1. injection B1 as <-. rewrite A5 in B2. injection B2 as <-. rewrite A2 in B3. injection B3 as <-.
  destruct B14 as (_ & B14); [rewrite FR, FZ; discriminate|]. specialize (B14 SD). rewrite A6 in B14. injection B14 as <-.
  exists f0, m, tc, f, k1, k2, nout, (add3 (k_vnuc (f_ks f0)) v vhxc). do 8 (split; [assumption|]). intros k0 j Hk Hj. unfold add3. rewrite B10, A7, A8 by assumption.
  assert (UC : member (p_ens (q_p s0)) c) by (rewrite E; apply Hc). destruct (U c f0 UC A1) as (U1 & U2 & U3 & U4 & U5 & U6). rewrite O in U2, U3, U4, U5, U6. rewrite PP in U1.
  assert (V : vv k0 j = hc k0 j).
  { apply hxc_inv in B8. destruct B8 as (W & u & -> & B8). cbn [set_vhxc k_vhxc] in B9. rewrite U6, SY in B9. injection B9 as <-. destruct B8 as [(I & _ & Z & _)|(I & n9 & x & c9 & vh & I1 & I2 & I3 & I4 & I5)].
    - rewrite Z. destruct A4 as [(_ & _ & A4)|(A4 & _)]; [rewrite A4; reflexivity|]. rewrite U2, A4 in I. discriminate.
    - destruct A4 as [(A4 & _)|(_ & x1 & c1 & vh1 & J1 & J2 & J3 & J4)]; [rewrite U2, A4 in I; destruct (I eq_refl)|]. rewrite A2 in I1. injection I1 as <-. rewrite U1, U3, U5 in I2. rewrite U1, U4, U5 in I3. rewrite U1 in I4.
      rewrite J1 in I2. injection I2 as <-. rewrite J2 in I3. injection I3 as <-. rewrite J3 in I4. injection I4 as <-. rewrite I5. destruct J4 as [(_ & J4)|(J4 & _)]; [|rewrite HX in J4; discriminate]. rewrite J4. ring. }
  rewrite V. destruct c; ring.
Qed.
