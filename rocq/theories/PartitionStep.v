(** Partition: what one pass of Partition.scf does to the components. *)
From Coq Require Import Reals List Arith Lia Lra ZArith Bool String.
From Verif Require Import Base BaseLemmas GridModel GridSpec GridProofs HartreeModel SolverModel SolverSpec LibxcModel OptionsModel KSModel KSSpec KSProofs KSThms KSLoop KSEnergy KSTotal
  InverterModel PartitionModel PartitionSpec PartitionBase PartitionDens PartitionFrame PartitionLoop.
Import ListNotations.
Local Open Scope R_scope.

(** * The component part of the steps *)
Definition hxc_frag (g : grid) (w : env) (f : frag) : res frag :=
  do k <- calc_hxc_potential g w (f_ks f);
  do v <- need (k_vhxc k); do old <- need (k_vhxc (f_ks f));
  Ok (fk f (set_vhxc k (Some (fun x s => 1 * v x s + 0 * old x s)))).
Definition new_vext (o : psopt) (vp : mat) (f : frag) : res (option mat) :=
  match f_frozen f with
  | Some true => Ok (k_vext (f_ks f))
  | _ => if ps_sdft o then do v <- attr (f_V f) "vp"; Ok (Some v) else Ok (Some vp)
  end.
Definition step_frag (g : grid) (w : env) (o : psopt) (l : list (nat * nat)) (dif : num) (vp : mat) (f : frag) : res frag :=
  do k0 <- (match f_frozen f with
            | Some true => Ok (f_ks f)
            | _ => if ps_sdft o then do v <- attr (f_V f) "vp"; Ok (set_vext (f_ks f) (Some v)) else Ok (set_vext (f_ks f) (Some vp))
            end);
  do k1 <- set_effective_potential k0;
  do kn <- ks_density g w (ps_iter o) dif l k1;
  do f1 <- frag_chempot (fk f (fst kn));
  do n <- need (k_n (f_ks f1));
  let mix := fun x s => (1 - f_alpha f) * n x s + f_alpha f * snd kn x s in
  do k2 <- ks_energy g w (set_n (f_ks f1) (Some mix));
  Ok (fk f1 k2).
Definition guess_frag (g : grid) (w : env) (o : psopt) (l : list (nat * nat)) (f : frag) : res frag :=
  if ps_cont o then match k_n (f_ks f) with None => Err AssertionError | Some _ => Ok f end
  else
    do k1 <- set_effective_potential (set_vhxc (set_vext (f_ks f) (Some (fun _ _ => 0))) (Some (fun _ _ => 0)));
    do kn <- ks_density g w (ps_iter o) (Fin 0) l k1;
    frag_chempot (fk f (set_n (fst kn) (Some (snd kn)))).

Lemma hxc_all : forall g w p p', forL (comps_ab p) (psc_hxc g w) p = Ok p' ->
  p' = with_f p (p_f p') /\ (forall c, In c (comps_ab p) -> exists f f', p_f p c = Some f /\ hxc_frag g w f = Ok f' /\ p_f p' c = Some f') /\ (forall c, ~ In c (comps_ab p) -> p_f p' c = p_f p c).
Proof.
  intros g w p p' H. apply (forL_frags (fun c q f => hxc_frag g w f)); [intros ? ? ? ?; reflexivity|apply comps_ab_nodup|]. rewrite <- H. apply forL_ext. intros c q _.
  unfold psc_hxc. destruct (get_f q c) as [f|]; cbn [bind]; auto. unfold hxc_frag. destruct (calc_hxc_potential g w (f_ks f)) as [k|]; cbn [bind]; auto.
  destruct (need (k_vhxc k)); cbn [bind]; auto. destruct (need (k_vhxc (f_ks f))); reflexivity.
Qed.
Lemma step_all : forall g w o sched dif vp l p p', NoDup l -> forL l (psc_fragment g w o sched dif vp) p = Ok p' ->
  p' = with_f p (p_f p') /\ (forall c, In c l -> exists f f', p_f p c = Some f /\ step_frag g w o (sched c) dif vp f = Ok f' /\ p_f p' c = Some f') /\ (forall c, ~ In c l -> p_f p' c = p_f p c).
Proof.
  intros g w o sched dif vp l p p' N H. apply (forL_frags (fun c q f => step_frag g w o (sched c) dif vp f)); [intros ? ? ? ?; reflexivity|auto|]. rewrite <- H. apply forL_ext. intros c q _.
  unfold psc_fragment. destruct (get_f q c) as [f|]; cbn [bind]; auto. unfold step_frag. match goal with |- (do f' <- (do k0 <- ?m; _); _) = _ => destruct m as [k0|]; cbn [bind]; auto end.
  destruct (set_effective_potential k0) as [k1|]; cbn [bind]; auto. destruct (ks_density g w (ps_iter o) dif (sched c) k1) as [kn|]; cbn [bind]; auto. destruct (frag_chempot (fk f (fst kn))) as [f1|]; cbn [bind]; auto.
  destruct (need (k_n (f_ks f1))) as [n|]; cbn [bind]; auto. cbv zeta. destruct (ks_energy _ _ _); reflexivity.
Qed.
Lemma guess_all : forall g w o sched p p', forL (comps_ab p) (psc_guess g w o sched) p = Ok p' ->
  p_opt p' = p_opt p /\ (forall c, In c (comps_ab p) -> exists f f', p_f p c = Some f /\ guess_frag g w o (sched c) f = Ok f' /\ p_f p' c = Some f') /\ (forall c, ~ In c (comps_ab p) -> p_f p' c = p_f p c) /\ p' = with_f p (p_f p').
Proof.
  intros g w o sched p p' H.
  assert (X : forall l p p', NoDup l -> forL l (psc_guess g w o sched) p = Ok p' -> p_opt p' = p_opt p /\ (forall c, In c l -> exists f f', p_f p c = Some f /\ guess_frag g w o (sched c) f = Ok f' /\ p_f p' c = Some f') /\ (forall c, ~ In c l -> p_f p' c = p_f p c) /\ p' = with_f p (p_f p')).
  { clear. induction l as [|c l IH]; intros p p' N H; cbn [forL] in H.
    - injection H as <-. split; auto. split; [intros c []|]. split; auto. symmetry. apply with_f_id.
    - inversion N as [|? ? N1 N2]; subst. destruct (psc_guess g w o sched c p) as [q|] eqn:E; [|discriminate]. cbn [bind] in H. apply IH in H; auto. destruct H as (A1 & A2 & A3 & A4).
      assert (Q : exists f f', p_f p c = Some f /\ guess_frag g w o (sched c) f = Ok f' /\ p_f q c = Some f' /\ p_opt q = p_opt p /\ (forall d, d <> c -> p_f q d = p_f p d) /\ q = with_f p (p_f q)).
      { unfold psc_guess in E. destruct (get_f p c) as [f|] eqn:G; [|discriminate]. cbn [bind] in E. apply get_f_some in G. exists f. unfold guess_frag. destruct (ps_cont o).
        - destruct (k_n (f_ks f)); [|discriminate]. injection E as <-. exists f. repeat (split; [solve [auto]|]). symmetry. apply with_f_id.
        - destruct (set_effective_potential _) as [k1|]; [|discriminate]. cbn [bind] in *. destruct (ks_density _ _ _ _ _ _) as [kn|]; [|discriminate]. cbn [bind] in *. destruct (frag_chempot _) as [f1|]; [|discriminate]. cbn [bind] in E. injection E as <-.
          exists f1. split; auto. split; auto. split; [apply set_frag_same|]. split; auto. split; [intros; apply set_frag_other; auto|reflexivity]. }
      destruct Q as (f & f' & Q1 & Q2 & Q3 & Q4 & Q5 & Q6). split; [congruence|]. split; [|split].
      + intros d [<-|Hd]; [exists f, f'; rewrite A3 by auto; auto|]. destruct (A2 d Hd) as (f1 & f2 & B1 & B2). rewrite Q5 in B1 by (intros ->; contradiction). eauto.
      + intros d Hd. rewrite A3 by (intros X; apply Hd; right; auto). apply Q5. intros ->. apply Hd. left. auto.
      + rewrite A4, Q6. reflexivity. }
  apply X; auto. apply comps_ab_nodup.
Qed.

(** * One component *)
(** nothing but the Kohn-Sham state and the HOMOs *)
Definition fkeep (f f' : frag) : Prop :=
  frame (f_ks f) (f_ks f') /\ f_scale f' = f_scale f /\ f_alpha f' = f_alpha f /\ f_frozen f' = f_frozen f /\ f_Q f' = f_Q f /\ f_V f' = f_V f.
Lemma frame_n : forall k n, frame k (set_n k n). Proof. intros. repeat (split; [reflexivity|]). intros; apply same_static_refl. Qed.
Lemma frame_EV : forall k E V, frame k (set_EV k E V). Proof. intros. repeat (split; [reflexivity|]). intros; apply same_static_refl. Qed.
Lemma frame_u : forall k u, frame k (set_u k u). Proof. intros. repeat (split; [reflexivity|]). intros; apply same_static_refl. Qed.
Lemma frame_vext : forall k u, frame k (set_vext k u). Proof. intros. repeat (split; [reflexivity|]). intros; apply same_static_refl. Qed.
Lemma frame_vhxc : forall k u, frame k (set_vhxc k u). Proof. intros. repeat (split; [reflexivity|]). intros; apply same_static_refl. Qed.
Lemma frame_eff : forall k k', set_effective_potential k = Ok k' -> frame k k'.
Proof.
  intros k k' H. pose proof (eff_pot _ _ H) as (ve & vh & _ & _ & _ & E1 & E2 & _). unfold set_effective_potential in H. destruct (need (k_vext k)); [|discriminate]. cbn [bind] in H. destruct (need (k_vhxc k)); [|discriminate]. cbn [bind] in H. cbv zeta in H.
  destruct (distribute k _) as [sol|]; [|discriminate]. cbn [bind] in H. injection H as <-. repeat (split; [reflexivity|]). intros i j.
  assert (DEC : place k i j \/ ~ place k i j) by (unfold place; destruct (lt_dec i (k_lv k)); destruct (lt_dec j (k_cols k)); tauto).
  destruct DEC as [P|P]; [destruct (E1 i j P) as (_ & ->); repeat split|rewrite (E2 i j P); apply same_static_refl].
Qed.
Lemma hxc_frag_inv : forall g w f f', hxc_frag g w f = Ok f' -> fkeep f f' /\ f_homo f' = f_homo f /\ k_n (f_ks f') = k_n (f_ks f) /\ k_vext (f_ks f') = k_vext (f_ks f) /\ k_E (f_ks f') = k_E (f_ks f) /\ k_sol (f_ks f') = k_sol (f_ks f) /\
  exists k v, calc_hxc_potential g w (f_ks f) = Ok k /\ k_vhxc k = Some v /\ k_vhxc (f_ks f') <> None /\ (forall x s v', k_vhxc (f_ks f') = Some v' -> v' x s = v x s) /\ k_V (f_ks f') = k_V k.
Proof.
  intros g w f f' H. unfold hxc_frag in H. destruct (calc_hxc_potential g w (f_ks f)) as [k|] eqn:C; [|discriminate]. cbn [bind] in H. destruct (need (k_vhxc k)) as [v|] eqn:V; [|discriminate]. cbn [bind] in H.
  destruct (need (k_vhxc (f_ks f))) as [old|]; [|discriminate]. cbn [bind] in H. injection H as <-. apply need_some in V. pose proof (hxc_frame _ _ _ _ C) as (A1 & A2 & A3 & A4).
  split; [split; [eapply frame_trans; [exact A1|apply frame_vhxc]|auto 10]|]. split; auto. split; [exact A2|]. split; [exact A3|]. split; [|split; [exact A4|]].
  - pose proof (hxc_inv _ _ _ _ C) as (W & u & -> & _). reflexivity.
  - exists k, v. split; auto. split; auto. split; [discriminate|]. split; [|reflexivity]. intros x s v' E. cbn in E. injection E as <-. ring.
Qed.
Lemma chempot_inv : forall f f', frag_chempot f = Ok f' -> fkeep f f' /\ k_n (f_ks f') = k_n (f_ks f) /\ k_vext (f_ks f') = k_vext (f_ks f) /\ k_vhxc (f_ks f') = k_vhxc (f_ks f) /\ exists u, f_ks f' = set_u (f_ks f) (Some u).
Proof.
  intros f f' H. unfold frag_chempot in H. destruct (calc_chempot (f_ks f)) as [k|] eqn:C; [|discriminate]. cbn [bind] in H. injection H as <-. apply chempot_keep in C. destruct C as (u & ->).
  split; [split; [apply frame_u|auto 10]|]. repeat (split; [reflexivity|]). exists u. reflexivity.
Qed.
Lemma step_inv : forall g w o l dif vp f f', step_frag g w o l dif vp f = Ok f' -> fkeep f f' /\ exists x k1 k2 n nout,
  new_vext o vp f = Ok x /\ set_effective_potential (set_vext (f_ks f) x) = Ok k1 /\ ks_density g w (ps_iter o) dif l k1 = Ok (k2, nout) /\ frame (f_ks f) k1 /\
  k_vext (f_ks f') = x /\ k_n (f_ks f) = Some n /\ k_n (f_ks f') = Some (fun x s => (1 - f_alpha f) * n x s + f_alpha f * nout x s) /\ evaluated g w (f_ks f') /\ (exists e, k_E (f_ks f') = Some e) /\ k_vhxc (f_ks f') = k_vhxc (f_ks f).
Proof.
  intros g w o l dif vp f f' H. unfold step_frag in H.
  match type of H with bind ?m _ = _ => assert (X : exists x, new_vext o vp f = Ok x /\ m = Ok (set_vext (f_ks f) x)) end.
  { unfold new_vext. destruct (f_frozen f) as [[|]|].
    - exists (k_vext (f_ks f)). split; auto. destruct (f_ks f). reflexivity.
    - destruct (ps_sdft o); [destruct (attr (f_V f) "vp"); [|discriminate H]|]; eexists; split; reflexivity.
    - destruct (ps_sdft o); [destruct (attr (f_V f) "vp"); [|discriminate H]|]; eexists; split; reflexivity. }
  destruct X as (x & X1 & X2). rewrite X2 in H. clear X2. cbn [bind] in H. destruct (set_effective_potential (set_vext (f_ks f) x)) as [k1|] eqn:E1; [|discriminate]. cbn [bind] in H.
  destruct (ks_density g w (ps_iter o) dif l k1) as [[k2 nout]|] eqn:D; [|discriminate]. cbn [bind fst snd] in H. destruct (frag_chempot (fk f k2)) as [f1|] eqn:C; [|discriminate]. cbn [bind] in H.
  destruct (need (k_n (f_ks f1))) as [n|] eqn:N; [|discriminate]. cbn [bind] in H. cbv zeta in H. match type of H with bind (ks_energy g w ?k) _ = _ => destruct (ks_energy g w k) as [k3|] eqn:E; [|discriminate] end. cbn [bind] in H. injection H as <-.
  apply need_some in N. apply chempot_inv in C. destruct C as ((C1 & C2 & C3 & C4 & C5 & C6) & C7 & C8 & C9 & u & C10). cbn [fk f_ks f_scale f_alpha f_frozen f_Q f_V] in *.
  assert (F1 : frame (f_ks f) k1) by (eapply frame_trans; [apply frame_vext|eapply frame_eff; exact E1]).
  pose proof (eff_pot _ _ E1) as (ve & vh & P1 & P2 & _ & _ & _ & P6 & P7 & P8 & _).
  pose proof (density_frame _ _ _ _ _ _ _ _ D) as F2. pose proof (density_inv _ _ _ _ _ _ _ _ D) as (sol & n0 & E2 & _).
  pose proof (energy_keep _ _ _ _ E) as (e & W & E3).
  split.
  - split; [|auto 10]. eapply frame_trans; [exact F1|]. eapply frame_trans; [exact F2|]. eapply frame_trans; [exact C1|]. rewrite E3. eapply frame_trans; [apply (frame_n (f_ks f1))|apply frame_EV].
  - exists x, k1, k2, n, nout. split; auto. split; auto. split; auto. split; auto.
    split; [rewrite E3; cbn [set_EV set_n k_vext]; rewrite C8, E2; cbn [set_sol k_vext]; rewrite P7; reflexivity|].
    split; [rewrite C7, E2 in N; cbn [set_sol k_n] in N; rewrite P6 in N; exact N|].
    split; [rewrite E3; reflexivity|]. split; [eexists; exact E|]. split; [rewrite E3; eexists; reflexivity|]. rewrite E3. cbn [set_EV set_n k_vhxc]. rewrite C9, E2. cbn [set_sol k_vhxc]. rewrite P8. reflexivity.
Qed.
