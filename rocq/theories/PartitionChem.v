(** Partition: chemical potential and initial guess of the inversion. *)
From Coq Require Import Reals List Arith Lia Lra ZArith Bool String.
From Verif Require Import Base BaseLemmas GridModel GridSpec GridProofs HartreeModel SolverModel SolverSpec LibxcModel OptionsModel KSModel KSSpec KSProofs KSLoop KSEnergy
  InverterModel PartitionModel PartitionSpec PartitionBase PartitionFrame.
Import ListNotations.
Local Open Scope R_scope.

(** * Chemical potential *)
Lemma chem_none : forall fa fb u0 ua r, (forall i j, place (f_ks fa) i j -> f_homo fb i j = None) -> chem_loop fa fb u0 ua = Ok r ->
  ua <= r /\ (forall i j h, place (f_ks fa) i j -> f_homo fa i j = Some h -> h <= r) /\ (r = ua \/ exists i j, place (f_ks fa) i j /\ f_homo fa i j = Some r).
Proof.
  intros fa fb u0 ua r HN H. unfold chem_loop in H.
  set (Q := fun (i j : nat) (x : R) => ua <= x /\ (forall i' j' h, place (f_ks fa) i' j' -> (i' < i \/ i' = i /\ j' < j)%nat -> f_homo fa i' j' = Some h -> h <= x) /\ (x = ua \/ exists i j, place (f_ks fa) i j /\ f_homo fa i j = Some x)).
  assert (X : Q (k_lv (f_ks fa)) 0%nat r).
  { apply (forN_inv _ (fun i x => Q i 0%nat x) _ _ _ _ H).
    - unfold Q. split; [lra|]. split; [intros i' j' h _ D; lia|auto].
    - intros i x y Hi Hx E.
      assert (Z : Q i (k_cols (f_ks fa)) y).
      { apply (forN_inv _ (fun j x => Q i j x) _ _ _ _ E); auto. clear x y Hx E. intros j x y Hj (A & B & C) E. unfold chem_step in E.
        destruct (sol_at fa i j); [|discriminate]. cbn [bind] in E. cbv zeta in E. destruct (sol_at fb i j); [|discriminate]. cbn [bind] in E. rewrite (HN i j) in E by (split; auto). injection E as <-.
        destruct (f_homo fa i j) as [h0|] eqn:HH.
        - split; [eapply Rle_trans; [exact A|apply Rmax_l]|]. split.
          + intros i' j' h P D HS. destruct (Nat.eq_dec j' j) as [->|Nj]; [destruct (Nat.eq_dec i' i) as [->|Ni]|].
            * rewrite HH in HS. injection HS as <-. apply Rmax_r.
            * eapply Rle_trans; [|apply Rmax_l]. eapply B; eauto. lia.
            * eapply Rle_trans; [|apply Rmax_l]. eapply B; eauto. lia.
          + destruct (Rle_dec h0 x).
            * rewrite Rmax_left by auto. exact C.
            * rewrite Rmax_right by lra. right. exists i, j. split; [split; auto|auto].
        - split; auto. split; auto. intros i' j' h P D HS. destruct (Nat.eq_dec j' j) as [->|Nj]; [destruct (Nat.eq_dec i' i) as [->|Ni]|]; [congruence| |]; eapply B; eauto; lia. }
      destruct Z as (A & B & C). split; auto. split; auto. intros i' j' h P D HS. apply (B i' j' h P); auto. destruct P as (P1 & P2). lia. }
  destruct X as (A & B & C). split; auto. split; auto. intros i j h P HS. apply (B i j h P); auto. destruct P as (P1 & P2). lia.
Qed.
Lemma chem_last : forall fa fb u0 ua r h, (0 < k_lv (f_ks fa))%nat -> (0 < k_cols (f_ks fa))%nat ->
  f_homo fb (k_lv (f_ks fa) - 1) (k_cols (f_ks fa) - 1) = Some h -> chem_loop fa fb u0 ua = Ok r -> r = Rmax u0 h.
Proof.
  intros fa fb u0 ua r h L1 L2 HH H. unfold chem_loop in H. destruct (k_lv (f_ks fa)) as [|lv]; [lia|]. replace (S lv - 1)%nat with lv in HH by lia. cbn [forN] in H.
  match type of H with bind ?m _ = _ => destruct m as [x|]; [|discriminate] end. cbn [bind] in H. destruct (k_cols (f_ks fa)) as [|cols]; [lia|]. replace (S cols - 1)%nat with cols in HH by lia. cbn [forN] in H.
  match type of H with bind ?m _ = _ => destruct m as [y|]; [|discriminate] end. cbn [bind] in H. unfold chem_step in H.
  destruct (sol_at fa lv cols); [|discriminate]. cbn [bind] in H. cbv zeta in H. destruct (sol_at fb lv cols); [|discriminate]. cbn [bind] in H. rewrite HH in H. injection H as <-. reflexivity.
Qed.
(** HOMOs recorded in fragment A *)
Definition homo_of_a (p : part) (F : comp -> frag) (h : R) : Prop :=
  exists c i j, member (p_ens p) c /\ of_a c /\ place (f_ks (F c)) i j /\ f_homo (F c) i j = Some h.
Theorem chempot_ab : forall p F u, frags p F ->
  (forall c i j, member (p_ens p) c -> of_a c -> place (f_ks (F c)) i j -> f_homo (F (twin c)) i j = None) -> inv_chempot p = Ok u ->
  - 1 / feps <= u /\ (forall h, homo_of_a p F h -> h <= u) /\ (u = - 1 / feps \/ homo_of_a p F u).
Proof.
  intros p F u HF HN H. unfold inv_chempot in H. unfold get_f in H. rewrite (HF Ca Logic.I), (HF Cb Logic.I) in H. cbn [have bind] in H. set (u0 := - 1 / feps) in *.
  destruct (chem_loop (F Ca) (F Cb) u0 u0) as [ua|] eqn:E1; [|discriminate]. cbn [bind] in H.
  apply chem_none in E1; [|intros i j P; apply (HN Ca); auto; [exact Logic.I|left; auto]]. destruct E1 as (A1 & A2 & A3).
  destruct (p_ens p) eqn:En.
  - rewrite (HF CA), (HF CB) in H by (rewrite En; reflexivity). cbn [have bind] in H. destruct (chem_loop (F CA) (F CB) u0 ua) as [ub|] eqn:E2; [|discriminate]. cbn [bind] in H. injection H as <-.
    apply chem_none in E2; [|intros i j P; apply (HN CA); auto; [reflexivity|right; auto]]. destruct E2 as (B1 & B2 & B3). rewrite Rmax_left by lra. split; [lra|]. split.
    + intros h (c & i & j & M & [-> | ->] & P & HS); [pose proof (A2 i j h P HS); lra|apply (B2 i j h P HS)].
    + destruct B3 as [->|(i & j & P & B3)]; [|right; exists CA, i, j; rewrite En; simpl; unfold of_a; auto].
      destruct A3 as [->|(i & j & P & A3)]; [auto|right; exists Ca, i, j; simpl; unfold of_a; auto].
  - cbn [bind] in H. injection H as <-. rewrite Rmax_left by lra. split; [lra|]. split.
    + intros h (c & i & j & M & [-> | ->] & P & HS); [apply (A2 i j h P HS)|rewrite En in M; discriminate].
    + destruct A3 as [->|(i & j & P & A3)]; [auto|right; exists Ca, i, j; simpl; unfold of_a; auto].
Qed.
Theorem chempot_last_b : forall p F u h, frags p F -> let c := if p_ens p then CB else Cb in let a := if p_ens p then CA else Ca in
  (0 < k_lv (f_ks (F a)))%nat -> (0 < k_cols (f_ks (F a)))%nat ->
  f_homo (F c) (k_lv (f_ks (F a)) - 1) (k_cols (f_ks (F a)) - 1) = Some h -> - 1 / feps <= h -> inv_chempot p = Ok u -> u = h.
Proof.
  intros p F u h HF c a L1 L2 HH HL H. unfold inv_chempot in H. unfold get_f in H. rewrite (HF Ca Logic.I), (HF Cb Logic.I) in H. cbn [have bind] in H. set (u0 := - 1 / feps) in *.
  destruct (chem_loop (F Ca) (F Cb) u0 u0) as [ua|] eqn:E1; [|discriminate]. cbn [bind] in H. unfold a, c in *. destruct (p_ens p) eqn:En.
  - rewrite (HF CA), (HF CB) in H by (rewrite En; reflexivity). cbn [have bind] in H. destruct (chem_loop (F CA) (F CB) u0 ua) as [ub|] eqn:E2; [|discriminate]. cbn [bind] in H. injection H as <-.
    rewrite (chem_last _ _ _ _ _ _ L1 L2 HH E2). rewrite (Rmax_right u0 h) by auto. apply Rmax_left. auto.
  - cbn [bind] in H. injection H as <-. rewrite (chem_last _ _ _ _ _ _ L1 L2 HH E1). rewrite (Rmax_right u0 h) by auto. apply Rmax_left. auto.
Qed.
(** the fragment kinetic potentials are u minus the effective potentials *)
Theorem inversion_vt : forall g w p p', vpk_inversion g w p = Ok p' -> exists u, inv_chempot p = Ok u /\
  forall c, member (p_ens p) c -> exists f v f', p_f p c = Some f /\ k_veff (f_ks f) = Some v /\ p_f p' c = Some f' /\ f_vt f' = Some (fun k s => Fin (u - v k s)).
Proof.
  intros g w p p' H. unfold vpk_inversion in H. destruct (inv_chempot p) as [u|]; [|discriminate]. cbn [bind] in H. exists u. split; auto.
  match type of H with bind ?m _ = _ => destruct m as [p1|] eqn:E1; [|discriminate] end. cbn [bind] in H.
  match type of H with bind ?m _ = _ => destruct m as [p2|] eqn:E2; [|discriminate] end. cbn [bind] in H.
  assert (K : p_f p2 = p_f p1).
  { apply (forN_inv _ (fun _ q => p_f q = p_f p1) _ _ _ _ E2); auto. intros i x y _ Hx E. unfold inv_spin in E. dm E. injection E as <-. exact Hx. }
  assert (K' : p_f p' = p_f p1). { rewrite <- K. dm H; injection H as <-; reflexivity. }
  intros c Hc.
  assert (E1' : forL (comps (p_ens p)) (fun c p => do f <- get_f p c; do f' <- (do v <- have (k_veff (f_ks f)); Ok (fvt f (fun k s => Fin (u - v k s)))); Ok (set_frag p c f')) p = Ok p1).
  { rewrite <- E1. apply forL_ext. intros e q _. destruct (get_f q e) as [f9|]; cbn [bind]; auto. destruct (have (k_veff (f_ks f9))); reflexivity. }
  apply (forL_frags (fun c p f => do v <- have (k_veff (f_ks f)); Ok (fvt f (fun k s => Fin (u - v k s))))) in E1'; [|intros ? ? ? ?; reflexivity|apply comps_nodup].
  destruct E1' as (_ & B & _). destruct (B c (proj2 (in_comps _ _) Hc)) as (f & f' & B1 & B2 & B3). destruct (have (k_veff (f_ks f))) as [v|] eqn:V; [|discriminate]. cbn [bind] in B2. injection B2 as <-. apply have_some in V.
  exists f, v, (fvt f (fun k s => Fin (u - v k s))). rewrite K'. auto.
Qed.
