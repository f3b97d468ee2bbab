(** Kinetic energy and its density in kinetic_part_type "inversion" (CADMium/partition/ep_kinetic.py:64-110). *)
From Coq Require Import Reals List Arith Lia Lra ZArith Bool String.
From Verif Require Import Base BaseLemmas GridModel GridSpec GridProofs HartreeModel SolverModel SolverSpec LibxcModel OptionsModel KSModel KSSpec KSProofs KSThms
  InverterModel InverterSpec InverterMore PartitionModel PartitionSpec PartitionBase PartitionDens PartitionEp.
Import ListNotations.
Local Open Scope R_scope.

(** * Specification *)
(** The kinetic energy density of the orbitals of one solver. *)
Definition ked_of (g : grid) (s : solver) (t : vec) : Prop := calc_ked_WFI g (hamiltonian g (s_m s)) s = Ok t.
Definition keds (g : grid) (k : ks) (t : nat -> nat -> vec) : Prop := forall i j, place k i j -> ked_of g (k_sol k i j) (t i j).
(** What the code takes for the kinetic energy density of a component: the last level of every column, divided by the density and
    multiplied by the number of solvers and of columns. *)
Definition last_ked (pol : nat) (k : ks) (t : nat -> nat -> vec) (n : mat) (x : nat) : R :=
  INR (k_lv k * k_cols k) * INR pol * sumR (k_cols k) (fun s => t (k_lv k - 1)%nat s x) / sumR pol (fun s => n x s).

(** * Lemmas *)
Lemma comp_cases : forall x y : comp, {x = y} + {x <> y}. Proof. decide equality. Qed.
Lemma frag_ts_inv : forall g p f r n, frag_ts g p f = Ok r -> k_n (f_ks f) = Some n -> (1 <= k_lv (f_ks f))%nat -> (1 <= k_cols (f_ks f))%nat ->
  exists t, keds g (f_ks f) t /\ (k_cols (f_ks f) <= p_pol p)%nat /\
    forall x, sumR (p_pol p) (fun s => n x s) <> 0 -> r x = Fin (last_ked (p_pol p) (f_ks f) t n x).
Proof.
  intros g p f r n H HN HL HC. unfold frag_ts in H. cbv zeta in H. set (k := f_ks f) in *.
  match type of H with bind (forN _ ?h _) _ = _ => set (step := h) in H end.
  assert (X : forall lv ts0, (forall x s, ts0 x s = 0) -> forall ts, forN lv step ts0 = Ok ts -> exists t, (forall i j, (i < lv)%nat -> (j < k_cols k)%nat -> ked_of g (k_sol k i j) (t i j)) /\ ((1 <= lv)%nat -> (k_cols k <= p_pol p)%nat) /\
     (forall x s, ts x s = if (1 <=? lv)%nat && (s <? k_cols k)%nat then t (lv - 1)%nat s x else 0)).
  { intros lv ts0 Z0. induction lv as [|lv IH]; intros ts E; cbn [forN] in E.
    - injection E as <-. exists (fun _ _ _ => 0). split; [intros; lia|]. split; [lia|]. intros. apply Z0.
    - destruct (forN lv step ts0) as [ts1|] eqn:E1; [|discriminate]. cbn [bind] in E. destruct (IH _ eq_refl) as (t & T1 & T2 & T3).
      assert (Y : forall c ts', forN c (fun j ts => do t <- calc_ked_WFI g (hamiltonian g (s_m (k_sol k lv j))) (k_sol k lv j);
           if (j <? p_pol p)%nat then Ok (fun x s => if (s =? j)%nat then t x else ts x s) else Err IndexError) ts1 = Ok ts' ->
           exists u, (forall j, (j < c)%nat -> ked_of g (k_sol k lv j) (u j)) /\ (c <= p_pol p)%nat /\ forall x s, ts' x s = if (s <? c)%nat then u s x else ts1 x s).
      { clear E. induction c as [|c IHc]; intros ts' E; cbn [forN] in E.
        - injection E as <-. exists (fun _ _ => 0). split; [intros; lia|]. split; [lia|]. intros. reflexivity.
        - match type of E with bind ?m _ = _ => destruct m as [ts2|] eqn:E2; [|discriminate] end. cbn [bind] in E. destruct (IHc _ eq_refl) as (u & U1 & U2 & U3).
          destruct (calc_ked_WFI g _ (k_sol k lv c)) as [tc|] eqn:EK; [|discriminate]. cbn [bind] in E. destruct (Nat.ltb_spec c (p_pol p)); [|discriminate]. injection E as <-.
          exists (fun j => if (j =? c)%nat then tc else u j). split; [|split; [lia|]].
          + intros j Hj. destruct (Nat.eqb_spec j c) as [->|]; [exact EK|apply U1; lia].
          + intros x s. destruct (Nat.eqb_spec s c) as [->|].
            * destruct (Nat.ltb_spec c (S c)); [reflexivity|lia].
            * rewrite U3. destruct (Nat.ltb_spec s c), (Nat.ltb_spec s (S c)); try lia; reflexivity. }
      destruct (Y _ _ E) as (u & U1 & U2 & U3). exists (fun i => if (i =? lv)%nat then u else t i). split; [|split; [auto|]].
      + intros i j Hi Hj. destruct (Nat.eqb_spec i lv) as [->|]; [auto|apply T1; auto; lia].
      + intros x s. rewrite U3. replace (S lv - 1)%nat with lv by lia. rewrite Nat.eqb_refl. cbn [Nat.leb andb]. destruct (Nat.ltb_spec s (k_cols k)); [reflexivity|].
        rewrite T3. destruct (Nat.ltb_spec s (k_cols k)); [lia|]. rewrite andb_false_r. reflexivity. }
  destruct (forN (k_lv k) step _) as [ts|] eqn:E; [|discriminate]. cbn [bind] in H. destruct (X _ _ (fun _ _ => eq_refl) _ E) as (t & T1 & T2 & T3).
  rewrite HN in H. cbn [axis1 bind] in H. injection H as <-. exists t. split; [intros i j (P1 & P2); auto|]. split; [auto|].
  intros x NZ. unfold sum_cols. unfold ndiv. destruct (Req_EM_T _ 0) as [Q|_]; [contradiction|]. cbn [nmulr]. f_equal. unfold last_ked.
  assert (S : sumR (p_pol p) (fun s => ts x s) = sumR (k_cols k) (fun s => t (k_lv k - 1)%nat s x)).
  { replace (p_pol p) with (k_cols k + (p_pol p - k_cols k))%nat by (specialize (T2 HL); lia). rewrite sumR_app.
    rewrite (sumR_ext (k_cols k) _ (fun s => t (k_lv k - 1)%nat s x)).
    2:{ intros s Hs. rewrite T3. destruct (Nat.leb_spec 1 (k_lv k)); [|lia]. destruct (Nat.ltb_spec s (k_cols k)); [reflexivity|lia]. }
    rewrite (sumR_zero (p_pol p - k_cols k)); [ring|].
    intros s Hs. rewrite T3. destruct (Nat.ltb_spec (k_cols k + s) (k_cols k)); [lia|]. rewrite andb_false_r. reflexivity. }
  rewrite S. field. exact NZ.
Qed.
Definition wt (p : part) (F : comp -> frag) (q : comp -> mat) (c : comp) (k : nat) : R := f_scale (F c) * sumR (p_pol p) (fun s => q c k s).
Theorem inversion_kinetic : forall g p F n e q p', ep_kinetic g p = Ok p' -> po_kin (p_opt p) = "inversion"%string ->
  (forall c, In c (comps_ab p) -> p_f p c = Some (F c) /\ k_n (f_ks (F c)) = Some (n c) /\ k_E (f_ks (F c)) = Some (e c) /\ f_Q (F c) = Some (q c) /\ (1 <= k_lv (f_ks (F c)))%nat /\ (1 <= k_cols (f_ks (F c)))%nat) ->
  exists iv iv' ts nf T (tm tf : nat -> num) t, p_inv p = Some iv /\ get_ts_WFI g iv = Ok (iv', ts) /\ p_nf p = Some nf /\ get_Ts g iv' = Ok (Fin T) /\
    (forall c, In c (comps_ab p) -> keds g (f_ks (F c)) (t c)) /\
    let two := if po_ess (p_opt p) then 2 else 1 in
    p_T p' "Ep_kin"%string = Some (SC (T - two * ((if po_ab (p_opt p) then 2 else 1) * lsum (comps_ab p) (fun c => f_scale (F c) * to_R (E_Ts (e c)))))) /\
    p_epk p' = Some (A2 (Nelem g) (fun i j => nsub (tm j) (tf i))) /\
    (forall j, tm j = ndiv (sumR (i_cols iv) (fun s => ts j s)) (sumR (p_pol p) (fun s => nf j s))) /\
    let S := fun k => lsum (comps_ab p) (fun c => wt p F q c k * last_ked (p_pol p) (f_ks (F c)) (t c) (n c) k) in
    let pos_at := fun k => forall c, In c (comps_ab p) -> sumR (p_pol p) (fun s => n c k s) <> 0 in
    forall ia ir, is_point g ia ir -> let k := pos g ia ir in let k' := pos g (Na g - 1 - ia) ir in
      pos_at k -> (po_ab (p_opt p) = true -> pos_at k') -> tf k = Fin (two * (S k + if po_ab (p_opt p) then S k' else 0)).
Proof.
  intros g p F n e q p' H HK HC. destruct (ep_kinetic_inv g p p' H) as (p1 & Tm & tm0 & Tf & tf0 & K1 & K2 & K3 & K4). rewrite HK in K4.
  assert (E : epk_inversion g p = Ok (p1, (Tm, tm0, Tf, tf0))) by (destruct K4 as [[? _]|[[[?|?] _]|[[_ ?]|[[? _]|[? _]]]]]; try discriminate; auto). clear K4 H.
  destruct (epk_inversion_inv g p F e p1 Tm tm0 Tf tf0 (fun c Hc => let (a, b) := HC c Hc in conj a (proj1 (proj2 b))) E) as (iv0 & T0 & I1 & I2 & I3 & I4).
  unfold epk_inversion in E. destruct (have (p_inv p)) as [iv|] eqn:EI; [|discriminate]. cbn [bind] in E. apply have_some in EI. destruct (get_ts_WFI g iv) as [[iv' ts]|] eqn:ET; [|discriminate]. cbn [bind] in E.
  destruct (have (p_nf p)) as [nf|] eqn:EN; [|discriminate]. cbn [bind] in E. apply have_some in EN. cbv zeta in E. cbn [fst snd] in E. destruct (get_Ts g iv') as [T1|] eqn:EG; [|discriminate]. cbn [bind] in E.
  destruct (fin T1) as [T|] eqn:EF; [|discriminate]. apply fin_ok in EF. subst T1. cbn [bind] in E.
  match type of E with bind ?m _ = _ => destruct m as [[a1 a2]|] eqn:E1; [|discriminate] end. cbn [bind fst snd] in E.
  assert (G : forall l acc r, (forall c, In c l -> In c (comps_ab p)) ->
      forL l (fun c (acc : R * (nat -> num)) => do f <- get_f p c; do e <- have (k_E (f_ks f)); do T <- fin (E_Ts e); do ts <- frag_ts g p f; do Q <- getQ f;
        Ok (fst acc + f_scale f * T, fun k => nadd (snd acc k) (nmulr (ts k) (f_scale f * sum_cols (p_pol p) Q k)))) acc = Ok r ->
      exists t, (forall c, In c l -> keds g (f_ks (F c)) (t c)) /\ forall k x, snd acc k = Fin x -> (forall c, In c l -> sumR (p_pol p) (fun s => n c k s) <> 0) ->
        snd r k = Fin (x + lsum l (fun c => wt p F q c k * last_ked (p_pol p) (f_ks (F c)) (t c) (n c) k))).
  { clear E1. induction l as [|c l IH]; intros acc r HI H; cbn [forL lsum] in *.
    - injection H as <-. exists (fun _ _ _ _ => 0). split; [intros c []|]. intros k x -> _. f_equal. ring.
    - destruct (HC c (HI c (or_introl eq_refl))) as (C1 & C2 & C3 & C4 & C5 & C6). unfold get_f in H at 1. rewrite C1 in H. cbn [have bind] in H. rewrite C3 in H. cbn [have bind] in H.
      destruct (fin (E_Ts (e c))) as [tt|]; [|discriminate]. cbn [bind] in H. destruct (frag_ts g p (F c)) as [rr|] eqn:ER; [|discriminate]. cbn [bind] in H.
      unfold getQ in H at 1. rewrite C4 in H. cbn [bind] in H. apply IH in H; [|intros; apply HI; right; auto]. destruct H as (t & H1 & H2).
      destruct (frag_ts_inv _ _ _ _ _ ER C2 C5 C6) as (tc & U1 & _ & U2).
      assert (DC : exists t', (forall k, (forall c', In c' (c :: l) -> sumR (p_pol p) (fun s => n c' k s) <> 0) -> forall x, x + lsum l (fun c => wt p F q c k * last_ked (p_pol p) (f_ks (F c)) (t c) (n c) k) = x + lsum l (fun c => wt p F q c k * last_ked (p_pol p) (f_ks (F c)) (t' c) (n c) k)) /\ (forall c', In c' (c :: l) -> keds g (f_ks (F c')) (t' c')) /\
          (forall k, sumR (p_pol p) (fun s => n c k s) <> 0 -> rr k = Fin (last_ked (p_pol p) (f_ks (F c)) (t' c) (n c) k))).
      { destruct (in_dec comp_cases c l) as [IN|NI].
        - exists t. split; [reflexivity|]. split; [intros c' [<- |]; auto|]. intros k NZ. rewrite (U2 k NZ). f_equal.
          unfold last_ked. do 2 f_equal. apply sumR_ext. intros s Hs. pose proof (U1 (k_lv (f_ks (F c)) - 1)%nat s ltac:(split; lia)) as A. pose proof (H1 c IN (k_lv (f_ks (F c)) - 1)%nat s ltac:(split; lia)) as B. unfold ked_of in *. congruence.
        - exists (fun c' => if comp_cases c' c then tc else t c'). split; [|split].
          + intros k _ x. f_equal. apply lsum_ext. intros c' Hc'. destruct (comp_cases c' c) as [->|]; [contradiction|reflexivity].
          + intros c' [<- |Hc']; [destruct (comp_cases c c); [exact U1|contradiction]|]. destruct (comp_cases c' c) as [->|]; auto.
          + intros k NZ. destruct (comp_cases c c); [auto|contradiction]. }
      destruct DC as (t' & D1 & D2 & D3). exists t'. split; [exact D2|]. intros k x AC NZ.
      rewrite (H2 k (x + last_ked (p_pol p) (f_ks (F c)) (t' c) (n c) k * wt p F q c k)).
      + f_equal. rewrite (D1 k NZ). ring.
      + cbn [snd]. rewrite AC, D3 by (apply NZ; left; reflexivity). reflexivity.
      + intros c' Hc'. apply NZ. right; auto. }
  destruct (G _ _ _ (fun c h => h) E1) as (t & G1 & G2). cbn [fst snd] in G2.
  assert (TT : T0 = T) by (destruct (po_ab (p_opt p)); injection E as <- <- _ _ _; cbn [set_inv p_inv] in I1; injection I1 as <-; congruence). subst T0.
  set (tfb := if po_ab (p_opt p) then fun k => nadd (a2 k) (mirror1 g a2 k) else a2).
  assert (ES : tm0 = A2 (Nelem g) (fun _ j => ndiv (sum_cols (i_cols iv) ts j) (sum_cols (p_pol p) nf j)) /\ tf0 = A2 (Nelem g) (fun i _ => tfb i)) by (unfold tfb; destruct (po_ab (p_opt p)); injection E as _ _ <- _ <-; split; reflexivity).
  destruct ES as (-> & ->). exists iv, iv', ts, nf, T, (fun j => ndiv (sum_cols (i_cols iv) ts j) (sum_cols (p_pol p) nf j)), (fun k => if po_ess (p_opt p) then nadd (tfb k) (tfb k) else tfb k), t.
  do 4 (split; [assumption|]). split; [exact G1|]. cbv zeta. split; [|split; [|split]].
  - rewrite K1, I3, I4. destruct (po_ess (p_opt p)); cbn [sv_op]; do 2 f_equal; ring.
  - rewrite K2. destruct (po_ess (p_opt p)); reflexivity.
  - intros j. reflexivity.
  - intros ia ir PT P1 P2. 
    assert (X : tfb (pos g ia ir) = Fin (lsum (comps_ab p) (fun c => wt p F q c (pos g ia ir) * last_ked (p_pol p) (f_ks (F c)) (t c) (n c) (pos g ia ir)) +
      (if po_ab (p_opt p) then lsum (comps_ab p) (fun c => wt p F q c (pos g (Na g - 1 - ia) ir) * last_ked (p_pol p) (f_ks (F c)) (t c) (n c) (pos g (Na g - 1 - ia) ir)) else 0))).
    { unfold tfb. destruct (po_ab (p_opt p)).
      - rewrite mirror1_pos by auto. rewrite (G2 (pos g ia ir) 0), (G2 (pos g (Na g - 1 - ia) ir) 0) by auto. cbn [nadd]. f_equal. ring.
      - rewrite (G2 (pos g ia ir) 0) by auto. f_equal. ring. }
    rewrite X. destruct (po_ess (p_opt p)); cbn [nadd]; f_equal; ring.
Qed.
(** One spin column, one level per component: the diagonal of V.ep_kin, integrated against the density. *)
Theorem inversion_diagonal : forall g p F n na nb nf q e t iv iv' ts p', grid_ok g -> settled g p F n na nb nf q -> po_kin (p_opt p) = "inversion"%string ->
  p_pol p = 1%nat -> po_ab (p_opt p) = false -> po_ess (p_opt p) = false ->
  (forall c, member (p_ens p) c -> k_E (f_ks (F c)) = Some (e c) /\ k_lv (f_ks (F c)) = 1%nat /\ k_cols (f_ks (F c)) = 1%nat /\ ked_of g (k_sol (f_ks (F c)) 0 0) (t c) /\ E_Ts (e c) = Fin (integrate1 g (t c)) /\
     forall k, (k < Nelem g)%nat -> n c k 0%nat <> 0) ->
  (forall k, (k < Nelem g)%nat -> nf k 0%nat <> 0) ->
  p_inv p = Some iv -> get_ts_WFI g iv = Ok (iv', ts) -> get_Ts g iv' = Ok (Fin (integrate1 g (fun k => sumR (i_cols iv) (fun s => ts k s)))) ->
  ep_kinetic g p = Ok p' ->
  exists E h, p_T p' "Ep_kin"%string = Some (SC E) /\ p_epk p' = Some (A2 (Nelem g) h) /\ (forall k, (k < Nelem g)%nat -> exists x, h k k = Fin x) /\
    E - integrate1 g (fun k => nf k 0%nat * to_R (h k k)) = - lsum (comps (p_ens p)) (fun c => f_scale (F c) * (1 - f_scale (F c)) * integrate1 g (t c)).
Proof.
  intros g p F n na nb nf q e t iv iv' ts p' G ((D1 & D2) & PM & HQ & _) HK HP AB ES HC HN HI HT HG H.
  assert (CA : comps_ab p = comps (p_ens p)) by (unfold comps_ab; rewrite AB; reflexivity).
  assert (MB : forall c, In c (comps_ab p) -> member (p_ens p) c) by (intros c Hc; rewrite CA in Hc; apply in_comps in Hc; exact Hc).
  assert (NF : p_nf p = Some nf) by apply PM.
  destruct (inversion_kinetic g p F n e q p' H HK) as (iv1 & iv2 & ts1 & nf1 & T & tm & tf & u & I1 & I2 & I3 & I4 & I5 & I6 & I7 & I8 & I9).
  { intros c Hc. pose proof (MB c Hc) as M. destruct (HC c M) as (C1 & C2 & C3 & _). rewrite C2, C3. repeat (split; [first [apply D1; auto|apply D2; auto|apply HQ; auto|assumption|lia]|]). lia. }
  rewrite HI in I1. injection I1 as <-. rewrite HT in I2. injection I2 as <- <-. rewrite NF in I3. injection I3 as <-. rewrite HG in I4. injection I4 as <-. cbv zeta in I9. rewrite AB, ES in *.
  eexists _, _. split; [exact I6|]. split; [exact I7|].
  assert (U : forall c, member (p_ens p) c -> u c 0%nat 0%nat = t c).
  { intros c M. destruct (HC c M) as (_ & C2 & C3 & C4 & _). assert (IN : In c (comps_ab p)) by (rewrite CA; apply in_comps; exact M). pose proof (I5 c IN 0%nat 0%nat ltac:(split; lia)) as X. unfold ked_of in *. congruence. }
  assert (V : forall k, (k < Nelem g)%nat -> nsub (tm k) (tf k) = Fin (sumR (i_cols iv) (fun s => ts k s) / nf k 0%nat - lsum (comps (p_ens p)) (fun c => f_scale (F c) * (f_scale (F c) / nf k 0%nat * t c k)))).
  { intros k K. destruct (pos_surj g k K) as (ia & ir & PT & ->). rewrite (I9 ia ir PT); [|intros c Hc; rewrite HP; cbn [sumR]; rewrite Rplus_0_l; apply (HC c (MB c Hc)); exact K|discriminate].
    rewrite I8, HP. cbn [sumR]. rewrite Rplus_0_l. unfold ndiv. destruct (Req_EM_T _ 0) as [Z|_]; [exfalso; exact (HN _ K Z)|]. unfold nsub. cbn [nneg nadd]. f_equal. unfold Rminus. f_equal. f_equal. rewrite CA, Rplus_0_r, Rmult_1_l. apply lsum_ext. intros c Hc. rewrite <- CA in Hc. pose proof (MB c Hc) as M.
    destruct (HC c M) as (_ & C2 & C3 & _ & _ & C6). destruct (HQ c M) as (_ & Q2). unfold wt, last_ked. rewrite HP, C2, C3. cbn [sumR Nat.mul Nat.add Nat.sub INR]. rewrite (proj1 (Q2 _ _) (HN _ K)), (U c M). field. split; [apply HN; exact K|apply C6; exact K]. }
  split; [intros k K; rewrite V by auto; eauto|].
  rewrite (integrate1_ext g (fun k => nf k 0%nat * to_R (nsub (tm k) (tf k))) (fun k => sumR (i_cols iv) (fun s => ts k s) + -1 * lsum (comps (p_ens p)) (fun c => f_scale (F c) ^ 2 * t c k))).
  - rewrite integrate1_plus, integrate1_scal, lsum_integrate. rewrite CA. replace (lsum (comps (p_ens p)) (fun c => integrate1 g (fun k => f_scale (F c) ^ 2 * t c k))) with (lsum (comps (p_ens p)) (fun c => f_scale (F c) ^ 2 * integrate1 g (t c))) by (apply lsum_ext; intros; rewrite integrate1_scal; reflexivity).
    assert (L : lsum (comps (p_ens p)) (fun c => f_scale (F c) * to_R (E_Ts (e c))) = lsum (comps (p_ens p)) (fun c => f_scale (F c) * integrate1 g (t c))).
    { apply lsum_ext. intros c Hc. apply in_comps in Hc. destruct (HC c Hc) as (_ & _ & _ & _ & C5 & _). rewrite C5. reflexivity. }
    rewrite L. unfold comps. destruct (p_ens p); cbn [lsum]; ring.
  - intros k K. rewrite V by auto. cbn [to_R]. pose proof (HN k K) as NZ. unfold comps. destruct (p_ens p); cbn [lsum]; field; exact NZ.
Qed.
