(** Partition: the loop of Partition.scf. *)
From Coq Require Import Reals List Arith Lia Lra ZArith Bool String.
From Verif Require Import Base BaseLemmas GridModel GridSpec GridProofs HartreeModel SolverModel SolverSpec LibxcModel OptionsModel KSModel KSSpec KSProofs KSLoop KSEnergy
  InverterModel PartitionModel PartitionSpec PartitionBase PartitionFrame.
Import ListNotations.
Local Open Scope R_scope.

(** * One pass up to the residual *)
Definition psc_work (g : grid) (w : penv) (o : psopt) (sched : comp -> list (nat * nat)) (s : pst) : res (part * (R * mat * num)) :=
  do p1 <- psc_avoid (q_iter s) (q_p s);
  do p2 <- forL (comps_ab p1) (psc_hxc g (pe_env w)) p1;
  do p3 <- (if po_ab (p_opt p2) then mirrorAB g p2 else Ok p2);
  do pv <- psc_vp g w p3;
  do p4 <- forL (comps_ab p1) (psc_fragment g (pe_env w) o sched (q_dif s) (snd pv)) (fst pv);
  do p5 <- psc_proto g o p4;
  do p6 <- energy g (pe_env w) p5;
  do r <- psc_dif g p6 (q_oldE s) (q_oldn s);
  Ok (p6, r).
Lemma work_inv : forall g w o sched s p r, psc_work g w o sched s = Ok (p, r) -> exists p1 p2 p3 pv p4 p5,
  psc_avoid (q_iter s) (q_p s) = Ok p1 /\ forL (comps_ab p1) (psc_hxc g (pe_env w)) p1 = Ok p2 /\ (if po_ab (p_opt p2) then mirrorAB g p2 else Ok p2) = Ok p3 /\
  psc_vp g w p3 = Ok pv /\ forL (comps_ab p1) (psc_fragment g (pe_env w) o sched (q_dif s) (snd pv)) (fst pv) = Ok p4 /\ psc_proto g o p4 = Ok p5 /\
  energy g (pe_env w) p5 = Ok p /\ psc_dif g p (q_oldE s) (q_oldn s) = Ok r.
Proof.
  intros g w o sched s p r H. unfold psc_work in H.
  destruct (psc_avoid (q_iter s) (q_p s)) as [p1|]; cbn [bind] in H; [|discriminate].
  destruct (forL (comps_ab p1) (psc_hxc g (pe_env w)) p1) as [p2|] eqn:E2; cbn [bind] in H; [|discriminate].
  destruct (if po_ab (p_opt p2) then mirrorAB g p2 else Ok p2) as [p3|] eqn:E3; cbn [bind] in H; [|discriminate].
  destruct (psc_vp g w p3) as [pv|] eqn:E4; cbn [bind] in H; [|discriminate].
  destruct (forL (comps_ab p1) (psc_fragment g (pe_env w) o sched (q_dif s) (snd pv)) (fst pv)) as [p4|] eqn:E5; cbn [bind] in H; [|discriminate].
  destruct (psc_proto g o p4) as [p5|] eqn:E6; cbn [bind] in H; [|discriminate].
  destruct (energy g (pe_env w) p5) as [p6|] eqn:E7; cbn [bind] in H; [|discriminate].
  destruct (psc_dif g p6 (q_oldE s) (q_oldn s)) as [r'|] eqn:E8; cbn [bind] in H; [|discriminate].
  assert (Q : p6 = p /\ r' = r) by (split; congruence). destruct Q as (<- & <-).
  exists p1, p2, p3, pv, p4, p5. repeat (split; [solve [auto]|]). auto.
Qed.
Definition watching (p : part) : bool :=
  (String.eqb (po_kin (p_opt p)) "inversion" || String.eqb (po_vp (p_opt p)) "potential_inversion") && negb (po_iso (p_opt p)).
Definition psc_next (o : psopt) (s : pst) (p : part) (r : R * mat * num) (fl : nat) : pst :=
  let '(E, nf, dif) := r in
  let better := gtb (q_min s) dif in
  let it := (q_iter s + 1)%Z in
  mkPst p dif E nf it fl (if ps_auto o && better then dif else q_min s)
        (if ps_auto o then (if better then 0%Z else (q_notmin s + 1)%Z) else q_notmin s)
        (if (it =? ps_maxit o)%Z then (q_warn s ++ [it])%list else q_warn s).
Lemma body_work : forall g w o sched s, psc_body g w o sched s =
  do x <- psc_work g w o sched s; do fl <- (if watching (fst x) then psc_fail (p_info (fst x)) (q_fail s) else Ok (q_fail s)); Ok (psc_next o s (fst x) (snd x) fl).
Proof.
  intros. unfold psc_body, psc_work, watching, psc_next.
  destruct (psc_avoid (q_iter s) (q_p s)) as [p1|]; cbn [bind]; [|reflexivity].
  destruct (forL (comps_ab p1) (psc_hxc g (pe_env w)) p1) as [p2|]; cbn [bind]; [|reflexivity].
  destruct (if po_ab (p_opt p2) then mirrorAB g p2 else Ok p2) as [p3|]; cbn [bind]; [|reflexivity].
  destruct (psc_vp g w p3) as [pv|]; cbn [bind]; [|reflexivity].
  destruct (forL (comps_ab p1) (psc_fragment g (pe_env w) o sched (q_dif s) (snd pv)) (fst pv)) as [p4|]; cbn [bind]; [|reflexivity].
  destruct (psc_proto g o p4) as [p5|]; cbn [bind]; [|reflexivity].
  destruct (energy g (pe_env w) p5) as [p6|]; cbn [bind]; [|reflexivity].
  destruct (psc_dif g p6 (q_oldE s) (q_oldn s)) as [[[E nf] dif]|]; cbn [bind fst snd]; [|reflexivity]. reflexivity.
Qed.
Lemma body_inv : forall g w o sched s s', psc_body g w o sched s = Ok s' -> exists p r fl, psc_work g w o sched s = Ok (p, r) /\
  (if watching p then psc_fail (p_info p) (q_fail s) else Ok (q_fail s)) = Ok fl /\ s' = psc_next o s p r fl.
Proof.
  intros g w o sched s s' H. rewrite body_work in H. destruct (psc_work g w o sched s) as [[p r]|]; [|discriminate]. cbn [bind fst snd] in H.
  destruct (if watching p then psc_fail (p_info p) (q_fail s) else Ok (q_fail s)) as [fl|] eqn:E; [|discriminate]. cbn [bind] in H. injection H as <-. exists p, r, fl. auto.
Qed.
Lemma body_count : forall g w o sched s s', psc_body g w o sched s = Ok s' -> q_iter s' = (q_iter s + 1)%Z /\
  q_warn s' = (if (q_iter s + 1 =? ps_maxit o)%Z then (q_warn s ++ [(q_iter s + 1)%Z])%list else q_warn s).
Proof. intros g w o sched s s' H. apply body_inv in H. destruct H as (p & [[E nf] dif] & fl & _ & _ & ->). split; reflexivity. Qed.

(** * Runs *)
Lemma loop_reach : forall g w sched d p o fuel n l s s', passes g w sched d p o n l s -> psc_loop g w o sched fuel s = Ok s' ->
  exists n' l', passes g w sched d p o n' l' s'.
Proof.
  intros g w sched d p o. induction fuel as [|f IH]; intros n l s s' HP H; cbn [psc_loop] in H.
  - injection H as <-. eauto.
  - destruct (psc_test o s) as [[|]|] eqn:T; cbn [bind] in H; [|injection H as <-; eauto|discriminate].
    destruct (psc_body g w o (sched (q_iter s)) s) as [s1|] eqn:B; [|discriminate]. cbn [bind] in H. eapply IH; [|exact H]. eapply pass_step; eauto.
Qed.
Lemma test_true : forall o s, psc_test o s = Ok true -> (q_iter s <= ps_maxit o)%Z /\ gtb (q_dif s) (Fin (ps_tol o)) = true.
Proof. intros o s H. unfold psc_test in H. destruct (gtb (q_dif s) (Fin (ps_tol o))); [injection H as H; split; auto; lia|]. destruct (ps_auto o); discriminate. Qed.
Lemma loop_end : forall g w o sched fuel s s', (0 < fuel)%nat -> (ps_maxit o + 1 < q_iter s + Z.of_nat fuel)%Z -> psc_loop g w o sched fuel s = Ok s' -> psc_test o s' = Ok false.
Proof.
  intros g w o sched. induction fuel as [|f IH]; intros s s' HF HB H; [lia|]. cbn [psc_loop] in H.
  destruct (psc_test o s) as [[|]|] eqn:T; cbn [bind] in H; [|injection H as <-; exact T|discriminate].
  destruct (psc_body g w o (sched (q_iter s)) s) as [s1|] eqn:B; [|discriminate]. cbn [bind] in H. apply test_true in T. destruct T as (T1 & T2). apply body_count in B. destruct B as (B & _).
  eapply IH; [| |exact H]; rewrite ?B; lia.
Qed.
Lemma passes_count : forall g w sched d p o n l s, passes g w sched d p o n l s -> q_iter s = (Z.of_nat n + 1)%Z /\ ((0 < n)%nat -> (Z.of_nat n <= ps_maxit o)%Z) /\
  q_warn s = (if (2 <=? ps_maxit o)%Z && (ps_maxit o <=? q_iter s)%Z then [ps_maxit o] else []).
Proof.
  intros g w sched d p o n l s H. induction H as [p0 nf O S N|n l s s' HP IH T B].
  - cbn [q_iter q_warn]. split; [lia|]. split; [lia|]. destruct (Z.leb_spec 2 (ps_maxit o)); destruct (Z.leb_spec (ps_maxit o) 1); simpl; auto; lia.
  - destruct IH as (I1 & I2 & I3). apply body_count in B. destruct B as (B1 & B2). apply test_true in T. destruct T as (T1 & T2). split; [lia|]. split; [lia|].
    rewrite B2, I3, B1. destruct (Z.eqb_spec (q_iter s + 1) (ps_maxit o)) as [E|E].
    + rewrite <- E. destruct (Z.leb_spec 2 (q_iter s + 1)); destruct (Z.leb_spec (q_iter s + 1) (q_iter s)); destruct (Z.leb_spec (q_iter s + 1) (q_iter s + 1)); simpl; auto; lia.
    + destruct (Z.leb_spec 2 (ps_maxit o)); destruct (Z.leb_spec (ps_maxit o) (q_iter s)); destruct (Z.leb_spec (ps_maxit o) (q_iter s + 1)); simpl; auto; lia.
Qed.
Theorem pscf_trace : forall g w sched d p s, partition_scf g w sched d p = Ok s -> exists o n l, passes g w sched d p o n l s /\ psc_test o s = Ok false.
Proof.
  intros g w sched d p s H. unfold partition_scf in H. destruct (psc_options p d) as [o|] eqn:O; [|discriminate]. cbn [bind] in H.
  destruct (psc_start g (pe_env w) o (sched 0%Z) p) as [p0|] eqn:S; [|discriminate]. cbn [bind] in H. destruct (p_nf p0) as [nf|] eqn:N; [|discriminate]. cbn [have bind] in H.
  pose proof (pass_start g w sched d p o p0 nf O S N) as P0. destruct (loop_reach _ _ _ _ _ _ _ _ _ _ _ P0 H) as (n & l & P). exists o, n, l. split; auto.
  apply loop_end in H; auto; cbn [q_iter]; lia.
Qed.
Theorem pscf_bound : forall g w sched d p s, partition_scf g w sched d p = Ok s -> exists o n l, psc_options p d = Ok o /\ passes g w sched d p o n l s /\
  (Z.of_nat n <= Z.max 0 (ps_maxit o))%Z /\
  ((Z.of_nat n < ps_maxit o)%Z -> q_dif s = NaN \/ q_dif s = NInf \/ exists r, q_dif s = Fin r /\ r <= ps_tol o) /\
  (q_warn s = if (2 <=? ps_maxit o)%Z && (ps_maxit o - 1 <=? Z.of_nat n)%Z then [ps_maxit o] else []) /\
  (ps_auto o = true -> q_dif s = PInf \/ exists r, q_dif s = Fin r /\ ps_tol o < r).
Proof.
  intros g w sched d p s H. destruct (pscf_trace _ _ _ _ _ _ H) as (o & n & l & P & T). exists o, n, l. destruct (passes_count _ _ _ _ _ _ _ _ _ P) as (C1 & C2 & C3).
  split; [clear - P; induction P; auto|]. split; auto. split; [destruct n; lia|]. unfold psc_test in T. split; [|split].
  - intros Q. apply gtb_false. destruct (gtb (q_dif s) (Fin (ps_tol o))); auto. injection T as T. lia.
  - rewrite C3. destruct (Z.leb_spec 2 (ps_maxit o)); cbn [andb]; auto. destruct (Z.leb_spec (ps_maxit o) (q_iter s)); destruct (Z.leb_spec (ps_maxit o - 1) (Z.of_nat n)); auto; lia.
  - intros A. rewrite A in T. destruct (gtb (q_dif s) (Fin (ps_tol o))) eqn:G; [|discriminate]. destruct (q_dif s) as [r| | |]; simpl in G; auto; try discriminate. right. exists r. split; auto. destruct (Rlt_dec (ps_tol o) r); auto; discriminate.
Qed.
(** a run is determined by its passes *)
Lemma loop_stop : forall g w sched d p o n l s, passes g w sched d p o n l s -> forall p0 nf, psc_start g (pe_env w) o (sched 0%Z) p = Ok p0 -> p_nf p0 = Some nf ->
  forall f, psc_loop g w o sched (n + f) (mkPst p0 (Fin 10) 0 nf 1%Z 0 (Fin 10) 0%Z []) = psc_loop g w o sched f s.
Proof.
  intros g w sched d p o n l s H. induction H as [p1 nf1 O S N|n l s s' HP IH T B]; intros p0 nf S' N' f.
  - rewrite S in S'. injection S' as <-. rewrite N in N'. injection N' as <-. reflexivity.
  - replace (S n + f)%nat with (n + S f)%nat by lia. rewrite (IH p0 nf S' N'). cbn [psc_loop]. rewrite T. cbn [bind]. rewrite B. cbn [bind]. reflexivity.
Qed.
Lemma passes_start : forall g w sched d p o n l s, passes g w sched d p o n l s -> psc_options p d = Ok o /\ exists p0 nf, psc_start g (pe_env w) o (sched 0%Z) p = Ok p0 /\ p_nf p0 = Some nf.
Proof. intros g w sched d p o n l s H. induction H; eauto. Qed.
Lemma pscf_at : forall g w sched d p o n l s, passes g w sched d p o n l s ->
  exists f, partition_scf g w sched d p = psc_loop g w o sched (S f) s /\ (Z.of_nat (n + S f) = 1 + Z.max 0 (ps_maxit o))%Z.
Proof.
  intros g w sched d p o n l s P. destruct (passes_start _ _ _ _ _ _ _ _ _ P) as (O & p0 & nf & S & N). destruct (passes_count _ _ _ _ _ _ _ _ _ P) as (C1 & C2 & C3).
  exists (Z.to_nat (ps_maxit o) - n)%nat. split.
  - unfold partition_scf. rewrite O. cbn [bind]. rewrite S. cbn [bind]. rewrite N. cbn [have bind]. rewrite <- (loop_stop _ _ _ _ _ _ _ _ _ P p0 nf S N). f_equal. destruct n; lia.
  - destruct n; lia.
Qed.
Theorem pscf_stops : forall g w sched d p o n l s, passes g w sched d p o n l s -> psc_test o s = Ok false -> partition_scf g w sched d p = Ok s.
Proof. intros g w sched d p o n l s P T. destruct (pscf_at _ _ _ _ _ _ _ _ _ P) as (f & -> & _). cbn [psc_loop]. rewrite T. reflexivity. Qed.
Theorem pscf_raises : forall g w sched d p o n l s e, passes g w sched d p o n l s -> psc_test o s = Ok true -> psc_body g w o (sched (q_iter s)) s = Err e -> partition_scf g w sched d p = Err e.
Proof. intros g w sched d p o n l s e P T B. destruct (pscf_at _ _ _ _ _ _ _ _ _ P) as (f & -> & _). cbn [psc_loop]. rewrite T. cbn [bind]. rewrite B. reflexivity. Qed.
Theorem pscf_auto : forall g w sched d p o n l s, passes g w sched d p o n l s -> ps_auto o = true ->
  q_dif s = NaN \/ q_dif s = NInf \/ (exists r, q_dif s = Fin r /\ r <= ps_tol o) -> partition_scf g w sched d p = Err TypeError.
Proof.
  intros g w sched d p o n l s P A D. destruct (pscf_at _ _ _ _ _ _ _ _ _ P) as (f & -> & _). cbn [psc_loop]. unfold psc_test.
  replace (gtb (q_dif s) (Fin (ps_tol o))) with false; [rewrite A; reflexivity|]. destruct D as [->|[->|(r & -> & D)]]; simpl; auto. destruct (Rlt_dec (ps_tol o) r); auto; lra.
Qed.
(** what the stored residual is *)
Theorem body_residual : forall g w o sched s s', psc_body g w o sched s = Ok s' -> exists E nf dn, p_T (q_p s') "E"%string = Some (SC E) /\ p_nf (q_p s') = Some nf /\
  q_oldE s' = E /\ q_oldn s' = nf /\ dens_residual g (p_pol (q_p s')) nf (q_oldn s) = Ok dn /\ q_dif s' = pymax (nabs (ndiv (E - q_oldE s) E)) dn.
Proof.
  intros g w o sched s s' H. apply body_inv in H. destruct H as (p & [[E nf] dif] & fl & W & _ & ->). cbn [psc_next q_p q_oldE q_oldn q_dif].
  assert (D : psc_dif g p (q_oldE s) (q_oldn s) = Ok (E, nf, dif)).
  { apply work_inv in W. destruct W as (p1 & p2 & p3 & pv & p4 & p5 & _ & _ & _ & _ & _ & _ & _ & D). exact D. }
  unfold psc_dif, attr in D. destruct (p_T p "E"%string) as [t|] eqn:T; [|discriminate]. cbn [have bind] in D. destruct (p_nf p) as [nf'|]; [|discriminate]. cbn [have bind] in D.
  destruct (dens_residual g (p_pol p) nf' (q_oldn s)) as [dn|] eqn:R; [|discriminate]. cbn [bind] in D. destruct t as [e|]; [|discriminate]. injection D as <- <- <-. exists e, nf', dn. auto 10.
Qed.

(** * The failure counter *)
Definition trail (n : nat) : list num := repeat PInf n.
Definition last_bad (l : list num) : nat := match rev l with x :: _ => if gtb x (Fin 1) then 1%nat else 0%nat | [] => 0%nat end.
Definition count (n : nat) (l : list num) : res nat := forL l (fun x n => fail_step x n) n.
Lemma fail_seq : forall r c o n, (forall i j, (i < r)%nat -> (j < c)%nat -> o i j <> None) ->
  psc_fail (Some (OArr r c o)) n = count n (flat_map (fun i => flat_map (fun j => match o i j with Some x => [optimality x] | None => [] end) (seq 0 c)) (seq 0 r)).
Proof.
  intros r c o n HO. unfold psc_fail, count.
  assert (IN : forall i, (i < r)%nat -> forall m n, (m <= c)%nat -> forN m (fun j n => do x <- have (o i j); fail_step (optimality x) n) n =
    forL (flat_map (fun j => match o i j with Some x => [optimality x] | None => [] end) (seq 0 m)) (fun x n => fail_step x n) n).
  { intros i Hi. induction m as [|m IH]; intros n0 Hm; [reflexivity|]. rewrite seq_S, flat_map_app, forL_app. cbn [forN]. rewrite IH by lia.
    match goal with |- bind ?m _ = _ => destruct m; [|reflexivity] end. cbn [bind]. simpl flat_map. specialize (HO i m Hi ltac:(lia)). destruct (o i m); [|congruence]. cbn [have bind app forL].
    destruct (fail_step (optimality i0) a); reflexivity. }
  assert (OUT : forall m n, (m <= r)%nat -> forN m (fun i n => forN c (fun j n => do x <- have (o i j); fail_step (optimality x) n) n) n =
    forL (flat_map (fun i => flat_map (fun j => match o i j with Some x => [optimality x] | None => [] end) (seq 0 c)) (seq 0 m)) (fun x n => fail_step x n) n).
  { induction m as [|m IH]; intros n0 Hm; [reflexivity|]. rewrite seq_S, flat_map_app, forL_app. cbn [forN]. rewrite IH by lia.
    match goal with |- bind ?m _ = _ => destruct m; [|reflexivity] end. cbn [bind]. rewrite IN by lia. simpl flat_map. rewrite app_nil_r. reflexivity. }
  apply OUT. lia.
Qed.
Lemma two_cons : forall a l, two_failures (a :: l) <-> (gtb a (Fin 1) = true /\ exists b l2, l = b :: l2 /\ gtb b (Fin 1) = true) \/ two_failures l.
Proof.
  intros a l. split.
  - intros ([|x l1] & y & b & l2 & E & A & Bd); injection E as -> E; [left; split; auto; exists b, l2; auto|right; exists l1, y, b, l2; auto].
  - intros [(A & b & l2 & -> & Bd)|(l1 & y & b & l2 & -> & A & Bd)]; [exists [], a, b, l2; auto|exists (a :: l1), y, b, l2; auto].
Qed.
Lemma last_bad_cons : forall a b l, last_bad (a :: b :: l) = last_bad (b :: l).
Proof. intros a b l. unfold last_bad. cbn [rev]. destruct (rev l) as [|x r]; reflexivity. Qed.
(** the counter stays at most one; it exits exactly at the second consecutive failure *)
Lemma count_spec : forall l n, (n <= 1)%nat ->
  (two_failures (trail n ++ l) -> count n l = Err SystemExit) /\ (~ two_failures (trail n ++ l) -> count n l = Ok (last_bad (trail n ++ l))).
Proof.
  induction l as [|x l IH]; intros n Hn.
  - rewrite app_nil_r. destruct n as [|[|]]; [| |lia]; simpl.
    + split; [|reflexivity]. intros ([|? [|]] & a & b & l2 & E & _); discriminate.
    + split; [|reflexivity]. intros ([|? [|]] & a & b & l2 & E & _); discriminate.
  - unfold count. cbn [forL]. unfold fail_step at 1 3. destruct (gtb x (Fin 1)) eqn:G.
    + destruct n as [|[|]]; [| |lia].
      * cbn [Nat.ltb Nat.leb bind trail repeat app]. destruct (IH 1%nat ltac:(lia)) as (A & Bd).
        assert (EQ : two_failures (x :: l) <-> two_failures (trail 1 ++ l)).
        { unfold trail. cbn [repeat app]. rewrite !two_cons, G. reflexivity. }
        assert (LB : last_bad (trail 1 ++ l) = last_bad (x :: l)).
        { unfold trail. cbn [repeat app]. destruct l as [|y l]; [unfold last_bad; simpl; rewrite G; reflexivity|]. rewrite !last_bad_cons. reflexivity. }
        rewrite EQ, <- LB. split; auto.
      * cbn [Nat.ltb Nat.leb bind]. split; [reflexivity|]. intros Q. exfalso. apply Q. exists [], PInf, x, l. auto.
    + cbn [Nat.ltb Nat.leb bind]. destruct (IH 0%nat ltac:(lia)) as (A & Bd). cbn [trail repeat app] in A, Bd.
      assert (EQ : two_failures (trail n ++ x :: l) <-> two_failures l).
      { assert (E0 : two_failures (x :: l) <-> two_failures l) by (rewrite two_cons, G; intuition congruence).
        destruct n as [|[|]]; [exact E0| |lia]. unfold trail. cbn [repeat app]. rewrite two_cons, E0. split; [|auto]. intros [(_ & b & l2 & E & F)|]; auto. injection E as <- <-. congruence. }
      assert (LB : last_bad (trail n ++ x :: l) = last_bad l).
      { assert (E0 : last_bad (x :: l) = last_bad l) by (destruct l; [unfold last_bad; simpl; rewrite G; reflexivity|apply last_bad_cons]).
        destruct n as [|[|]]; [exact E0| |lia]. unfold trail. cbn [repeat app]. rewrite last_bad_cons. exact E0. }
      rewrite EQ, LB. split; auto.
Qed.
(** every report of the inversion array is present *)
Definition filled (p : part) : Prop := match p_info p with Some (OArr r c o) => forall i j, (i < r)%nat -> (j < c)%nat -> o i j <> None | _ => False end.
Lemma fail_filled : forall p n, filled p -> psc_fail (p_info p) n = count n (reports p).
Proof. intros p n H. unfold filled in H. unfold reports. destruct (p_info p) as [[r c o|]|]; try contradiction. apply fail_seq. exact H. Qed.
Lemma fail_ok_filled : forall p n m, psc_fail (p_info p) n = Ok m -> filled p.
Proof.
  intros p n m H. unfold psc_fail in H. unfold filled. destruct (p_info p) as [[r c o|]|]; try discriminate. intros i j Hi Hj.
  revert n m H. induction r as [|r IH]; intros n m H; [lia|]. cbn [forN] in H. match type of H with bind ?a _ = _ => destruct a as [n1|] eqn:E; [|discriminate] end. cbn [bind] in H.
  destruct (Nat.eq_dec i r) as [->|]; [|eapply IH; [lia|exact E]]. clear IH E. revert n1 m H. induction c as [|c IH]; intros n1 m H; [lia|]. cbn [forN] in H.
  match type of H with bind ?a _ = _ => destruct a as [n2|] eqn:E; [|discriminate] end. cbn [bind] in H. destruct (Nat.eq_dec j c) as [->|]; [|eapply IH; [lia|exact E]]. destruct (o r c); [discriminate|discriminate].
Qed.
Lemma two_app_l : forall a b, two_failures a -> two_failures (a ++ b).
Proof. intros a b (l1 & x & y & l2 & -> & X & Y). exists l1, x, y, (l2 ++ b)%list. rewrite <- app_assoc. auto. Qed.
Lemma two_tail : forall l m, ~ two_failures l -> (two_failures (l ++ m) <-> two_failures (trail (last_bad l) ++ m)).
Proof.
  intros l m. induction l as [|a l IH]; [reflexivity|]. intros Q. assert (Q' : ~ two_failures l) by (rewrite two_cons in Q; tauto). specialize (IH Q').
  destruct l as [|b l].
  - cbn [app]. unfold last_bad. simpl rev. cbn. destruct (gtb a (Fin 1)) eqn:G; rewrite two_cons; [unfold trail; cbn [repeat app]; rewrite two_cons, G; reflexivity|]. cbn. rewrite G. intuition congruence.
  - rewrite last_bad_cons. rewrite <- IH. change ((a :: b :: l) ++ m)%list with (a :: ((b :: l) ++ m))%list. rewrite two_cons. split; [|auto]. intros [(A & b' & l2 & E & F)|]; auto. cbn [app] in E. injection E as <- <-.
    exfalso. apply Q. exists [], a, b, l. auto.
Qed.
Lemma last_bad_app : forall l m, last_bad (l ++ m) = last_bad (trail (last_bad l) ++ m).
Proof.
  intros l m. destruct (rev m) as [|x r] eqn:E.
  - assert (m = []) by (rewrite <- (rev_involutive m), E; reflexivity). subst m. rewrite !app_nil_r. unfold last_bad at 1 3. destruct (rev l) as [|x r]; [reflexivity|]. destruct (gtb x (Fin 1)); reflexivity.
  - unfold last_bad at 1 2. rewrite !rev_app_distr, E. reflexivity.
Qed.
(** options never change in a run: [watching] is decided by the partition object given to scf *)
Theorem counter_history : forall g w sched d p o n l s, passes g w sched d p o n l s -> (forall n' l' s', passes g w sched d p o n' l' s' -> (0 < n')%nat -> watching (q_p s') = true) ->
  ~ two_failures l /\ q_fail s = last_bad l.
Proof.
  intros g w sched d p o n l s H HW. induction H as [p0 nf O S N|n l s s' HP IH T Bd].
  - split; [|reflexivity]. intros ([|] & a & b & l2 & E & _); discriminate.
  - destruct IH as (I1 & I2). pose proof (HW _ _ _ (pass_step _ _ _ _ _ _ _ _ _ _ HP T Bd) ltac:(lia)) as WW. apply body_inv in Bd. destruct Bd as (p' & [[E nf] dif] & fl & W & FL & ->). cbn [psc_next q_p q_fail] in *.
    rewrite WW in FL. pose proof (fail_ok_filled _ _ _ FL) as HF. rewrite (fail_filled _ _ HF), I2 in FL.
    assert (LB : (last_bad l <= 1)%nat) by (unfold last_bad; destruct (rev l); [lia|destruct (gtb n0 (Fin 1)); lia]).
    destruct (count_spec (reports p') (last_bad l) LB) as (A & C). rewrite (two_tail l _ I1). rewrite last_bad_app.
    split; [intros X; rewrite (A X) in FL; discriminate|].
    assert (X : ~ two_failures (trail (last_bad l) ++ reports p')) by (intros X; rewrite (A X) in FL; discriminate). rewrite (C X) in FL. congruence.
Qed.
