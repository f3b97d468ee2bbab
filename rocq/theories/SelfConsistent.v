(** What the end of a self-consistency loop says about the densities: fixed points of a pass and the density residual. *)
From Coq Require Import Reals List Arith Lia Lra ZArith Bool String.
From Verif Require Import Base BaseLemmas GridModel GridSpec GridProofs HartreeModel SolverModel SolverSpec SolverProofs LibxcModel OptionsModel KSModel KSSpec KSProofs KSThms KSLoop KSEnergy KSTotal
  InverterModel PartitionModel PartitionSpec PartitionBase PartitionConstr PartitionDens PartitionFrame PartitionEnergy PartitionLoop PartitionStep PartitionKeep PartitionPass PartitionScf PartitionRun PartitionNew PartitionCount.
Import ListNotations.
Local Open Scope R_scope.

(** Independent vocabulary: [nout] is the density the solvers of an object like k deliver when every solver works with the
    sum of the nuclear potential, the external potential ve and the potential vh. *)
Definition delivered (g : grid) (w : env) (it : bool) (dif : num) (l : list (nat * nat)) (k : ks) (ve vh nout : mat) : Prop :=
  exists k2 k3, frame k k2 /\ (forall i j, place k i j -> forall x, s_veff (k_sol k2 i j) x = k_vnuc k x j + ve x j + vh x j) /\
    ks_density g w it dif l k2 = Ok (k3, nout).
(** The integral of the absolute difference of two columns. *)
Definition distance (g : grid) (a b : mat) (s : nat) : R := integrate1 g (fun x => Rabs (a x s - b x s)).
Definition amount (g : grid) (a : mat) (s : nat) : R := integrate1 g (fun x => Rabs (a x s)).

(** * Residuals *)
Lemma dens_two : forall g n old, (0 < Nelem g)%nat -> (forall s, (s < 2)%nat -> 0 < amount g n s) ->
  exists m, dens_residual g 2 n old = Ok (Fin m) /\ forall t, m <= t <-> forall s, (s < 2)%nat -> distance g n old s <= t * amount g n s.
Proof.
  intros g n old HN HP. set (q := fun s => distance g n old s / amount g n s).
  assert (D : exists m, dens_residual g 2 n old = Ok (Fin m) /\ forall t, m <= t <-> forall s, (s < 2)%nat -> q s <= t).
  { unfold dens_residual, integrate. cbn [Nat.eqb].
    assert (L : flat_map (fun k : nat => map (fun s => ndiv (integrate1 g (fun k0 => Rabs (n k0 s - old k0 s))) (integrate1 g (fun k0 => Rabs (n k0 s)))) (seq 0 2)) (seq 0 (Nelem g))
      = map Fin (flat_map (fun _ : nat => map q (seq 0 2)) (seq 0 (Nelem g)))).
    { generalize (seq 0 (Nelem g)). induction l as [|x l IH]; auto. cbn [flat_map]. rewrite map_app, IH. f_equal.
      rewrite map_map. apply map_ext_in. intros s Hs. apply in_seq in Hs. unfold ndiv. specialize (HP s ltac:(lia)). unfold amount in HP.
      destruct Req_EM_T; [lra|]. reflexivity. }
    rewrite L. destruct (npmax_fin (flat_map (fun _ : nat => map q (seq 0 2)) (seq 0 (Nelem g)))) as (m & EM & I & M).
    { destruct (Nelem g); [lia|]. discriminate. }
    exists m. split; auto. intros t. split.
    - intros Ht s Hs. eapply Rle_trans; [|exact Ht]. apply M. apply in_flat_map. exists 0%nat. split; [apply in_seq; lia|]. apply in_map, in_seq. lia.
    - intros H. apply in_flat_map in I. destruct I as (_ & _ & I). apply in_map_iff in I. destruct I as (s & <- & Hs). apply in_seq in Hs. apply H. lia. }
  destruct D as (m & D & DM). exists m. split; auto. intros t. rewrite DM.
  assert (HD : forall s, (s < 2)%nat -> (q s <= t <-> distance g n old s <= t * amount g n s)).
  { intros s Hs. specialize (HP s Hs). unfold q. split; intros H.
    - apply Rmult_le_compat_r with (r := amount g n s) in H; [|lra]. unfold Rdiv in H. rewrite Rmult_assoc, Rinv_l in H by lra. lra.
    - apply Rmult_le_reg_r with (amount g n s); auto. unfold Rdiv. rewrite Rmult_assoc, Rinv_l by lra. lra. }
  split; intros H s Hs; apply HD; auto.
Qed.
(** A finite maximum bounds both arguments. *)
Lemma pymax_fin : forall x m r, pymax (nabs x) (Fin m) = Fin r -> m <= r /\ exists e, nabs x = Fin e /\ e <= r.
Proof.
  intros x m r. unfold pymax. destruct x as [e| | |]; simpl; try discriminate.
  destruct (Rlt_dec (Rabs e) m); intros E; injection E as <-; (split; [lra|]); exists (Rabs e); (split; [reflexivity|lra]).
Qed.
Lemma energy_bound : forall E old e r, energy_residual E old = Fin e -> e <= r ->
  exists a b, E = Fin a /\ old = Fin b /\ a <> 0 /\ Rabs (a - b) <= r * Rabs a.
Proof.
  intros E old e r H Hr. unfold energy_residual, nsub, nneg, nadd, ndivn, ndiv in H.
  destruct E as [a| | |]; destruct old as [b| | |]; simpl in H; try discriminate;
    try (destruct (Rlt_dec a 0); discriminate).
  destruct (Req_EM_T a 0) as [Z|Z].
  { destruct (Req_EM_T (a + - b) 0); [discriminate|]. destruct (Rlt_dec 0 (a + - b)); discriminate. }
  cbn [nabs] in H. injection H as H. exists a, b. repeat split; auto.
  pose proof (Rabs_pos_lt a Z). unfold Rdiv in H. rewrite Rabs_mult, Rabs_inv in H.
  replace (a - b) with (a + - b) by ring. replace (Rabs (a + - b)) with (e * Rabs a) by (rewrite <- H; field; lra).
  apply Rmult_le_compat_r; lra.
Qed.
Lemma distance_mix : forall g a n nout n' s, (forall x, n' x s = (1 - a) * n x s + a * nout x s) ->
  distance g n' n s = Rabs a * distance g nout n s.
Proof.
  intros g a n nout n' s H. unfold distance. rewrite <- integrate1_scal. apply integrate1_ext. intros x _. rewrite H, <- Rabs_mult. f_equal. ring.
Qed.

(** * Kohnsham.scf *)
Lemma ks_pass : forall g w o l st st', so_flip o = false -> scf_body g w o l st = Ok st' ->
  exists k1 n n' nout ve vh, k_n (c_ks st) = Some n /\ k_n (c_ks st') = Some n' /\ c_oldn st' = n' /\
    calc_hxc_potential g w (c_ks st) = Ok k1 /\ k_vext (c_ks st) = Some ve /\ k_vhxc k1 = Some vh /\
    delivered g w (so_iter o) (if so_iter o && so_cont o then Fin 0 else c_diff st) l (c_ks st) ve vh nout /\
    (forall x s, n' x s = (1 - so_alpha o) * n x s + so_alpha o * nout x s) /\
    residual g (k_pol (c_ks st)) (c_oldE st') (c_oldE st) n' (c_oldn st) = Ok (c_diff st').
Proof.
  intros g w o l st st' HF H. apply KSLoop.body_inv in H. destruct H as (_ & k1 & ve & vh & sol & k3 & nout & n & k4 & k5 & E & r & H).
  destruct H as (X & E1 & E2 & D & DD & N & EN & C & KE & RR & ->). rewrite HF in *. cbn [c_ks c_oldn c_oldE c_diff].
  destruct (hxc_frame _ _ _ _ X) as (F & N1 & V1 & S1). pose proof F as (_ & _ & _ & FP & FL & FC & FV & _). rewrite FP in RR.
  exists k1, n, (mixed o n nout), nout, ve, vh.
  assert (KN : k_n (c_ks st) = Some n).
  { pose proof DD as DD'. apply density_inv in DD'. destruct DD' as (sol' & n0 & -> & _). cbn [set_sol k_n set_veffs] in N. congruence. }
  apply energy_keep in EN. destruct EN as (E' & V & ->). apply chempot_keep in C. destruct C as (u & ->).
  split; [exact KN|]. split; [reflexivity|]. split; [reflexivity|]. split; [exact X|]. split; [congruence|]. split; [exact E2|]. split; [|split; [reflexivity|exact RR]].
  eexists. exists k3. split; [|split; [|exact DD]].
  - eapply frame_trans; [exact F|]. repeat (split; [reflexivity|]). apply (distribute_scf_static _ _ _ D).
  - intros i j Hp x. cbn [set_sol set_veffs k_sol]. apply distribute_scf_ok in D. destruct D as (D1 & _).
    assert (Hp' : place k1 i j) by (unfold place in *; rewrite FL, FC; exact Hp). destruct (D1 i j Hp') as (_ & ->). cbn [set_veff s_veff]. unfold add3. rewrite FV. reflexivity.
Qed.
(** A pass leaves the density unchanged exactly when there is no mixing or the solvers deliver the density itself. *)
Theorem ks_fixed : forall g w o l st st', so_flip o = false -> scf_body g w o l st = Ok st' ->
  exists k1 n n' nout ve vh, k_n (c_ks st) = Some n /\ k_n (c_ks st') = Some n' /\
    calc_hxc_potential g w (c_ks st) = Ok k1 /\ k_vext (c_ks st) = Some ve /\ k_vhxc k1 = Some vh /\
    delivered g w (so_iter o) (if so_iter o && so_cont o then Fin 0 else c_diff st) l (c_ks st) ve vh nout /\
    forall x s, n' x s = n x s <-> (so_alpha o = 0 \/ nout x s = n x s).
Proof.
  intros g w o l st st' HF H. destruct (ks_pass _ _ _ _ _ _ HF H) as (k1 & n & n' & nout & ve & vh & A1 & A2 & _ & A4 & A5 & A6 & A7 & A8 & _).
  exists k1, n, n', nout, ve, vh. repeat (split; [assumption|]). intros x s. rewrite A8. split.
  - intros E. assert (Q : so_alpha o * (nout x s - n x s) = 0) by lra. apply Rmult_integral in Q. destruct Q; [left; auto|right; lra].
  - intros [E|E]; rewrite E; ring.
Qed.
(** Leaving the loop before the limit with a finite residual. *)
Theorem ks_certificate : forall g w sched d k st o r, ks_scf g w sched d k = Ok st -> scf_options d = Ok o -> so_flip o = false -> k_pol k = 2%nat -> (0 < Nelem g)%nat ->
  (c_iter st < so_maxiter o)%Z -> c_diff st = Fin r -> so_tol o < 1 -> (forall n s, k_n (c_ks st) = Some n -> (s < 2)%nat -> 0 < amount g n s) ->
  exists st0 k1 n n' nout ve vh E E0, scf_trace g w o sched k st0 /\ c_iter st = (c_iter st0 + 1)%Z /\ (2 <= c_iter st0)%Z /\ k_n (c_ks st0) = Some n /\ k_n (c_ks st) = Some n' /\
    calc_hxc_potential g w (c_ks st0) = Ok k1 /\ k_vext (c_ks st0) = Some ve /\ k_vhxc k1 = Some vh /\
    delivered g w (so_iter o) (if so_iter o && so_cont o then Fin 0 else c_diff st0) (sched (c_iter st0)) (c_ks st0) ve vh nout /\
    c_oldE st = Fin E /\ c_oldE st0 = Fin E0 /\ Rabs (E - E0) <= so_tol o * Rabs E /\
    forall s, (s < 2)%nat -> Rabs (so_alpha o) * distance g nout n s <= so_tol o * amount g n' s.
Proof.
  intros g w sched d k st o r H O HF HP HN HI HR HT HA. destruct (scf_inv _ _ _ _ _ _ H) as (o' & O' & T & X). rewrite O in O'. injection O' as <-.
  assert (RT : r <= so_tol o).
  { unfold scf_test in X. rewrite HR in X. destruct (gtb (Fin r) (Fin (so_tol o))) eqn:G; [injection X as X; apply Z.ltb_ge in X; lia|].
    apply gtb_false in G. destruct G as [G|[G|(r' & G & L)]]; [discriminate|discriminate|]. injection G as <-. exact L. }
  inversion T as [k0 S0 Q0|st0 st' T0 X0 B0 Q0]; subst.
  { cbn [c_diff] in HR. injection HR as <-. lra. }
  assert (P0 : k_pol (c_ks st0) = 2%nat). { destruct (trace_frame _ _ _ _ _ _ T0) as ((_ & _ & _ & FP & _) & _). congruence. }
  destruct (ks_pass _ _ _ _ _ _ HF B0) as (k1 & n & n' & nout & ve & vh & A1 & A2 & A3 & A4 & A5 & A6 & A7 & A8 & A9).
  assert (IT : c_iter st = (c_iter st0 + 1)%Z) by (apply body_frame in B0; tauto).
  rewrite P0, HR in A9. unfold residual in A9. destruct (dens_two g n' (c_oldn st0) HN) as (m & D1 & D2); [intros; eapply HA; eauto|]. rewrite D1 in A9. cbn [bind] in A9. injection A9 as A9.
  destruct (pymax_fin _ _ _ A9) as (M & e & EE & ER). destruct (energy_bound _ _ _ (so_tol o) EE ltac:(lra)) as (Ea & Eb & B1 & B2 & B3 & B4).
  pose proof T0 as TT. destruct T0 as [k00 S00|st1 st0 T1 X1 Bo].
  { exfalso. cbn [c_oldn] in *. pose proof (proj1 (D2 r) M 0%nat ltac:(lia)) as Z. specialize (HA n' 0%nat A2 ltac:(lia)).
    assert (Z2 : distance g n' (fun _ _ => 0) 0 = amount g n' 0) by (unfold distance, amount; apply integrate1_ext; intros; f_equal; ring).
    rewrite Z2 in Z. assert (r * amount g n' 0 <= so_tol o * amount g n' 0) by (apply Rmult_le_compat_r; lra).
    assert (so_tol o * amount g n' 0 < 1 * amount g n' 0) by (apply Rmult_lt_compat_r; lra). lra. }
  destruct (ks_pass _ _ _ _ _ _ HF Bo) as (_ & _ & n2 & _ & _ & _ & _ & C2 & C3 & _). rewrite A1 in C2. injection C2 as <-.
  assert (I2 : (2 <= c_iter st0)%Z).
  { pose proof (trace_bound _ _ _ _ _ _ T1). apply body_frame in Bo. lia. }
  exists st0, k1, n, n', nout, ve, vh, Ea, Eb. repeat (split; [assumption|]). intros s Hs.
  rewrite <- (distance_mix g (so_alpha o) n nout n' s (fun x => A8 x s)). rewrite C3 in D2. apply D2; auto. lra.
Qed.

(** * Partition.scf *)
(** The weighted sum of component densities, spin-flipped copies added under ens_spin_sym. *)
Definition assembled (p : part) (wt : comp -> R) (n : comp -> mat) : mat := fun x j =>
  lsum (if p_ens p then [Ca; CA; Cb; CB] else [Ca; Cb]) (fun c => wt c * (n c x j + (if po_ess (p_opt p) then n c x (p_pol p - 1 - j)%nat else 0))).
(** The density the solvers of component c deliver in a pass, and the potentials they work with. *)
Definition answered (g : grid) (w : penv) (o : psopt) (sched : comp -> list (nat * nat)) (s : pst) (c : comp) (f f' : frag) (nout : mat) : Prop :=
  exists k k1 k2 vext vhxc, frame (f_ks f) k1 /\ ks_density g (pe_env w) (ps_iter o) (q_dif s) (sched c) k1 = Ok (k2, nout) /\
    k_veff k1 = Some (add3 (k_vnuc (f_ks f)) vext vhxc) /\ k_vext (f_ks f') = Some vext /\ calc_hxc_potential g (pe_env w) (f_ks f) = Ok k /\
    exists v, k_vhxc k = Some v /\ forall x j, vhxc x j = v x j.

Theorem part_fixed : forall g w o sched s s', psc_body g w o sched s = Ok s' -> forall c, computed (q_p s) c ->
  exists f f' n n' nout, p_f (q_p s) c = Some f /\ p_f (q_p s') c = Some f' /\ k_n (f_ks f) = Some n /\ k_n (f_ks f') = Some n' /\ answered g w o sched s c f f' nout /\
    forall x j, n' x j = n x j <-> (f_alpha f = 0 \/ nout x j = n x j).
Proof.
  intros g w o sched s s' H c Hc. apply pass_vext in H. destruct H as (vp & _ & _ & B).
  destruct (B c Hc) as (f & f' & n & nout & k1 & k2 & ve & vh & Z1 & Z2 & Z3 & Z4 & Z5 & Z6 & Z7 & (k & Z8 & v & Z9 & Z10) & Z11 & Z12 & _).
  exists f, f', n, (fun x j => (1 - f_alpha f) * n x j + f_alpha f * nout x j), nout. repeat (split; [assumption|]). split.
  { exists k, k1, k2, ve, vh. repeat (split; [assumption|]). exists v. auto. }
  intros x j. split.
  - intros E. assert (Q : f_alpha f * (nout x j - n x j) = 0) by lra. apply Rmult_integral in Q. destruct Q; [left; auto|right; lra].
  - intros [E|E]; rewrite E; ring.
Qed.
Lemma assembled_lin : forall p wt n1 n2 n3 a b x j, (forall c i, n3 c x i = a * n1 c x i + b * n2 c x i) ->
  assembled p wt n3 x j = a * assembled p wt n1 x j + b * assembled p wt n2 x j.
Proof. intros p wt n1 n2 n3 a b x j H. unfold assembled. destruct (p_ens p), (po_ess (p_opt p)); cbn [lsum]; rewrite !H; ring. Qed.

Lemma computed_dec : forall p c, computed p c \/ ~ computed p c.
Proof.
  intros p c. unfold computed, of_a. destruct (po_ab (p_opt p)), (p_ens p), c; simpl;
    first [left; split; [first [reflexivity | exact Logic.I | auto]|intros; first [discriminate | auto]]; fail
          | right; intros (X & Y); first [discriminate X | contradiction X | destruct (Y eq_refl); discriminate]].
Qed.
(** One pass of a run with one mixing factor for all components, target density off. *)
Theorem part_pass : forall g w sched d p o n l s s' a, passes g w sched d p o n l s -> psc_body g w o (sched (q_iter s)) s = Ok s' -> ps_target o = false -> passes g w sched d p o (S n) (l ++ reports (q_p s'))%list s' ->
  (forall c, member (p_ens p) c -> step_size (ps_alpha o) c = Some a) ->
  exists wt m nout nf nf', q_oldn s = nf /\ q_oldn s' = nf' /\ p_nf (q_p s) = Some nf /\ p_nf (q_p s') = Some nf' /\
    (forall c, computed p c -> exists f f', p_f (q_p s) c = Some f /\ p_f (q_p s') c = Some f' /\ k_n (f_ks f) = Some (m c) /\ wt c = f_scale f /\ answered g w o (sched (q_iter s)) s c f f' (nout c)) /\
    (po_ab (p_opt p) = true -> forall c, member (p_ens p) c -> of_a c -> mirrored g (nout c) (nout (twin c)) /\ mirrored g (m c) (m (twin c))) /\
    (forall x j, nf x j = assembled p wt m x j) /\
    forall x j, (x < Nelem g)%nat -> nf' x j = (1 - a) * nf x j + a * assembled p wt nout x j.
Proof.
  intros g w sched d p o n l s s' a HP HB HT HP' HA.
  destruct (run_settled _ _ _ _ _ _ _ _ _ HP HT) as (F & m & na & nb & nf & q & ((D1 & D2) & PM & _ & MI) & ON).
  destruct (run_settled _ _ _ _ _ _ _ _ _ HP' HT) as (F' & m' & na' & nb' & nf' & q' & ((D1' & D2') & PM' & _ & MI') & ON').
  pose proof (run_static _ _ _ _ _ _ _ _ _ HP) as (R1 & R2 & _ & _ & _ & _ & R7 & _ & _ & _ & RF).
  pose proof (run_static _ _ _ _ _ _ _ _ _ HP') as (R1' & R2' & _ & _ & _ & _ & R7' & _ & _ & _ & RF').
  unfold frags in D1, D1'. rewrite R1, R7 in *. rewrite R1', R7' in *.
  assert (AL : forall c, member (p_ens p) c -> f_alpha (F c) = a).
  { intros c Hc. destruct (RF c Hc) as (f & f' & X1 & X2 & _ & _ & X5 & _). rewrite (D1 c Hc) in X2. injection X2 as <-. rewrite (HA c Hc) in X5. congruence. }
  assert (SC : forall c, member (p_ens p) c -> f_scale (F' c) = f_scale (F c)).
  { intros c Hc. destruct (RF c Hc) as (f & f' & X1 & X2 & _ & X4 & _). destruct (RF' c Hc) as (f2 & f2' & Y1 & Y2 & _ & Y4 & _).
    rewrite (D1 c Hc) in X2. injection X2 as <-. rewrite (D1' c Hc) in Y2. injection Y2 as <-. congruence. }
  pose proof (pass_vext _ _ _ _ _ _ HB) as (vp & _ & _ & B).
  assert (ST : forall c, computed p c -> exists nout, answered g w o (sched (q_iter s)) s c (F c) (F' c) nout /\ forall x j, m' c x j = (1 - a) * m c x j + a * nout x j).
  { intros c Hc. assert (Hc' : computed (q_p s) c) by (unfold computed; rewrite R1, R7; exact Hc).
    destruct (B c Hc') as (f & f' & n0 & nout & k1 & k2 & ve & vh & Z1 & Z2 & Z3 & Z4 & Z5 & Z6 & Z7 & (k & Z8 & v & Z9 & Z10) & Z11 & Z12 & _).
    pose proof (proj1 Hc) as Mc. rewrite (D1 c Mc) in Z1. injection Z1 as <-. rewrite (D1' c Mc) in Z2. injection Z2 as <-. rewrite (D2 c Mc) in Z3. injection Z3 as <-.
    rewrite (D2' c Mc) in Z11. injection Z11 as Z11. exists nout. split.
    - exists k, k1, k2, ve, vh. repeat (split; [assumption|]). exists v. auto.
    - intros x j. rewrite Z11, (AL c Mc). reflexivity. }
  assert (CH : exists no : comp -> mat, forall c, computed p c -> answered g w o (sched (q_iter s)) s c (F c) (F' c) (no c) /\ forall x j, m' c x j = (1 - a) * m c x j + a * no c x j).
  { assert (one : forall c, exists nc, computed p c -> answered g w o (sched (q_iter s)) s c (F c) (F' c) nc /\ forall x j, m' c x j = (1 - a) * m c x j + a * nc x j).
    { intros c. destruct (computed_dec p c) as [Y|N]; [destruct (ST c Y) as (nc & X); exists nc; auto|exists (fun _ _ => 0); intros Y; contradiction]. }
    destruct (one Ca) as (n1 & X1). destruct (one CA) as (n2 & X2). destruct (one Cb) as (n3 & X3). destruct (one CB) as (n4 & X4).
    exists (fun c => match c with Ca => n1 | CA => n2 | Cb => n3 | CB => n4 end). intros c Hc. destruct c; auto. }
  destruct CH as (no & CH).
  set (nout := fun c => if po_ab (p_opt p) then match c with Cb => (fun x j => mirror1 g (fun y => no Ca y j) x) | CB => (fun x j => mirror1 g (fun y => no CA y j) x) | _ => no c end else no c).
  assert (NC : forall c, computed p c -> nout c = no c).
  { intros c (Hc & Ho). unfold nout. destruct (po_ab (p_opt p)); auto. destruct (Ho eq_refl) as [-> | ->]; reflexivity. }
  assert (MIX : forall c x j, member (p_ens p) c -> (x < Nelem g)%nat -> m' c x j = (1 - a) * m c x j + a * nout c x j).
  { intros c x j Hc Hx. destruct (computed_dec p c) as [Y|N]; [rewrite (NC c Y); apply CH; auto|].
    destruct (po_ab (p_opt p)) eqn:AB; [|exfalso; apply N; split; auto; congruence].
    assert (X : exists e, of_a e /\ c = twin e /\ member (p_ens p) e).
    { destruct c; try (exfalso; apply N; split; auto; intros _; unfold of_a; auto; fail); [exists Ca|exists CA]; unfold of_a; simpl in *; auto. }
    destruct X as (e & He & -> & Me). destruct (pos_surj g x Hx) as (ia & ir & Hq & ->).
    rewrite (MI eq_refl e Me He ia ir j Hq), (MI' eq_refl e Me He ia ir j Hq).
    assert (CE : computed p e) by (split; auto). rewrite (proj2 (CH e CE)). f_equal. f_equal. unfold nout. try rewrite AB. destruct He as [-> | ->]; cbn [twin]; rewrite mirror1_pos by auto; reflexivity. }
  exists (fun c => f_scale (F c)), m, nout, nf, nf'. split; [auto|]. split; [auto|]. split; [apply PM|]. split; [apply PM'|]. split; [|split; [|split]].
  - intros c Hc. exists (F c), (F' c). split; [apply D1, Hc|]. split; [apply D1', Hc|]. split; [apply D2, Hc|]. split; [reflexivity|]. rewrite (NC c Hc). apply CH; auto.
  - intros AB c Hc Ha. split; [|apply MI; auto]. intros ia ir j Hq. unfold nout. rewrite AB. destruct Ha as [-> | ->]; cbn [twin]; rewrite mirror1_pos by auto; reflexivity.
  - intros x j. rewrite (whole_group _ _ _ _ _ _ PM x j). unfold group, assembled. rewrite R1, R2, R7. reflexivity.
  - intros x j Hx. rewrite (whole_group _ _ _ _ _ _ PM' x j), (whole_group _ _ _ _ _ _ PM x j). unfold group, assembled. rewrite R1, R2, R7, R1', R2', R7'.
    assert (G : forall L, (forall c, In c L -> member (p_ens p) c) ->
      lsum L (fun c => f_scale (F' c) * (m' c x j + (if po_ess (p_opt p) then m' c x (p_pol p - 1 - j)%nat else 0))) =
      (1 - a) * lsum L (fun c => f_scale (F c) * (m c x j + (if po_ess (p_opt p) then m c x (p_pol p - 1 - j)%nat else 0))) +
      a * lsum L (fun c => f_scale (F c) * (nout c x j + (if po_ess (p_opt p) then nout c x (p_pol p - 1 - j)%nat else 0)))).
    { induction L as [|c L IH]; intros HL; cbn [lsum]; [ring|]. rewrite IH by (intros; apply HL; right; auto). pose proof (HL c (or_introl eq_refl)) as Hc.
      rewrite (SC c Hc), (MIX c x j Hc Hx), (MIX c x (p_pol p - 1 - j)%nat Hc Hx). destruct (po_ess (p_opt p)); ring. }
    apply G. intros c. apply listed_member.
Qed.
(** Leaving the loop before the limit with a finite residual. *)
Theorem part_certificate : forall g w sched d p s, partition_scf g w sched d p = Ok s -> forall o r a, psc_options p d = Ok o -> ps_target o = false -> p_pol p = 2%nat -> (0 < Nelem g)%nat ->
  q_dif s = Fin r -> r <= ps_tol o -> ps_tol o < 10 -> (forall c, member (p_ens p) c -> step_size (ps_alpha o) c = Some a) ->
  (forall nf j, p_nf (q_p s) = Some nf -> (j < 2)%nat -> 0 < amount g nf j) ->
  exists m s0 l0 wt nc nout nf nf', passes g w sched d p o m l0 s0 /\ psc_body g w o (sched (q_iter s0)) s0 = Ok s /\ p_nf (q_p s0) = Some nf /\ p_nf (q_p s) = Some nf' /\
    (forall c, computed p c -> exists f f', p_f (q_p s0) c = Some f /\ p_f (q_p s) c = Some f' /\ k_n (f_ks f) = Some (nc c) /\ wt c = f_scale f /\ answered g w o (sched (q_iter s0)) s0 c f f' (nout c)) /\
    (po_ab (p_opt p) = true -> forall c, member (p_ens p) c -> of_a c -> mirrored g (nout c) (nout (twin c)) /\ mirrored g (nc c) (nc (twin c))) /\
    (forall x j, nf x j = assembled p wt nc x j) /\
    Rabs (q_oldE s - q_oldE s0) <= ps_tol o * Rabs (q_oldE s) /\
    forall j, (j < 2)%nat -> Rabs a * distance g (assembled p wt nout) nf j <= ps_tol o * amount g nf' j.
Proof.
  intros g w sched d p s HS o r a HO HT HPOL HN HR HTOL H10 HA HAM. destruct (pscf_trace _ _ _ _ _ _ HS) as (o' & n & l & HP & _).
  pose proof (passes_start _ _ _ _ _ _ _ _ _ HP) as (O' & _). rewrite HO in O'. injection O' as <-.
  pose proof HP as HP'. destruct HP' as [p0 nf O S N|m l0 s0 s1 HP0 T B].
  { cbn [q_dif] in HR. injection HR as <-. lra. }
  destruct (part_pass _ _ _ _ _ _ _ _ _ _ a HP0 B HT HP HA) as (wt & nc & nout & nf & nf' & E1 & E2 & E3 & E4 & E5 & E6 & E7 & E8).
  exists m, s0, l0, wt, nc, nout, nf, nf'. repeat (split; [assumption || reflexivity|]).
  destruct (body_residual _ _ _ _ _ _ B) as (E & nf1 & dn & _ & N1 & OE & ON & DR & DI). rewrite E4 in N1. injection N1 as <-. rewrite E1 in DR.
  assert (P2 : p_pol (q_p s1) = 2%nat) by (rewrite (proj1 (proj2 (run_static _ _ _ _ _ _ _ _ _ HP))); auto). rewrite P2 in DR.
  destruct (dens_two g nf' nf HN) as (dm & D1 & D2); [intros; apply HAM; auto|]. rewrite D1 in DR. injection DR as <-. rewrite HR in DI. symmetry in DI.
  destruct (pymax_fin _ _ _ DI) as (M & e & EE & ER). split.
  - destruct (energy_bound (Fin E) (Fin (q_oldE s0)) e (ps_tol o)) as (Ea & Eb & B1 & B2 & _ & B4); [|lra|].
    + unfold energy_residual, nsub, nneg, nadd, ndivn. exact EE.
    + injection B1 as <-. injection B2 as <-. rewrite OE. exact B4.
  - intros j Hj. assert (Z : distance g nf' nf j = Rabs a * distance g (assembled p wt nout) nf j).
    { unfold distance. rewrite <- integrate1_scal. apply integrate1_ext. intros x Hx. rewrite (E8 x j Hx), <- Rabs_mult. f_equal. ring. }
    rewrite <- Z. apply D2; auto. lra.
Qed.
