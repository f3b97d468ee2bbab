(** Partition with kinetic_part_type inversion: the density that the inverter is asked to reproduce. *)
From Coq Require Import Reals List Arith Lia Lra ZArith Bool String.
From Verif Require Import Base BaseLemmas GridModel GridSpec GridProofs GridWitness GridMore HartreeModel SolverModel SolverSpec SolverThms SolverWitness SolverCases LibxcModel OptionsModel OptionsProofs KSModel KSSpec KSProofs KSThms KSLoop KSEnergy KSTotal KSWit
  InverterModel InverterSpec InverterOrb InverterLoop InverterRun InverterThms InverterMore InverterWit InverterStep PartitionModel PartitionSpec PartitionBase PartitionConstr PartitionDens PartitionFrame PartitionChem PartitionNew PartitionGood PartitionWit PartitionWit2 PartitionTwo PartitionTwoWit PartitionGuess PartitionGuessWit EmbedPot.
Import ListNotations.
Local Open Scope R_scope.
Local Opaque sinh cosh.

(** orbitalinvert leaves the settings and the solvers of the other spin alone. *)
Lemma orbital_others : forall g E n0 phi0 e0 vs0 sp iv iv' flag out, orbitalinvert g E n0 phi0 e0 vs0 sp iv = Ok (iv', flag, out) -> i_opt iv' = i_opt iv /\ forall i t, t <> sp -> i_sol iv' i t = i_sol iv i t.
Proof.
  intros g E n0 phi0 e0 vs0 sp iv iv' flag out H. unfold orbitalinvert in H. dm H. injection H as <- <- <-. unfold inv_setveff, inv_solver, inv_us, inv_vs. cbn [i_opt i_sol].
  split; [destruct (i_vs iv), (i_us iv); reflexivity|]. intros i t Ht.
  assert (X : forall f (x : solver), upd2 f 0%nat sp x i t = f i t) by (intros f x; unfold upd2; destruct (Nat.eqb_spec t sp); [contradiction|]; rewrite andb_false_r; reflexivity).
  rewrite !X. destruct (i_vs iv), (i_us iv); reflexivity.
Qed.
(** The molecular Kohn-Sham system of spin t reproduces the density n to the tolerance: n is the target, the orbitals solve the
    Kohn-Sham equations in the potential of the solver and the highest level is zero. *)
Definition reproduces (g : grid) (pol : nat) (tol : R) (s0 s : solver) (n : vec) : Prop := exists p e d, s_phi s = Some (s_Nmo s0, p) /\ s_eig s = Some (s_Nmo s0, e) /\ calc_density g s = Ok d /\
  (forall i k, (i < s_Nmo s0)%nat -> (k < Nelem g)%nat -> Rabs (2 * PI * hr g * ha g * gwi g k * schroed g (hamiltonian g 0) (s_veff s) (e i) (p i) k) <= tol) /\
  (forall k, (k < Nelem g)%nat -> Rabs (InverterSpec.weight g k * (d k - n k)) <= (if (pol =? 1)%nat then 2 * tol else tol)) /\
  ((1 <= s_Nmo s0)%nat -> e (s_Nmo s0 - 1)%nat = 0).
(** The solvers of the inverter belong to the molecule: the same number of spins and closed levels. *)
Definition closed_levels (pol : nat) (s : solver) : Prop := s_pol s = pol /\ s_N s = INR (s_Nmo s) * shell_size 0 pol.

Lemma inv_spin_target : forall g w spin p p' iv nf, inv_spin g w spin p = Ok p' -> p_inv p = Some iv -> p_nf p = Some nf -> io_type (i_opt iv) = "orbitalinvert"%string -> io_tol (i_opt iv) <= 100 ->
  (p_pol p = 1 \/ p_pol p = 2)%nat -> closed_levels (p_pol p) (i_sol iv 0%nat spin) ->
  exists iv' it r, p_inv p' = Some iv' /\ p_info p' = Some (OArr 1 1 (fun _ _ => Some (mkInfo it (Fin r)))) /\ i_opt iv' = i_opt iv /\ (forall i t, t <> spin -> i_sol iv' i t = i_sol iv i t) /\
    (r <= io_tol (i_opt iv) -> reproduces g (p_pol p) (io_tol (i_opt iv)) (i_sol iv 0%nat spin) (i_sol iv' 0%nat spin) (fun k => nf k spin)).
Proof.
  intros g w spin p p' iv nf H I F TY TOL PO (CP & CN). unfold inv_spin in H. rewrite F in H. cbn [have bind] in H. destruct (column (p_pol p) nf spin) as [c|] eqn:EC; [|discriminate]. cbn [bind] in H. cbv zeta in H.
  destruct (initialguessinvert g w spin p) as [[[ph e0] v0]|] eqn:EG; [|discriminate]. cbn [bind] in H. rewrite I in H. cbn [have bind] in H. unfold invert in H. rewrite TY in H. cbn [String.eqb Ascii.eqb Bool.eqb] in H.
  match type of H with context [orbitalinvert ?a ?b ?n ?d ?e ?f ?x ?y] => destruct (orbitalinvert a b n d e f x y) as [[[iv' flag] out]|] eqn:EO; [|discriminate] end. cbn [bind fst snd] in H. injection H as <-. cbn [set_info set_inv p_inv p_info].
  destruct (orbital_others _ _ _ _ _ _ _ _ _ _ _ EO) as (O1 & O2). destruct (orbitalinvert_inv _ _ _ _ _ _ _ _ _ _ _ EO) as (_ & _ & it & r & _ & _ & _ & _ & _ & _ & _ & _ & _ & _ & FL & -> & _).
  exists iv', it, r. split; [reflexivity|]. split; [reflexivity|]. split; [exact O1|]. split; [exact O2|]. intros R. apply FL in R. subst flag.
  destruct (orbital_success _ _ _ _ _ _ _ _ _ _ EO TOL) as (q & e & d & S1 & S2 & S3 & S4 & _ & S5 & S6); [rewrite CP; exact CN|]. exists q, e, d. do 3 (split; [assumption|]). split; [exact S4|].
  assert (CK : forall k, c k = nf k spin) by (intros k; unfold column in EC; destruct (spin <? p_pol p)%nat; [|discriminate]; injection EC as <-; reflexivity).
  split; [|intros HM; apply S6; exact HM]. intros k Hk. specialize (S5 k Hk). rewrite CP in S5. destruct PO as [PO|PO]; rewrite PO in *; cbn [Nat.eqb] in *; rewrite CK in S5; [exact S5|].
  replace (InverterSpec.weight g k * (2 * d k - 2 * nf k spin)) with (2 * (InverterSpec.weight g k * (d k - nf k spin))) in S5 by ring. rewrite Rabs_mult, (Rabs_right 2) in S5 by lra. lra.
Qed.
Lemma put_vt_frame : forall u l p p1, forL l (fun c p => do f <- get_f p c; do v <- have (k_veff (f_ks f)); Ok (set_frag p c (fvt f (fun k s => Fin (u - v k s))))) p = Ok p1 ->
  p_inv p1 = p_inv p /\ p_nf p1 = p_nf p /\ p_pol p1 = p_pol p /\ p_opt p1 = p_opt p.
Proof.
  intros u l. induction l as [|c l IH]; intros p p1 H; cbn [forL] in H; [injection H as <-; auto|]. match type of H with bind ?m _ = _ => destruct m as [q|] eqn:E; [|discriminate] end. cbn [bind] in H. dm E. injection E as <-. apply IH in H. exact H.
Qed.
(** The last inversion of a call of vp_kinetic: its report is the one that is kept. *)
Theorem molecule_reached : forall g w p p' iv nf, vpk_inversion g w p = Ok p' -> p_inv p = Some iv -> p_nf p = Some nf -> io_type (i_opt iv) = "orbitalinvert"%string -> io_tol (i_opt iv) <= 100 ->
  (p_pol p = 1 \/ p_pol p = 2)%nat -> (forall t, (t < p_pol p)%nat -> closed_levels (p_pol p) (i_sol iv 0%nat t)) ->
  let last := if po_ess (p_opt p) then 0%nat else (p_pol p - 1)%nat in
  exists iv' it r, p_inv p' = Some iv' /\ p_info p' = Some (OArr 1 1 (fun _ _ => Some (mkInfo it (Fin r)))) /\
    (r <= io_tol (i_opt iv) -> reproduces g (p_pol p) (io_tol (i_opt iv)) (i_sol iv 0%nat last) (i_sol iv' 0%nat last) (fun k => nf k last) /\
       (po_ess (p_opt p) = true -> i_sol iv' 0%nat 1%nat = i_sol iv' 0%nat 0%nat)).
Proof.
  intros g w p p' iv nf H I F TY TOL PO CL last. unfold vpk_inversion in H. destruct (inv_chempot p) as [u|]; [|discriminate]. cbn [bind] in H.
  match type of H with bind ?m _ = _ => destruct m as [p1|] eqn:E1; [|discriminate] end. cbn [bind] in H. destruct (put_vt_frame _ _ _ _ E1) as (I1 & F1 & P1 & O1). rewrite I in I1. rewrite F in F1.
  match type of H with bind ?m _ = _ => destruct m as [p2|] eqn:E2; [|discriminate] end. cbn [bind] in H.
  assert (G : exists iv' it r, p_inv p2 = Some iv' /\ p_info p2 = Some (OArr 1 1 (fun _ _ => Some (mkInfo it (Fin r)))) /\ (r <= io_tol (i_opt iv) -> reproduces g (p_pol p) (io_tol (i_opt iv)) (i_sol iv 0%nat last) (i_sol iv' 0%nat last) (fun k => nf k last))).
  { assert (ONE : forall q, inv_spin g w 0 p1 = Ok q -> exists iv' it r, p_inv q = Some iv' /\ p_info q = Some (OArr 1 1 (fun _ _ => Some (mkInfo it (Fin r)))) /\ i_opt iv' = i_opt iv /\ (forall i t, t <> 0%nat -> i_sol iv' i t = i_sol iv i t) /\
        (r <= io_tol (i_opt iv) -> reproduces g (p_pol p) (io_tol (i_opt iv)) (i_sol iv 0%nat 0%nat) (i_sol iv' 0%nat 0%nat) (fun k => nf k 0%nat))).
    { intros q E. destruct (inv_spin_target _ _ _ _ _ iv nf E I1 F1 TY TOL) as (iv' & it & r & X1 & X2 & X3 & X4 & X5); [rewrite P1; exact PO|rewrite P1; apply CL; lia|]. rewrite P1 in X5. exists iv', it, r. auto. }
    unfold last. destruct (po_ess (p_opt p)).
    - cbn [forN bind] in E2. destruct (inv_spin g w 0 p1) as [q|] eqn:E3; [|discriminate]. cbn [bind] in E2. injection E2 as <-. destruct (ONE q eq_refl) as (iv' & it & r & X1 & X2 & _ & _ & X5). exists iv', it, r. auto.
    - destruct PO as [PO|PO]; rewrite PO in E2 |- *; cbn [forN bind Nat.sub] in E2 |- *.
      + destruct (inv_spin g w 0 p1) as [q|] eqn:E3; [|discriminate]. cbn [bind] in E2. injection E2 as <-. destruct (ONE q eq_refl) as (iv' & it & r & X1 & X2 & _ & _ & X5). rewrite PO in X5. exists iv', it, r. auto.
      + destruct (inv_spin g w 0 p1) as [q|] eqn:E3; [|discriminate]. cbn [bind] in E2. destruct (ONE q eq_refl) as (iv1 & it1 & r1 & X1 & X2 & X3 & X4 & _).
        destruct (inv_spin g w 1 q) as [q2|] eqn:E4; [|discriminate]. cbn [bind] in E2. injection E2 as <-. pose proof (inv_spin_same _ _ _ _ _ E3) as (_ & P2 & _ & _ & _ & _ & _ & _ & _ & _ & _ & F2 & _).
        destruct (inv_spin_target _ _ _ _ _ iv1 nf E4 X1) as (iv' & it & r & Y1 & Y2 & Y3 & Y4 & Y5); [congruence|congruence|congruence|rewrite P2, P1; auto|rewrite P2, P1, X4 by lia; apply CL; lia|].
        exists iv', it, r. split; [exact Y1|]. split; [exact Y2|]. rewrite X3, P2, P1, PO, X4 in Y5 by lia. exact Y5. }
  destruct G as (iv2 & it & r & G1 & G2 & G3). rewrite G1 in H. cbn [have bind] in H.
  destruct (po_ess (p_opt p)) eqn:ES.
  - destruct (inv_spin_copy iv2) as [iv3|] eqn:E3; [|discriminate]. cbn [bind] in H. dm H. injection H as <-. exists iv3, it, r. split; [reflexivity|]. split; [exact G2|]. intros R. specialize (G3 R).
    unfold inv_spin_copy in E3. dm E3; injection E3 as <-; cbn [i_sol]; unfold last, dup01 in *; cbn [Nat.eqb]; (split; [exact G3|reflexivity]).
  - cbn [bind] in H. dm H. injection H as <-. exists iv2, it, r. split; [reflexivity|]. split; [exact G2|]. intros R. split; [exact (G3 R)|discriminate].
Qed.

(** The same for vp_kinetic, and the kinetic potentials of the components when the first inversion of a spin-unpolarised molecule
    succeeds. *)
Lemma finish_frame : forall g p p', vpk_finish g p = Ok p' -> p_inv p' = p_inv p /\ p_info p' = p_info p.
Proof.
  intros g p p' H. unfold vpk_finish in H. destruct (String.eqb _ "twoorbital"); [dm H; injection H as <-; split; reflexivity|]. destruct (String.eqb _ "fixed"); [injection H as <-; auto|].
  revert H. generalize (comps (p_ens p)). intros l. revert p p'. induction l as [|c l IH]; intros q q' H; cbn [forL] in H; [injection H as <-; auto|]. match type of H with bind ?m _ = _ => destruct m as [q1|] eqn:E; [|discriminate] end. cbn [bind] in H. dm E. injection E as <-. apply IH in H. exact H.
Qed.
Theorem kinetic_reached : forall g w p p' iv nf, vp_kinetic g w p = Ok p' -> po_kin (p_opt p) = "inversion"%string -> p_inv p = Some iv -> p_nf p = Some nf -> io_type (i_opt iv) = "orbitalinvert"%string -> io_tol (i_opt iv) <= 100 ->
  (p_pol p = 1 \/ p_pol p = 2)%nat -> (forall t, (t < p_pol p)%nat -> closed_levels (p_pol p) (i_sol iv 0%nat t)) ->
  let last := if po_ess (p_opt p) then 0%nat else (p_pol p - 1)%nat in
  exists iv' it r, p_inv p' = Some iv' /\ p_info p' = Some (OArr 1 1 (fun _ _ => Some (mkInfo it (Fin r)))) /\
    (r <= io_tol (i_opt iv) -> reproduces g (p_pol p) (io_tol (i_opt iv)) (i_sol iv 0%nat last) (i_sol iv' 0%nat last) (fun k => nf k last) /\
       (po_ess (p_opt p) = true -> i_sol iv' 0%nat 1%nat = i_sol iv' 0%nat 0%nat)).
Proof.
  intros g w p p' iv nf H K I F TY TOL PO CL last. unfold vp_kinetic in H. rewrite K in H. cbn [String.eqb Ascii.eqb Bool.eqb] in H. destruct (vpk_inversion g w p) as [p1|] eqn:E; [|discriminate]. cbn [bind] in H. destruct (finish_frame _ _ _ H) as (-> & ->). exact (molecule_reached g w p p1 iv nf E I F TY TOL PO CL).
Qed.
Theorem kinetic_potentials : forall g w p p' iv, vp_kinetic g w p = Ok p' -> po_kin (p_opt p) = "inversion"%string -> po_ess (p_opt p) = false -> p_pol p = 1%nat -> p_inv p = Some iv -> io_type (i_opt iv) = "orbitalinvert"%string ->
  i_vs iv = None -> i_us iv = None -> i_cols iv = 1%nat -> closed_levels 1 (i_sol iv 0%nat 0%nat) -> (1 <= s_Nmo (i_sol iv 0%nat 0%nat))%nat ->
  exists u iv', inv_chempot p = Ok u /\ p_inv p' = Some iv' /\ forall c, member (p_ens p) c -> exists f v f' x, p_f p c = Some f /\ k_veff (f_ks f) = Some v /\ p_f p' c = Some f' /\ f_V f' "vp_kin"%string = Some x /\
    forall k, (k < Nelem g)%nat -> x k 0%nat = v k 0%nat - u - s_veff (i_sol iv' 0%nat 0%nat) k.
Proof.
  intros g w p p' iv H K ES PO I TY V0 U0 CO (CP & CN) HM. unfold vp_kinetic in H. rewrite K in H. cbn [String.eqb Ascii.eqb Bool.eqb] in H. destruct (vpk_inversion g w p) as [p2|] eqn:E; [|discriminate]. cbn [bind] in H.
  destruct (inversion_vt _ _ _ _ E) as (u & U & L). destruct (vpk_inversion_same _ _ _ _ E) as (O2 & P2 & _ & _ & _ & _ & EN2 & _).
  unfold vpk_inversion in E. rewrite U in E. cbn [bind] in E. match type of E with bind ?m _ = _ => destruct m as [p1|] eqn:E1; [|discriminate] end. cbn [bind] in E. destruct (put_vt_frame _ _ _ _ E1) as (I1 & _ & P1 & _). rewrite I in I1.
  rewrite ES, PO in E. cbn [forN bind] in E. destruct (inv_spin g w 0 p1) as [q|] eqn:E2; [|discriminate]. cbn [bind] in E. unfold inv_spin in E2. destruct (have (p_nf p1)) as [nf|]; [|discriminate]. cbn [bind] in E2. destruct (column _ nf 0) as [c0|]; [|discriminate]. cbn [bind] in E2. cbv zeta in E2.
  destruct (initialguessinvert g w 0 p1) as [[[ph e0] v0]|]; [|discriminate]. cbn [bind] in E2. rewrite I1 in E2. cbn [have bind] in E2. unfold invert in E2. rewrite TY in E2. cbn [String.eqb Ascii.eqb Bool.eqb] in E2.
  match type of E2 with context [orbitalinvert ?a ?b ?n ?d ?e ?f ?x ?y] => destruct (orbitalinvert a b n d e f x y) as [[[iv' flag] out]|] eqn:EO; [|discriminate] end. cbn [bind fst snd] in E2. injection E2 as <-. cbn [set_info set_inv p_inv have bind] in E.
  destruct (vt_orbital_full _ _ _ _ _ _ _ _ _ _ _ EO V0 U0) as (vt & VT & VV); [rewrite CP; exact CN|exact HM|]. rewrite VT, CO in E. cbn [bind] in E. injection E as <-.
  exists u, iv'. split; [exact U|]. destruct (finish_frame _ _ _ H) as (-> & _). split; [reflexivity|]. intros c Hc. destruct (L c Hc) as (f & v & f' & A1 & A2 & A3 & A4).
  match type of H with vpk_finish g ?q = _ => destruct (finish_any g q p' vt H) with (c := c) (f := f') (tc := fun k s => u - v k s) as (f2 & x & B1 & B2 & B3 & _ & B4) end.
  - rewrite O2, K. split; discriminate.
  - rewrite P2, PO. reflexivity.
  - rewrite EN2. exact Hc.
  - exact A3.
  - exact A4.
  - exists f, v, f2, x. do 4 (split; [assumption|]). intros k Hk. rewrite B4 by (auto; rewrite P2, PO; lia). rewrite VV by exact Hk. ring.
Qed.

Lemma finish_runs : forall g p d v, po_kin (p_opt p) <> "twoorbital"%string /\ po_kin (p_opt p) <> "fixed"%string -> all_f (fun f => exists vf, f_vt f = Some vf /\ fin_mat vf) p -> p_vt p = Some (d, v) -> bdim d (p_pol p) = Some (p_pol p) -> fin_mat v -> exists p', vpk_finish g p = Ok p'.
Proof.
  intros g p d v (K1 & K2) A V BD FV. unfold vpk_finish. apply String.eqb_neq in K1, K2. rewrite K1, K2.
  set (h := fun (c : comp) (q : part) (f : frag) => do v <- have (p_vt q); do vf <- have (f_vt f);
      match bdim (fst v) (p_pol q) with
      | Some d => if negb (d =? p_pol q)%nat then Err ValueError else
          do x <- finite (Nelem g) (p_pol q) (fun k s => no_nan (nsub (snd v k (bix (fst v) s)) (vf k s)));
          Ok (fV f "vp_kin" x)
      | None => Err ValueError
      end).
  match goal with |- context [forL ?l ?F p] => destruct (all_run (fun f => exists vf, f_vt f = Some vf /\ fin_mat vf) (fun _ => True) h F p) as (p' & E & _) end; eauto.
  - intros ? ? ? ?. reflexivity.
  - intros c q. unfold h. destruct (get_f q c) as [f|]; cbn [bind]; auto. destruct (have (p_vt q)) as [u|]; cbn [bind]; auto. destruct (have (f_vt f)) as [vf|]; cbn [bind]; auto. destruct (bdim (fst u) (p_pol q)) as [dd|]; auto.
    destruct (negb (dd =? p_pol q)%nat); auto. destruct (finite _ _ _); reflexivity.
  - intros c f (vf & E & FF). unfold h. rewrite V, E. cbn [have bind fst snd]. rewrite BD, Nat.eqb_refl. cbn [negb].
    destruct (finite_total (Nelem g) (p_pol p) (fun k s => no_nan (nsub (v k (bix d s)) (vf k s)))) as (x & ->).
    + intros k s. specialize (FV k (bix d s)). specialize (FF k s). destruct (v k (bix d s)); try discriminate. destruct (vf k s); try discriminate. reflexivity.
    + cbn [bind]. eauto.
Qed.
(** A molecule on the 2 x 2 grid whose inverter already holds the exact answer: the call goes through and reports the residual 0. *)
Definition held (e : R) : inverter := one_inv (one_opt "orbitalinvert" false false 50) 1 1 (one_pot e) (Some one_phi) (Some (one_eig e)) true.
Definition given (e : R) (p : part) : part := set_dens (set_inv p (Some (held e))) (fun k _ => one_n0 k / 2) (fun k _ => one_n0 k / 2) (fun k _ => one_n0 k).
Lemma solved_cols : forall p0, partition_init g22 1 1 1 one_spec 1 1 (ask_opt "inversion" false) = Ok p0 -> forall c f, member (p_ens (solve22 p0)) c -> p_f (solve22 p0) c = Some f -> k_cols (f_ks f) = 1%nat.
Proof.
  intros p0 H c f M F. pose proof (init_inv _ _ _ _ _ _ _ _ _ H) as (_ & _ & _ & _ & _ & _ & _ & _ & _ & _ & _ & _ & _ & _ & HF). destruct (HF c M) as (f0 & F1 & F2). destruct (frag_init_inv _ _ _ _ _ _ _ F1) as (kk & -> & _ & _ & _ & _ & CC & _).
  unfold solve22 in F. cbn [with_f p_f] in F. rewrite F2 in F. injection F as <-. exact CC.
Qed.
Theorem target_case : forall e, exists p0 iv' p', partition_init g22 1 1 1 one_spec 1 1 (ask_opt "inversion" false) = Ok p0 /\ let p := given e (solve22 p0) in
  po_kin (p_opt p) = "inversion"%string /\ p_pol p = 1%nat /\ p_inv p = Some (held e) /\ p_nf p = Some (fun k _ => one_n0 k) /\ io_type (i_opt (held e)) = "orbitalinvert"%string /\ 0 < io_tol (i_opt (held e)) <= 100 /\ closed_levels 1 (i_sol (held e) 0%nat 0%nat) /\
  i_vs (held e) = None /\ i_us (held e) = None /\ i_cols (held e) = 1%nat /\ s_Nmo (i_sol (held e) 0%nat 0%nat) = 1%nat /\
  vp_kinetic g22 pair_env p = Ok p' /\ p_inv p' = Some iv' /\ p_info p' = Some (OArr 1 1 (fun _ _ => Some (mkInfo 1 (Fin 0)))).
Proof.
  intros e. destruct (w_guess_for "inversion" false (or_intror eq_refl)) as (p0 & ph & e0 & v0 & H & EN & AB & ES & KI & _ & _ & FC & G). cbv zeta in *. pose proof (init_inv _ _ _ _ _ _ _ _ _ H) as (_ & _ & _ & _ & PO & _). set (p := given e (solve22 p0)).
  assert (PO' : p_pol p = 1%nat) by exact PO.
  assert (G' : forall q, p_opt q = p_opt (solve22 p0) -> p_ens q = p_ens (solve22 p0) -> p_pol q = p_pol (solve22 p0) -> (forall c, member (p_ens q) c -> exists f f', p_f (solve22 p0) c = Some f /\ p_f q c = Some f' /\ f_ks f' = f_ks f /\ f_Q f' = f_Q f) ->
     initialguessinvert g22 pair_env 0 q = Ok (ph, e0, v0)).
  { intros q Q1 Q2 Q3 Q4. rewrite <- G. rewrite Q2, EN in Q4. destruct (Q4 Ca Logic.I) as (fa & fa' & A1 & A2 & A3 & A4). destruct (Q4 Cb Logic.I) as (fb & fb' & B1 & B2 & B3 & B4).
    unfold initialguessinvert, guess_v0, guess_basis, comps_ab, comps_a, comps. rewrite Q1, Q2, Q3, AB, EN. cbn [forL]. unfold get_f, Qcol. rewrite A1, A2, B1, B2. cbn [have bind]. unfold sol_phi, sol_at. rewrite A3, A4, B3, B4. reflexivity. }
  assert (MA : member (p_ens (solve22 p0)) Ca) by (rewrite EN; exact Logic.I). assert (MB : member (p_ens (solve22 p0)) Cb) by (rewrite EN; exact Logic.I).
  destruct (FC Ca MA) as (fa & A1 & A2 & A3 & A4). destruct (FC Cb MB) as (fb & B1 & B2 & B3 & B4).
  assert (CO : k_cols (f_ks fa) = 1%nat /\ k_cols (f_ks fb) = 1%nat). { pose proof (solved_cols p0 H) as X. split; [apply (X Ca)|apply (X Cb)]; auto. }
  assert (CH : exists u, inv_chempot p = Ok u).
  { apply (chem_all_total p 1 1). intros c Hc. change (p_ens p) with (p_ens (solve22 p0)) in Hc. change (p_f p) with (p_f (solve22 p0)). rewrite EN in Hc. destruct c; try discriminate Hc; eexists; (split; [eassumption|]); split; (assumption || apply CO). }
  destruct CH as (u & CH).
  set (F1 := fun c => match c with Ca => Some (fvt fa (fun k s => Fin (u - -1))) | Cb => Some (fvt fb (fun k s => Fin (u - -1))) | x => p_f p x end).
  set (p1 := set_frag (set_frag p Ca (fvt fa (fun k s => Fin (u - -1)))) Cb (fvt fb (fun k s => Fin (u - -1)))).
  assert (E1 : forL (comps (p_ens p)) (fun c p => do f <- get_f p c; do v <- have (k_veff (f_ks f)); Ok (set_frag p c (fvt f (fun k s => Fin (u - v k s))))) p = Ok p1).
  { change (p_ens p) with (p_ens (solve22 p0)). rewrite EN. cbn [comps forL]. unfold get_f at 1. change (p_f p Ca) with (p_f (solve22 p0) Ca). rewrite A1. cbn [have bind]. rewrite A3. cbn [have bind]. unfold get_f. cbn [set_frag p_f comp_eqb]. change (p_f p Cb) with (p_f (solve22 p0) Cb). rewrite B1. cbn [have bind]. rewrite B3. cbn [have bind]. reflexivity. }
  assert (GG : initialguessinvert g22 pair_env 0 p1 = Ok (ph, e0, v0)).
  { apply G'; try reflexivity. intros c Hc. change (p_ens p1) with (p_ens (solve22 p0)) in Hc. rewrite EN in Hc. destruct c; try discriminate Hc; [exists fa, (fvt fa (fun k s => Fin (u - -1)))|exists fb, (fvt fb (fun k s => Fin (u - -1)))]; (split; [assumption|]); (split; [reflexivity|]); split; reflexivity. }
  destruct (restart g22 (one_env 0) (held e) 0 (fun _ _ => 1) (fun _ => e) (one_pot e) one_n0 (flat_phi ph) (List.length e0, fun i => nth i e0 0) (Some (GridModel.A2 1%nat (fun k _ => v0 k)))) as (iv' & q & R1 & _); simpl; auto; try lra; try lia; try reflexivity.
  { left. repeat split. rewrite g22_n; lia. } { intros i _. apply one_eigen. } { intros i _. apply (const_norm 1). lra. } { intros. unfold one_n0. simpl. ring. }
  assert (E2 : inv_spin g22 pair_env 0 p1 = Ok (set_info (set_inv p1 (Some iv')) (OArr 1 1 (fun _ _ => Some (mkInfo 1 (Fin 0)))))).
  { unfold inv_spin. change (p_nf p1) with (Some (fun k (_ : nat) => one_n0 k)). cbn [have bind]. change (p_pol p1) with (p_pol p). rewrite PO'. cbn [column Nat.ltb Nat.leb bind]. cbv zeta. cbn [Nat.eqb]. rewrite GG. cbn [bind]. change (p_inv p1) with (Some (held e)). cbn [have bind]. unfold invert. change (io_type (i_opt (held e))) with "orbitalinvert"%string. cbn [String.eqb Ascii.eqb Bool.eqb]. change (pe_inv pair_env) with (one_env 0). change (fun k : nat => one_n0 k) with one_n0. rewrite R1. reflexivity. }
  assert (VT : exists v, get_vt g22 iv' = Ok (Nelem g22, 1%nat, v)).
  { destruct (vt_orbital_full _ _ _ _ _ _ _ _ _ _ _ R1) as (vt & VT & _); [reflexivity|reflexivity|cbn; unfold shell_size; simpl; lra|cbn; lia|]. exists vt. exact VT. }
  destruct VT as (vv & VT).
  set (p2 := set_vt (set_inv (set_info (set_inv p1 (Some iv')) (OArr 1 1 (fun _ _ => Some (mkInfo 1 (Fin 0))))) (Some iv')) 1 (fun k s => Fin (vv k s))).
  assert (E3 : vpk_inversion g22 pair_env p = Ok p2).
  { unfold vpk_inversion. rewrite CH. cbn [bind]. rewrite E1. cbn [bind]. change (po_ess (p_opt p)) with (po_ess (p_opt (solve22 p0))). rewrite ES, PO'. cbn [forN bind]. rewrite E2. cbn [bind set_info set_inv p_inv have]. rewrite VT. cbn [bind]. reflexivity. }
  assert (E4 : exists p', vpk_finish g22 p2 = Ok p').
  { apply (finish_runs g22 p2 1%nat (fun k s => Fin (vv k s))); try reflexivity.
    - change (p_opt p2) with (p_opt (solve22 p0)). rewrite KI. split; discriminate.
    - intros c Hc. change (p_ens p2) with (p_ens (solve22 p0)) in Hc. rewrite EN in Hc. destruct c; try discriminate Hc; eexists; (split; [reflexivity|]); eexists; (split; [reflexivity|intros k s; reflexivity]).
    - change (p_pol p2) with (p_pol p). rewrite PO'. reflexivity.
    - intros k s. reflexivity. }
  destruct E4 as (p' & E4). destruct (finish_frame _ _ _ E4) as (I1 & I2).
  exists p0, iv', p'. split; [exact H|]. split; [exact KI|]. split; [exact PO'|]. split; [reflexivity|]. split; [reflexivity|]. split; [reflexivity|]. split; [cbn; lra|]. split; [split; [reflexivity|]; unfold shell_size; simpl; lra|]. do 4 (split; [reflexivity|]).
  fold p. split; [|rewrite I1, I2; split; reflexivity]. unfold vp_kinetic. change (po_kin (p_opt p)) with (po_kin (p_opt (solve22 p0))). rewrite KI. cbn [String.eqb Ascii.eqb Bool.eqb]. rewrite E3. cbn [bind]. exact E4.
Qed.
