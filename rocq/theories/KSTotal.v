(** Kohn-Sham object: effective potential, construction, and runs that cannot fail. *)
From Coq Require Import Reals List Arith Lia Lra ZArith Bool String.
From Verif Require Import Base BaseLemmas GridModel GridSpec GridProofs HartreeModel SolverModel SolverSpec SolverProofs SolverThms
  LibxcModel OptionsModel OptionsProofs KSModel KSSpec KSProofs KSThms KSLoop KSEnergy.
Import ListNotations.
Local Open Scope R_scope.
Local Opaque sinh cosh.

(** * effective potential *)
Lemma eff_pot : forall k k', set_effective_potential k = Ok k' ->
  exists ve vh, k_vext k = Some ve /\ k_vhxc k = Some vh /\
  k_veff k' = Some (add3 (k_vnuc k) ve vh) /\
  (forall i j, place k i j -> (j < k_pol k)%nat /\ k_sol k' i j = set_veff (k_sol k i j) (fun x => add3 (k_vnuc k) ve vh x j)) /\
  (forall i j, ~ place k i j -> k_sol k' i j = k_sol k i j) /\
  k_n k' = k_n k /\ k_vext k' = k_vext k /\ k_vhxc k' = k_vhxc k /\ k_vnuc k' = k_vnuc k /\ k_E k' = k_E k.
Proof.
  intros k k' H. unfold set_effective_potential in H.
  destruct (need (k_vext k)) as [ve|] eqn:E1; [|discriminate]. cbn [bind] in H.
  destruct (need (k_vhxc k)) as [vh|] eqn:E2; [|discriminate]. cbn [bind] in H. apply need_some in E1, E2. cbv zeta in H.
  destruct (distribute k _) as [sol|] eqn:D; [|discriminate]. cbn [bind] in H. injection H as <-.
  apply distribute_ok in D. destruct D as (D1 & D2). exists ve, vh. do 3 (split; [auto|]). split; [exact D1|]. split; [exact D2|]. repeat split; auto.
Qed.
Lemma distribute_total : forall k v, (k_cols k <= k_pol k)%nat -> exists sol, distribute k v = Ok sol.
Proof.
  intros k v H. destruct (distribute k v) as [sol|e] eqn:D; [eauto|]. apply distribute_err in D.
  destruct D as (_ & i & j & (Hi & Hj) & Hp). lia.
Qed.
Lemma distribute_scf_total : forall k v, (k_cols k <= k_pol k)%nat -> exists sol, distribute_scf k v = Ok sol.
Proof.
  intros k v H. pose proof (distribute_scf_same k v) as S. destruct (distribute_total k v H) as (s & E). rewrite E in S.
  destruct (distribute_scf k v); [eauto|contradiction].
Qed.
Lemma eff_pot_total : forall k ve vh, k_vext k = Some ve -> k_vhxc k = Some vh -> (k_cols k <= k_pol k)%nat ->
  exists k', set_effective_potential k = Ok k'.
Proof.
  intros k ve vh E1 E2 H. unfold set_effective_potential. rewrite E1, E2. cbn [need bind].
  destruct (distribute_total k (add3 (k_vnuc k) ve vh) H) as (sol & ->). cbn [bind]. eauto.
Qed.
Lemma veff_external : forall k v k', set_veff_external k v = Ok k' ->
  forall i j, place k i j -> exists stored, k_veff k = Some stored /\ (j < k_pol k)%nat /\
    k_sol k' i j = set_veff (k_sol k i j) (fun x => stored x j).
Proof.
  intros k v k' H i j Hp. unfold set_veff_external in H. destruct Hp as (Hi & Hj).
  destruct (Nat.eqb_spec (k_cols k) 0); [lia|]. destruct (Nat.eqb_spec (k_lv k) 0); [lia|]. cbn [orb] in H.
  destruct (need (k_veff k)) as [s|] eqn:E; [|discriminate]. cbn [bind] in H. apply need_some in E.
  destruct (distribute k s) as [sol|] eqn:D; [|discriminate]. cbn [bind] in H. injection H as <-.
  apply distribute_ok in D. destruct D as (D1 & _). exists s. split; auto. apply (D1 i j). split; auto.
Qed.
(** the body of the SCF loop does not look at the stored effective potential *)
Lemma body_ignores_veff : forall g w o l st v,
  scf_body g w o l (mkSt (set_veffs (c_ks st) v) (c_diff st) (c_oldE st) (c_oldn st) (c_iter st)) = scf_body g w o l st.
Proof.
  intros g w o l [k d e n it] v. unfold scf_body, calc_hxc_potential. cbn [c_ks c_diff c_oldE c_oldn c_iter].
  destruct k as [ko kZa kZb kpol klv kcols ksol kvn kve kvh kvf kn ku kE kV].
  cbn [set_veffs k_opt k_vext k_n k_pol k_E k_V].
  destruct (String.eqb (o_int ko) "ni").
  - destruct (need kve); [|reflexivity]. cbn [bind]. reflexivity.
  - destruct (need kn) as [n0|]; [|reflexivity]. cbn [bind].
    destruct (get_xc g (e_lib w) (o_fam ko) (o_xid ko) kpol n0) as [x|]; [|reflexivity]. cbn [bind].
    destruct (get_xc g (e_lib w) (o_fam ko) (o_cid ko) kpol n0) as [c|]; [|reflexivity]. cbn [bind].
    destruct (v_hartree g (e_spL w) (e_spU w) (A2 kpol n0)) as [vh|]; [|reflexivity]. cbn [bind]. reflexivity.
Qed.
(** the solvers work with the plain sum, whatever is stored *)
Lemma body_solver_potential : forall g w o l st st', scf_body g w o l st = Ok st' ->
  exists ve vh, k_vext (c_ks st') = Some ve /\ k_vhxc (c_ks st') = Some vh /\
    (forall i j, place (c_ks st') i j -> forall x, s_veff (k_sol (c_ks st') i j) x = k_vnuc (c_ks st') x j + ve x j + vh x j) /\
    k_veff (c_ks st') = Some (if so_flip o then flip_avg g (k_pol (c_ks st)) (add3 (k_vnuc (c_ks st)) ve vh) else add3 (k_vnuc (c_ks st)) ve vh).
Proof.
  intros g w o l st st' H. apply body_inv in H. destruct H as (_ & k1 & ve & vh & sol & k3 & nout & n & k4 & k5 & E & r & H).
  destruct H as (X & E1 & E2 & D & DD & N & EN & C & _ & _ & ->). cbn [c_ks].
  destruct (hxc_frame _ _ _ _ X) as (F & _). pose proof F as (_ & _ & _ & FP & _ & _ & FV & _).
  apply density_inv in DD. destruct DD as (sol' & n0 & -> & W & W' & _).
  apply energy_keep in EN. destruct EN as (E' & V & ->). apply chempot_keep in C. destruct C as (u & ->).
  exists ve, vh. cbn [set_u set_EV set_n set_sol set_veffs k_vext k_vhxc k_sol k_vnuc k_veff k_lv k_cols] in *.
  split; auto. split; auto. apply distribute_scf_ok in D. destruct D as (D1 & _). split.
  - intros i j Hp x. destruct (W i j Hp) as (r' & _ & ->). cbn [set_result s_veff]. destruct (D1 i j Hp) as (_ & ->). reflexivity.
  - rewrite <- FP, <- FV. reflexivity.
Qed.

(** * construction *)
Lemma Pssolver_spec : forall lv cols Nmo N opt sol, Pssolver lv cols Nmo N opt = Ok sol -> forall i j, (i < lv)%nat -> (j < cols)%nat ->
  i_solver_init (Nmo i j) (N i j) i cols opt = Ok (sol i j).
Proof. intros lv cols Nmo N opt sol H. rewrite Pssolver_fill in H. apply fillI_ok in H. apply H. Qed.
Lemma Pssolver_minus1 : forall lv cols Nmo N o c i j, configure SolverOptions o = Ok c -> (i < lv)%nat -> (j < cols)%nat -> N i j = -1 ->
  Pssolver lv cols Nmo N o = Err AttributeError.
Proof.
  intros lv cols Nmo N o c i j C Hi Hj HN. rewrite Pssolver_fill. destruct (fillI _ _ _ _) as [s|e] eqn:E.
  - exfalso. apply fillI_ok in E. destruct E as (E & _). specialize (E i j Hi Hj). cbv beta in E. unfold i_solver_init in E. rewrite C in E. cbn [bind] in E.
    destruct (Req_EM_T (N i j) (-1)); [discriminate|contradiction].
  - apply fillI_err in E. destruct E as (p & q & _ & _ & E). cbv beta in E. unfold i_solver_init in E. rewrite C in E. cbn [bind] in E.
    destruct (Req_EM_T (N p q) (-1)); [|discriminate]. injection E as <-. reflexivity.
Qed.
Lemma init_spec : forall g Za Zb pol lv cols Nmo lv' cols' N opt k, ks_init g Za Zb pol lv cols Nmo lv' cols' N opt = Ok k ->
  exists o, configure KohnShamOptions opt = Ok o /\ lv' = lv /\ cols' = cols /\
  k_Za k = Za /\ k_Zb k = Zb /\ k_pol k = pol /\ k_lv k = lv /\ k_cols k = cols /\
  o_int (k_opt k) = getS o "interaction_type" /\ o_sym (k_opt k) = getB o "sym" /\ o_frac (k_opt k) = getB o "fractional" /\
  o_xid (k_opt k) = Z.to_nat (getZ o "xfunc_id") /\ o_cid (k_opt k) = Z.to_nat (getZ o "cfunc_id") /\ o_fam (k_opt k) = getS o "xc_family" /\
  k_vext k = None /\ k_vhxc k = None /\ k_veff k = None /\ k_n k = None /\ k_u k = None /\ k_E k = None /\
  (forall i j, place k i j -> N i j <> -1 /\ s_m (k_sol k i j) = Z.of_nat i /\ s_pol (k_sol k i j) = cols /\ s_N (k_sol k i j) = N i j /\
     s_Nmo (k_sol k i j) = Nmo i j /\ s_frac (k_sol k i j) = getB o "fractional" /\ s_sym (k_sol k i j) = getB o "sym" /\
     s_phi (k_sol k i j) = None /\ s_eig (k_sol k i j) = None).
Proof.
  intros g Za Zb pol lv cols Nmo lv' cols' N opt k H. unfold ks_init in H.
  destruct (configure KohnShamOptions opt) as [o|] eqn:C; [|discriminate]. cbn [bind] in H.
  destruct (Nat.eqb_spec lv lv'); [|discriminate]. destruct (Nat.eqb_spec cols cols'); [|discriminate]. cbn [andb negb] in H. cbv zeta in H.
  destruct (Pssolver lv cols Nmo N _) as [sol|] eqn:P; [|discriminate]. cbn [bind] in H. injection H as <-.
  exists o. do 20 (split; [solve [auto]|]). intros i j (Hi & Hj). cbn [k_lv k_cols k_sol] in *.
  pose proof (Pssolver_spec _ _ _ _ _ _ P i j Hi Hj) as Q. apply init_solver in Q. destruct Q as (c & C' & Q).
  destruct (solver_config (getB o "fractional") (getB o "sym")) as (c' & C2 & F1 & F2). rewrite C2 in C'. injection C' as <-.
  rewrite F1, F2 in Q. destruct Q as (Q1 & Q2 & Q3 & Q4 & Q5 & Q6 & Q7 & Q8 & Q9). repeat split; auto.
Qed.
Lemma init_minus1 : forall g Za Zb pol lv cols Nmo N opt o i j, configure KohnShamOptions opt = Ok o -> (i < lv)%nat -> (j < cols)%nat ->
  N i j = -1 -> ks_init g Za Zb pol lv cols Nmo lv cols N opt = Err AttributeError.
Proof.
  intros g Za Zb pol lv cols Nmo N opt o i j C Hi Hj HN. unfold ks_init. rewrite C. cbn [bind]. rewrite !Nat.eqb_refl. cbn [andb negb]. cbv zeta.
  destruct (solver_config (getB o "fractional") (getB o "sym")) as (c & C2 & _).
  rewrite (Pssolver_minus1 lv cols Nmo N _ c i j C2 Hi Hj HN). reflexivity.
Qed.
Lemma init_shape : forall g Za Zb pol lv cols Nmo lv' cols' N opt o, configure KohnShamOptions opt = Ok o -> (lv', cols') <> (lv, cols) ->
  ks_init g Za Zb pol lv cols Nmo lv' cols' N opt = Err AssertionError.
Proof.
  intros. unfold ks_init. rewrite H. cbn [bind]. destruct (Nat.eqb_spec lv lv'), (Nat.eqb_spec cols cols'); simpl; auto. subst. congruence.
Qed.
Lemma init_unknown : forall g Za Zb pol lv cols Nmo lv' cols' N opt key, In key (map fst opt) -> ~ In (lower key) (map f_name KohnShamOptions) ->
  ks_init g Za Zb pol lv cols Nmo lv' cols' N opt = Err ValueError.
Proof. intros. unfold ks_init. rewrite (configure_unknown KohnShamOptions opt key); auto. Qed.
(** * runs that cannot fail *)
Lemma forN_total : forall (S : Type) (P : nat -> S -> Prop) n f s, P 0%nat s ->
  (forall i x, (i < n)%nat -> P i x -> exists y, f i x = Ok y /\ P (Datatypes.S i) y) -> exists s', forN n f s = Ok s' /\ P n s'.
Proof.
  induction n as [|n IH]; intros f s H0 HS; cbn [forN].
  - eauto.
  - destruct (IH f s H0) as (s1 & E & H1); [intros; apply HS; auto|]. rewrite E. cbn [bind]. apply HS; auto.
Qed.
Lemma enough_c : forall s c, s_N s <= INR c * shell_size (s_m s) (s_pol s) -> enough s c.
Proof.
  intros s c H i Hi. pose proof (shell_size_pos (s_m s) (s_pol s)) as P. unfold filling, aufbau in Hi.
  assert (X : s_N s / shell_size (s_m s) (s_pol s) <= INR c).
  { apply Rmult_le_reg_r with (shell_size (s_m s) (s_pol s)); [lra|]. unfold Rdiv. rewrite Rmult_assoc, Rinv_l by lra. lra. }
  apply INR_lt. destruct (s_frac s).
  - unfold Rmin, Rmax in Hi. destruct (Rle_dec 0 (s_N s / shell_size (s_m s) (s_pol s) - INR i)); destruct Rle_dec; lra.
  - destruct Rle_dec; lra.
Qed.
Lemma homo_total : forall s c e, 0 <= s_N s -> s_eig s = Some (c, e) -> s_N s <= INR c * shell_size (s_m s) (s_pol s) -> exists u, get_homo s = Ok u.
Proof.
  intros s c e H He Hc. rewrite get_homo_form by auto. cbv zeta. pose proof (shell_size_pos (s_m s) (s_pol s)) as P.
  assert (X : shx s <= INR c).
  { unfold shx. apply Rmult_le_reg_r with (shell_size (s_m s) (s_pol s)); [lra|]. unfold Rdiv. rewrite Rmult_assoc, Rinv_l by lra. lra. }
  destruct (nfull_bounds s H) as (_ & B1 & B2).
  set (n := (nfull s + (if nonzero (shx s - INR (nfull s)) then 1 else 0))%nat).
  assert (Hn : (n <= c)%nat).
  { unfold n. destruct (nonzero (shx s - INR (nfull s))) eqn:Z.
    - apply nonzero_spec in Z. assert (nfull s < c)%nat by (apply INR_lt; lra). lia.
    - assert (nfull s <= c)%nat by (apply INR_le; lra). lia. }
  destruct (Nat.eqb_spec n 0); [eauto|]. unfold eig_at. rewrite He. unfold pyidx.
  destruct (Z.leb_spec 0 (Z.of_nat (n - 1))); [|lia]. destruct (Z.ltb_spec (Z.of_nat (n - 1)) (Z.of_nat c)); [|lia]. cbn [andb bind]. eauto.
Qed.

Section Total.
  Variables (g : grid) (w : env) (k : ks).
  Hypothesis HN : (0 < Nelem g)%nat.
  Hypothesis HC : capable w k.
  Hypothesis HX : hxc_available g w k.
  Hypothesis HP : (1 <= k_cols k <= k_pol k)%nat.
  Hypothesis HL : (1 <= k_lv k)%nat.

  (** solver state after a diagonalisation *)
  Definition solved (s : solver) : Prop := 0 <= s_N s /\ exists c e p, s_phi s = Some (c, p) /\ s_eig s = Some (c, e) /\
    s_N s <= INR c * shell_size (s_m s) (s_pol s).
  Lemma capable_frame : forall k', frame k k' -> capable w k'.
  Proof.
    intros k' F it i j s Hp Hs. apply (HC it i j s).
    - apply (place_frame _ _ i j F). auto.
    - destruct F as (_ & _ & _ & _ & _ & _ & _ & F). eapply same_static_trans; eauto.
  Qed.
  Lemma density_total : forall k' it dif l, frame k k' -> schedule k' l -> exists k2 n, ks_density g w it dif l k' = Ok (k2, n) /\
    forall i j, place k2 i j -> solved (k_sol k2 i j).
  Proof.
    intros k' it dif l F SC. pose proof (capable_frame k' F) as C. unfold ks_density.
    destruct (collect k' _) as [sol|e] eqn:E.
    - apply collect_ok in E. destruct E as (E1 & E2).
      assert (S : forall i j, place k' i j -> solved (sol i j)).
      { intros i j Hp. destruct (E1 i j Hp) as (r & R1 & ->).
        destruct (C (use_iter it dif) i j (k_sol k' i j) Hp (same_static_refl _)) as (HN0 & c & e & p & R2 & HB). rewrite R1 in R2. injection R2 as ->.
        split; [exact HN0|]. exists c, e, p. repeat split; auto. }
      cbn [bind]. pose proof F as (_ & _ & _ & FP & FL & FC & _).
      assert (Q : exists n, sum_dens g k' sol = Ok n).
      { unfold sum_dens. destruct (forN_total _ (fun _ _ => True) (k_cols k')
          (fun j n => forN (k_lv k') (fun i n => do d <- calc_density g (sol i j); if (j <? k_pol k')%nat then Ok (fun x s => if (s =? j)%nat then n x s + d x else n x s) else Err IndexError) n)
          (fun _ _ => 0) Logic.I) as (n & En & _); [|eauto].
        intros j x Hj _. destruct (forN_total _ (fun _ _ => True) (k_lv k')
          (fun i n => do d <- calc_density g (sol i j); if (j <? k_pol k')%nat then Ok (fun x s => if (s =? j)%nat then n x s + d x else n x s) else Err IndexError) x Logic.I) as (n & En & _); [|eauto].
        intros i y Hi _. destruct (S i j (conj Hi Hj)) as (N0 & c & e & p & S1 & S2 & S3).
        destruct (calc_density_ok g (sol i j) c p N0 S1 (enough_c _ _ S3)) as (d & -> & _). cbn [bind].
        destruct (Nat.ltb_spec j (k_pol k')); [eauto|lia]. }
      destruct Q as (n & ->). cbn [bind]. eexists _, _. split; [reflexivity|]. intros i j Hp. apply S. exact Hp.
    - exfalso.
      assert (E' : fillJ (k_cols k') (k_lv k') (fun i j s => do r <- tget (run_workers (e_worker w (use_iter it dif)) (k_sol k') l) (i, j); Ok (set_result s r)) (k_sol k') = Err e).
      { rewrite <- E. unfold fillJ, collect. apply forN_ext. intros j' s Hj. apply forN_ext. intros i' s' Hi. destruct (tget _ (i', j')); reflexivity. }
      apply fillJ_err in E'. destruct E' as (i & j & Hi & Hj & E'). rewrite run_tget in E'.
      destruct (C (use_iter it dif) i j (k_sol k' i j) (conj Hi Hj) (same_static_refl _)) as (_ & c & e' & p & R2 & _). rewrite R2 in E'.
      rewrite (sched_in k' l i j SC (conj Hi Hj)) in E'. discriminate.
  Qed.
  Lemma energy_loop_total : forall k', (k_cols k' <= k_pol k')%nat -> (forall i j, place k' i j -> solved (k_sol k' i j)) -> exists a, energy_loop g k' = Ok a.
  Proof.
    intros k' HPk S. unfold energy_loop. edestruct (forN_total eacc (fun _ _ => True) (k_lv k')) as (a & Ea & _); [exact Logic.I| |exists a; exact Ea].
    intros i x Hi _. edestruct (forN_total eacc (fun _ _ => True) (k_cols k')) as (b & Eb & _); [exact Logic.I| |exists b; split; [exact Eb|exact Logic.I]].
    intros j y Hj _. destruct (S i j (conj Hi Hj)) as (N0 & c & e & p & S1 & S2 & S3).
    destruct (calc_energy_ok g (k_sol k' i j) c p e N0 S1 S2 (enough_c _ _ S3)) as (d & _ & ->). cbv zeta. cbn [bind]. destruct y as [[[yE yV] yT] yev].
    destruct (Nat.ltb_spec j (k_pol k')); [eauto|lia].
  Qed.
  Lemma energy_total : forall k', frame k k' -> (forall i j, place k' i j -> solved (k_sol k' i j)) ->
    (exists n, k_n k' = Some n) -> (exists v, k_vext k' = Some v) -> (exists v, k_vhxc k' = Some v) -> exists k2, ks_energy g w k' = Ok k2.
  Proof.
    intros k' F S (n & N) (ve & V) (vh & X). pose proof F as (FO & _ & _ & FP & FL & FC & _). unfold ks_energy.
    destruct (energy_loop_total k') as ([[[aE aV] aT] ev] & ->); [lia|auto|]. cbn [bind]. rewrite N, V, X, FO, FP. cbn [need bind]. cbv zeta.
    destruct (String.eqb_spec (o_int (k_opt k)) "ni"); [eauto|]. destruct HX as [HX1|HX1]; [contradiction|].
    destruct (HX1 n) as (x & c & h & -> & -> & ->). cbn [bind]. destruct x as [[? ?] ?], c as [[? ?] ?]. eauto.
  Qed.
  Lemma chempot_total : forall k', frame k k' -> (forall i j, place k' i j -> solved (k_sol k' i j)) -> exists k2, calc_chempot k' = Ok k2.
  Proof.
    intros k' F S. pose proof F as (FO & _ & _ & FP & FL & FC & _). unfold calc_chempot.
    edestruct (forN_total (list R) (fun i l => (0 < i)%nat -> l <> []) (k_lv k')) as (l & -> & Hl); [lia| |].
    2:{ cbn [bind]. destruct l as [|a l]; [exfalso; apply Hl; auto; lia|]. cbn [pymaxR bind]. eauto. }
    intros i x Hi _. edestruct (forN_total (list R) (fun j l => (0 < j)%nat -> l <> []) (k_cols k')) as (b & Eb & Hb); [lia| |exists b; split; [exact Eb|intros _; apply Hb; lia]].
    intros j y Hj _. destruct (S i j (conj Hi Hj)) as (N0 & c & e & p & S1 & S2 & S3).
    destruct (homo_total _ c e N0 S2 S3) as (u & ->). cbn [bind]. eexists. split; [reflexivity|]. intros _ Q. apply app_eq_nil in Q. destruct Q; discriminate.
  Qed.
  Lemma hxc_total : forall k', frame k k' -> (exists n, k_n k' = Some n) -> (exists v, k_vext k' = Some v) -> exists k2, calc_hxc_potential g w k' = Ok k2.
  Proof.
    intros k' F (n & N) (ve & V). pose proof F as (FO & _ & _ & FP & FL & FC & _). unfold calc_hxc_potential. rewrite N, V, FO, FP. cbn [need bind].
    destruct (String.eqb_spec (o_int (k_opt k)) "ni"); [cbn [bind]; eauto|]. destruct HX as [HX1|HX1]; [contradiction|].
    destruct (HX1 n) as (x & c & h & -> & -> & ->). cbn [bind]. eauto.
  Qed.
  Lemma residual_total : forall pol E oldE n old, (1 <= pol)%nat -> exists r, residual g pol E oldE n old = Ok r.
  Proof.
    intros pol E oldE n old Hp. unfold residual, dens_residual, integrate. destruct (Nat.eqb_spec pol 1); cbn [bind]; [eauto|].
    destruct (Nelem g) eqn:Q; [lia|]. destruct pol; [lia|]. simpl. eauto.
  Qed.
  Lemma schedule_frame : forall k' l, frame k k' -> schedule k l -> schedule k' l.
  Proof.
    intros k' l F (S1 & S2). split; auto. intros i j. rewrite S2. symmetry. apply place_frame. auto.
  Qed.
  Lemma body_total : forall o l st, so_auto o = false -> schedule k l -> frame k (c_ks st) -> (exists n, k_n (c_ks st) = Some n) -> (exists v, k_vext (c_ks st) = Some v) ->
    exists st', scf_body g w o l st = Ok st'.
  Proof.
    intros o l st HA SC F HNn HV. unfold scf_body.
    destruct (hxc_total _ F HNn HV) as (k1 & E1). rewrite E1. cbn [bind].
    destruct (hxc_frame _ _ _ _ E1) as (F1 & K1 & K2 & K3). pose proof (frame_trans _ _ _ F F1) as F2.
    destruct HNn as (n & N). destruct HV as (ve & V). rewrite K2, V. cbn [need bind].
    apply hxc_inv in E1. destruct E1 as (V' & v & Ek1 & _).
    assert (X : exists vh, k_vhxc k1 = Some vh) by (rewrite Ek1; cbn [set_vhxc k_vhxc]; eauto). destruct X as (vh & X). rewrite X. cbn [need bind].
    pose proof F2 as (FO & _ & _ & FP & FL & FC & _).
    destruct (distribute_scf_total k1 (add3 (k_vnuc k1) ve vh)) as (sol & D); [lia|]. rewrite D. cbn [bind]. cbv zeta.
    set (v2 := if so_flip o then _ else _). set (k2 := set_sol (set_veffs k1 (Some v2)) sol).
    assert (F3 : frame k k2).
    { apply (frame_trans _ _ _ F2). unfold k2. apply (frame_trans _ (set_veffs k1 (Some v2))).
      - repeat split.
      - apply frame_sol. exact (distribute_scf_static k1 _ _ D). }
    destruct (density_total k2 (so_iter o) (if so_iter o && so_cont o then Fin 0 else c_diff st) l F3 (schedule_frame _ _ F3 SC)) as (k3 & nout & DE & S).
    rewrite DE. cbn [bind]. pose proof (density_frame _ _ _ _ _ _ _ _ DE) as F4. apply density_inv in DE. destruct DE as (sol' & n0 & -> & _).
    assert (N3 : k_n (set_sol k2 sol') = Some n) by (cbn [set_sol k_n]; unfold k2; cbn [set_sol set_veffs k_n]; rewrite K1; exact N).
    rewrite N3. cbn [need bind].
    set (n' := if so_flip o then flip_avg g (k_pol k1) _ else _).
    assert (F5 : frame k (set_n (set_sol k2 sol') (Some n'))).
    { apply (frame_trans _ _ _ F3). apply (frame_trans _ _ _ F4). repeat split. }
    destruct (energy_total (set_n (set_sol k2 sol') (Some n')) F5) as (k4 & E4); [exact S|exists n'; reflexivity| | |].
    { exists ve. unfold k2. cbn [set_n set_sol set_veffs k_vext]. rewrite K2. exact V. }
    { exists vh. unfold k2. cbn [set_n set_sol set_veffs k_vhxc]. exact X. }
    rewrite E4. cbn [bind]. destruct (energy_keep _ _ _ _ E4) as (EE & VV & ->).
    destruct (chempot_total (set_EV (set_n (set_sol k2 sol') (Some n')) (Some EE) VV)) as (k5 & E5); [|exact S|].
    { apply (frame_trans _ _ _ F5). repeat split. }
    rewrite E5. cbn [bind]. destruct (chempot_keep _ _ E5) as (u & ->). cbn [set_u set_EV k_E need bind].
    destruct (residual_total (k_pol k1) (E_E EE) (c_oldE st) n' (c_oldn st)) as (r & ->); [lia|]. cbn [bind]. rewrite HA. eauto.
  Qed.
  Lemma start_total : forall o l, schedule k l -> (so_cont o = true -> k_n k <> None) -> exists k0, scf_start g w o l k = Ok k0 /\
    frame k k0 /\ (exists n, k_n k0 = Some n) /\ (exists v, k_vext k0 = Some v).
  Proof.
    intros o l SC HCo. unfold scf_start. cbv zeta. set (ve := match k_vext k with None => _ | Some v => v end). destruct (so_cont o).
    - destruct (k_n k) as [n|] eqn:N; [|exfalso; apply HCo; auto]. cbn [need bind]. eexists. split; [reflexivity|].
      split; [repeat split|]. split; [exists n; exact N|exists ve; reflexivity].
    - set (ka := set_vhxc (set_vext k (Some ve)) (Some (fun _ _ => 0))).
      destruct (eff_pot_total ka ve (fun _ _ => 0) eq_refl eq_refl) as (k1 & E1); [exact (proj2 HP)|]. rewrite E1. cbn [bind].
      assert (F1 : frame k k1).
      { unfold set_effective_potential in E1. cbn [ka set_vhxc set_vext k_vext k_vhxc need bind] in E1. cbv zeta in E1.
        destruct (distribute _ _) as [sol|] eqn:D; [|discriminate]. cbn [bind] in E1. injection E1 as <-.
        pose proof (distribute_static _ _ _ D) as DS. apply (frame_trans _ (set_veffs ka (Some (add3 (k_vnuc ka) ve (fun _ _ => 0))))); [repeat split|].
        apply frame_sol. exact DS. }
      destruct (density_total k1 false (Fin 0) l F1 (schedule_frame _ _ F1 SC)) as (k2 & n & D & _). rewrite D. cbn [bind].
      eexists. split; [reflexivity|]. pose proof (density_frame _ _ _ _ _ _ _ _ D) as F2. split; [|split].
      + apply (frame_trans _ _ _ F1). apply (frame_trans _ _ _ F2). repeat split.
      + exists n. reflexivity.
      + apply density_inv in D. destruct D as (sol & n0 & -> & _). cbn [set_n set_sol k_vext]. apply eff_pot in E1.
        destruct E1 as (ve' & vh' & E1 & _ & _ & _ & _ & _ & E2 & _). rewrite E2. eauto.
  Qed.
  Lemma loop_total : forall o sched fuel st, so_auto o = false -> (forall t, schedule k (sched t)) -> frame k (c_ks st) ->
    (exists n, k_n (c_ks st) = Some n) -> (exists v, k_vext (c_ks st) = Some v) -> exists st', scf_loop g w o sched fuel st = Ok st'.
  Proof.
    intros o sched fuel. induction fuel as [|f IH]; intros st HA SC F N V; cbn [scf_loop]; [eauto|].
    unfold scf_test. rewrite HA.
    assert (B : exists st', (do st' <- scf_body g w o (sched (c_iter st)) st; scf_loop g w o sched f st') = Ok st').
    { destruct (body_total o (sched (c_iter st)) st HA (SC _) F N V) as (st1 & E). rewrite E. cbn [bind]. apply IH; auto.
      - apply (frame_trans _ _ _ F). apply body_frame in E. apply E.
      - apply body_frame in E. destruct E as (_ & _ & E). eauto.
      - apply body_solver_potential in E. destruct E as (ve & vh & E & _). eauto. }
    destruct (gtb (c_diff st) (Fin (so_tol o))); cbn [bind]; [|eauto].
    destruct (c_iter st <? so_maxiter o)%Z; [exact B|eauto].
  Qed.
  Lemma scf_total : forall sched d o, scf_options d = Ok o -> so_auto o = false -> (forall t, schedule k (sched t)) ->
    (so_cont o = true -> k_n k <> None) -> exists st, ks_scf g w sched d k = Ok st.
  Proof.
    intros sched d o HO HA SC HCo. unfold ks_scf. rewrite HO. cbn [bind].
    destruct (start_total o (sched 0%Z) (SC _) HCo) as (k0 & E & F & N & V). rewrite E. cbn [bind]. apply loop_total; auto.
  Qed.
End Total.
