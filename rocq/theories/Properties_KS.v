(** Properties C28 (chemical potential), C35 to C44 and C73: the Kohn-Sham object and its SCF loop. *)
From Coq Require Import Reals List Arith Lia Lra ZArith Bool String.
From Verif Require Import Base BaseLemmas GridModel GridSpec GridProofs NCProofs AxisProofs GridWitness HartreeModel SolverModel SolverSpec SolverProofs SolverThms
  SolverWitness SolverCases LibxcModel OptionsModel OptionsProofs OptionsMore KSModel KSSpec KSProofs KSThms KSLoop KSEnergy KSTotal KSWit.
Import ListNotations.
Local Open Scope R_scope.
Local Opaque sinh cosh.

(** * C28: chemical potential *)
Theorem C28_chempot_is_max : forall k k', calc_chempot k = Ok k' ->
  exists u, k' = set_u k (Some u) /\ (exists i j, place k i j /\ get_homo (k_sol k i j) = Ok u) /\
  forall i j, place k i j -> exists h, get_homo (k_sol k i j) = Ok h /\ h <= u.
Proof. exact chempot_spec. Qed.
Print Assumptions C28_chempot_is_max.
Theorem C28_chempot_no_solvers : forall k, (k_lv k = 0 \/ k_cols k = 0)%nat -> calc_chempot k = Err ValueError.
Proof. exact chempot_empty. Qed.
Print Assumptions C28_chempot_no_solvers.

(** * C35 *)
Theorem C35_schedule_independent : forall g w it dif k l l', schedule k l -> schedule k l' ->
  ks_density g w it dif l k = ks_density g w it dif l' k.
Proof. exact density_schedule. Qed.
Print Assumptions C35_schedule_independent.
Theorem C35_start_order_is_a_schedule : forall k, schedule k (keys k).
Proof. exact keys_schedule. Qed.
Print Assumptions C35_start_order_is_a_schedule.
Theorem C35_dead_worker_KeyError : forall g w it dif k l i j, place k i j ->
  (e_worker w (use_iter it dif) (k_sol k i j) = None \/ ~ In (i, j) l) -> ks_density g w it dif l k = Err KeyError.
Proof. exact density_crash. Qed.
Print Assumptions C35_dead_worker_KeyError.
(** every solver ends up with the result of the worker that was started with that solver *)
Theorem C35_delivery : forall g w it dif l k k' n, ks_density g w it dif l k = Ok (k', n) ->
  (forall i j, place k i j -> exists e p, e_worker w (use_iter it dif) (k_sol k i j) = Some (e, p) /\
     with_orbitals (k_sol k i j) (k_sol k' i j) (Some e) p) /\
  (forall i j, ~ place k i j -> k_sol k' i j = k_sol k i j) /\
  k_veff k' = k_veff k /\ k_n k' = k_n k /\ k_vhxc k' = k_vhxc k /\ k_vext k' = k_vext k /\ k_E k' = k_E k.
Proof.
  intros g w it dif l k k' n H. apply density_inv in H. destruct H as (sol & n0 & -> & W & W' & _). split; [|split; [exact W'|repeat split]].
  intros i j Hp. destruct (W i j Hp) as ((e & p) & E & S). exists e, p. split; auto. cbn [set_sol k_sol]. rewrite S. repeat split.
Qed.
Print Assumptions C35_delivery.
(** dif below 0.01 switches to the iterative solver, if allowed *)
Theorem C35_solver_choice : forall it dif, use_iter it dif = true <-> it = true /\ (dif = NInf \/ exists r, dif = Fin r /\ r < 1 / 100).
Proof.
  assert (F : forall P : Prop, (P -> False) -> (false = true <-> P)) by (intros P Q; split; [discriminate|intros R; destruct (Q R)]).
  intros it dif. unfold use_iter, gtb. destruct it; cbn [andb].
  - destruct dif as [r| | |]; try (apply F; intros (_ & [Q|(q & Q & _)]); discriminate).
    + destruct (Rlt_dec r (1 / 100)) as [L|L].
      * split; auto. intros _. split; auto. right. eauto.
      * apply F. intros (_ & [Q|(q & Q & L')]); [discriminate|]. injection Q as <-. contradiction.
    + split; auto.
  - apply F. intros (Q & _). discriminate.
Qed.
Print Assumptions C35_solver_choice.
(** two different finishing orders of two workers *)
Lemma C35_witness : exists k k' n, ks_init g22 1 1 2 1 2 (fun _ _ => 1%nat) 1 2 ex_N ex_opt = Ok k /\ schedule k (keys k) /\ schedule k (rev (keys k)) /\ rev (keys k) <> keys k /\ ks_density g22 ex_env true (Fin 0) (keys k) k = Ok (k', n).
Proof.
  destruct ex_init as (k & H). destruct (ex_capable k H) as (C1 & C2 & C3 & C4). destruct (ex_static k H) as (P & C & L & OS & OI & OF & S).
  destruct (density_total g22 ex_env k) with (k' := k) (it := true) (dif := Fin 0) (l := keys k) as (k' & n & D & _); auto; try (rewrite ?g22_n; lia); [apply frame_refl|apply keys_schedule|].
  exists k, k', n. split; [exact H|]. split; [apply keys_schedule|]. split; [|split; [unfold keys; rewrite L, C; discriminate|exact D]].
  destruct (keys_schedule k) as (N & I1). split; [apply NoDup_rev, N|]. intros i j. rewrite <- in_rev. apply I1.
Qed.

(** * C36 *)
Theorem C36_electrons_per_spin : forall g w it dif l k k' n, worker_ok g w -> (o_sym (k_opt k) = true -> mirror_invariant g) ->
  (forall i j, place k i j -> placed (k_sol k i j)) -> ks_density g w it dif l k = Ok (k', n) ->
  forall j, (j < k_cols k)%nat -> integrate1 g (fun x => n x j) = electrons k j.
Proof. exact density_electrons. Qed.
Print Assumptions C36_electrons_per_spin.
Theorem C36_equal_blocks_suffice : forall g, grid_ok g -> lstsq_ok g -> gNMa g = gNMr g -> (2 <= gNMa g)%nat -> mirror_invariant g.
Proof. exact mirror_invariant_blocks. Qed.
Print Assumptions C36_equal_blocks_suffice.
Theorem C36_density_nonneg : forall g w it dif l k k' n, worker_ok g w ->
  (forall i j, place k i j -> placed (k_sol k i j)) -> ks_density g w it dif l k = Ok (k', n) ->
  forall x j, (x < Nelem g)%nat -> 0 <= n x j.
Proof. exact density_nonneg_all. Qed.
Print Assumptions C36_density_nonneg.
(** one electron of each spin on the 2 x 2 grid *)
Lemma C36_witness : exists k k' n, ks_init g22 1 1 2 1 2 (fun _ _ => 1%nat) 1 2 ex_N ex_opt = Ok k /\
  worker_ok g22 ex_env /\ (o_sym (k_opt k) = true -> mirror_invariant g22) /\ (forall i j, place k i j -> placed (k_sol k i j)) /\
  ks_density g22 ex_env true (Fin 0) (keys k) k = Ok (k', n) /\ electrons k 0 = 1 /\ electrons k 1 = 1.
Proof.
  destruct ex_init as (k & H). destruct (ex_capable k H) as (C1 & C2 & C3 & C4). destruct (ex_static k H) as (P & C & L & OS & OI & OF & S).
  destruct (density_total g22 ex_env k) with (k' := k) (it := true) (dif := Fin 0) (l := keys k) as (k' & n & D & _); auto; try (rewrite ?g22_n; lia).
  - apply frame_refl.
  - apply keys_schedule.
  - exists k, k', n. split; auto. split; auto. split; [rewrite OS; discriminate|]. split; auto. split; auto.
    unfold electrons. rewrite L. cbn [sumR]. rewrite (proj1 (proj2 (proj2 (S 0%nat 0%nat ltac:(split; lia))))), (proj1 (proj2 (proj2 (S 0%nat 1%nat ltac:(split; lia))))). split; ring.
Qed.

(** * C37 *)
Theorem C37_electrons_every_iteration : forall g w o sched k, worker_ok g w -> (o_sym (k_opt k) = true -> mirror_invariant g) ->
  (forall i j, place k i j -> placed (k_sol k i j)) -> so_flip o = false ->
  (so_cont o = true -> forall n j, k_n k = Some n -> (j < k_cols k)%nat -> integrate1 g (fun x => n x j) = electrons k j) ->
  forall st, scf_trace g w o sched k st -> exists n, k_n (c_ks st) = Some n /\
    forall j, (j < k_cols k)%nat -> integrate1 g (fun x => n x j) = electrons k j.
Proof. exact trace_count. Qed.
Print Assumptions C37_electrons_every_iteration.
Theorem C37_spinflip_total : forall g w o sched k, worker_ok g w -> (o_sym (k_opt k) = true -> mirror_invariant g) ->
  (forall i j, place k i j -> placed (k_sol k i j)) -> so_flip o = true -> mirror_invariant g -> k_pol k = 2%nat -> k_cols k = 2%nat ->
  (so_cont o = true -> forall n, k_n k = Some n -> integrate1 g (fun x => n x 0%nat) + integrate1 g (fun x => n x 1%nat) = electrons k 0 + electrons k 1) ->
  forall st, scf_trace g w o sched k st -> exists n, k_n (c_ks st) = Some n /\
    integrate1 g (fun x => n x 0%nat) + integrate1 g (fun x => n x 1%nat) = electrons k 0 + electrons k 1.
Proof. exact trace_total. Qed.
Print Assumptions C37_spinflip_total.
Theorem C37_nonneg_every_iteration : forall g w o sched k, worker_ok g w ->
  (forall i j, place k i j -> placed (k_sol k i j)) -> 0 <= so_alpha o <= 1 ->
  (so_cont o = true -> forall n x s, k_n k = Some n -> (x < Nelem g)%nat -> 0 <= n x s) ->
  forall st, scf_trace g w o sched k st -> exists n, k_n (c_ks st) = Some n /\ forall x s, (x < Nelem g)%nat -> 0 <= n x s.
Proof. exact trace_nonneg. Qed.
Print Assumptions C37_nonneg_every_iteration.
(** one iteration mixes the previous density with the new output density *)
Theorem C37_mixing_rule : forall g w o l st st', so_flip o = false -> scf_body g w o l st = Ok st' ->
  exists k2 k3 n nout n', frame (c_ks st) k2 /\ k_n (c_ks st) = Some n /\
    ks_density g w (so_iter o) (if so_iter o && so_cont o then Fin 0 else c_diff st) l k2 = Ok (k3, nout) /\
    k_n (c_ks st') = Some n' /\ forall x s, n' x s = (1 - so_alpha o) * n x s + so_alpha o * nout x s.
Proof.
  intros g w o l st st' HF B. destruct (body_mix _ _ _ _ _ _ B) as (k2 & k3 & n & nout & F & N & D & N'). rewrite HF in N'.
  exists k2, k3, n, nout, (mixed o n nout). repeat (split; [assumption|]). reflexivity.
Qed.
Print Assumptions C37_mixing_rule.
(** with spinflipsym and two columns the new density is the mixture averaged with its mirror image in the other column,
    so the two columns are mirror images of each other *)
Theorem C37_spinflip_mixing : forall g w o l st st', so_flip o = true -> k_pol (c_ks st) = 2%nat -> scf_body g w o l st = Ok st' ->
  exists k2 k3 n nout n', frame (c_ks st) k2 /\ k_n (c_ks st) = Some n /\
    ks_density g w (so_iter o) (if so_iter o && so_cont o then Fin 0 else c_diff st) l k2 = Ok (k3, nout) /\ k_n (c_ks st') = Some n' /\
    forall ia ir s, is_point g ia ir -> (s < 2)%nat -> let k := pos g ia ir in let k' := pos g (Na g - 1 - ia) ir in
      n' k s = ((1 - so_alpha o) * n k s + so_alpha o * nout k s + ((1 - so_alpha o) * n k' (1 - s)%nat + so_alpha o * nout k' (1 - s)%nat)) / 2 /\
      n' k s = n' k' (1 - s)%nat.
Proof.
  intros g w o l st st' HF HP B. destruct (body_mix _ _ _ _ _ _ B) as (k2 & k3 & n & nout & F & N & D & N'). rewrite HF, HP in N'.
  exists k2, k3, n, nout, (flip_avg g 2 (mixed o n nout)). repeat (split; [assumption|]).
  assert (Q : forall ia ir s, is_point g ia ir -> (s < 2)%nat -> flip_avg g 2 (mixed o n nout) (pos g ia ir) s = (mixed o n nout (pos g ia ir) s + mixed o n nout (pos g (Na g - 1 - ia) ir) (1 - s)%nat) / 2).
  { intros ia ir s P Hs. rewrite flip_col by (apply pos_lt; auto). rewrite mirror1_pos by auto. reflexivity. }
  intros ia ir s P Hs. cbv zeta. split; [rewrite Q by auto; reflexivity|]. rewrite Q by auto.
  assert (P' : is_point g (Na g - 1 - ia) ir) by (destruct P; split; lia). rewrite Q by (auto; lia).
  replace (Na g - 1 - (Na g - 1 - ia))%nat with ia by (destruct P; lia). replace (1 - (1 - s))%nat with s by lia. lra.
Qed.
Print Assumptions C37_spinflip_mixing.
(** the object left behind by scf is one of the visited states *)
Theorem C37_final_state_visited : forall g w sched d k st, ks_scf g w sched d k = Ok st ->
  exists o, scf_options d = Ok o /\ scf_trace g w o sched k st.
Proof. intros g w sched d k st H. destruct (scf_inv _ _ _ _ _ _ H) as (o & A & B & _). eauto. Qed.
Print Assumptions C37_final_state_visited.
(** a run of several passes of two electrons *)
Lemma C37_witness : exists k o st, ks_init g22 1 1 2 1 2 (fun _ _ => 1%nat) 1 2 ex_N ex_opt = Ok k /\ worker_ok g22 ex_env /\ (o_sym (k_opt k) = true -> mirror_invariant g22) /\ (forall i j, place k i j -> placed (k_sol k i j)) /\
  so_flip o = false /\ so_cont o = false /\ so_alpha o = 1 / 2 /\ scf_trace g22 ex_env o (fun _ => keys k) k st /\ electrons k 0 = 1 /\ electrons k 1 = 1.
Proof.
  destruct ex_init as (k & H). destruct (ex_capable k H) as (C1 & C2 & C3 & C4). destruct (ex_static k H) as (P & C & L & OS & OI & OF & S). set (d := [("maxiter"%string, VZ 7)]). assert (O : exists o, scf_options d = Ok o) by (eexists; reflexivity). destruct O as (o & O). pose proof O as OE. injection OE as OE.
  assert (Q : so_alpha o = 1 / 2 /\ so_flip o = false /\ so_cont o = false /\ so_auto o = false) by (rewrite <- OE; repeat split; reflexivity). destruct Q as (A1 & A2 & A3 & A4).
  edestruct (scf_total g22 ex_env k) with (sched := fun _ : Z => keys k) (d := d) as (st & E); try eassumption; try (intros _; apply keys_schedule); try congruence; try (rewrite ?g22_n; lia).
  destruct (scf_inv _ _ _ _ _ _ E) as (o' & O' & T & _). rewrite O in O'. injection O' as <-. exists k, o, st. split; [exact H|]. split; [exact C2|]. split; [rewrite OS; discriminate|]. do 4 (split; [assumption|]). split; [exact T|].
  unfold electrons. rewrite L. cbn [sumR]. rewrite (proj1 (proj2 (proj2 (S 0%nat 0%nat ltac:(split; lia))))), (proj1 (proj2 (proj2 (S 0%nat 1%nat ltac:(split; lia))))). split; ring.
Qed.

(** * C38 *)
Theorem C38_bound_and_exit : forall g w sched d k st, ks_scf g w sched d k = Ok st ->
  exists o, scf_options d = Ok o /\ (0 <= c_iter st - 1 <= Z.max 0 (so_maxiter o - 1))%Z /\
  ((c_iter st < so_maxiter o)%Z -> c_diff st = NaN \/ c_diff st = NInf \/ exists r, c_diff st = Fin r /\ r <= so_tol o).
Proof.
  intros g w sched d k st H. destruct (scf_bound _ _ _ _ _ _ H) as (o & A & B & C). exists o. split; auto. split; auto.
  intros Q. apply gtb_false. auto.
Qed.
Print Assumptions C38_bound_and_exit.
(** the stored difference is the residual of the last two densities and energies *)
Theorem C38_difference_is_residual : forall g w o l st st', scf_body g w o l st = Ok st' ->
  exists n E, k_n (c_ks st') = Some n /\ k_E (c_ks st') = Some E /\ c_oldn st' = n /\ c_oldE st' = E_E E /\ c_iter st' = (c_iter st + 1)%Z /\
    residual g (k_pol (c_ks st)) (E_E E) (c_oldE st) n (c_oldn st) = Ok (c_diff st').
Proof.
  intros g w o l st st' H. apply body_inv in H. destruct H as (_ & k1 & ve & vh & sol & k3 & nout & n & k4 & k5 & E & r & H).
  destruct H as (X & E1 & E2 & D & DD & N & EN & C & KE & RR & ->). cbn [c_ks c_oldn c_oldE c_iter c_diff].
  destruct (hxc_frame _ _ _ _ X) as (F & _). pose proof F as (_ & _ & _ & FP & _ & _ & FV & _). rewrite <- FP.
  apply energy_keep in EN. destruct EN as (E' & V & ->). apply chempot_keep in C. destruct C as (u & ->).
  eexists _, E. split; [reflexivity|]. split; auto.
Qed.
Print Assumptions C38_difference_is_residual.
(** a NaN residual ends the loop like convergence does *)
Theorem C38_nan_stops : forall o st, so_auto o = false -> c_diff st = NaN -> scf_test o st = Ok false.
Proof. intros o st HA HD. unfold scf_test. rewrite HD, HA. reflexivity. Qed.
Print Assumptions C38_nan_stops.
Theorem C38_zero_energy_is_nan : forall g n old, (0 < Nelem g)%nat -> residual g 2 (Fin 0) (Fin 0) n old = Ok NaN.
Proof.
  intros g n old HN. assert (E : energy_residual (Fin 0) (Fin 0) = NaN).
  { unfold energy_residual, nsub, nneg, nadd, ndivn, ndiv. destruct (Req_EM_T 0 0); [|congruence].
    destruct (Req_EM_T (0 + - 0) 0) as [|Q]; [reflexivity|exfalso; apply Q; ring]. }
  assert (D : exists dn, dens_residual g 2 n old = Ok dn).
  { unfold dens_residual, integrate. cbn [Nat.eqb]. destruct (Nelem g) eqn:Q; [lia|]. simpl. eauto. }
  destruct D as (dn & D). unfold residual. rewrite D. cbn [bind]. rewrite E. unfold pymax. destruct dn; reflexivity.
Qed.
Print Assumptions C38_zero_energy_is_nan.
(** with auto_tol off, enough workers and a working functional the run completes *)
Theorem C38_completes : forall g w k, (0 < Nelem g)%nat -> capable w k -> hxc_available g w k -> (1 <= k_cols k <= k_pol k)%nat -> (1 <= k_lv k)%nat ->
  forall sched d o, scf_options d = Ok o -> so_auto o = false -> (forall t, schedule k (sched t)) ->
  (so_cont o = true -> k_n k <> None) -> exists st, ks_scf g w sched d k = Ok st.
Proof. exact scf_total. Qed.
Print Assumptions C38_completes.
Lemma C38_witness : exists k st, ks_init g22 1 1 2 1 2 (fun _ _ => 1%nat) 1 2 ex_N ex_opt = Ok k /\
  ks_scf g22 ex_env (fun _ => keys k) [("maxiter"%string, VZ 7)] k = Ok st.
Proof.
  destruct ex_init as (k & H). destruct (ex_capable k H) as (C1 & C2 & C3 & C4). destruct (ex_static k H) as (P & C & L & OS & OI & OF & S).
  edestruct (C38_completes g22 ex_env k) with (sched := fun _ : Z => keys k) (d := [("maxiter"%string, VZ 7)]) as (st & E); try eassumption; try reflexivity; try (intros _; apply keys_schedule); try discriminate; try (rewrite ?g22_n; lia).
  exists k, st. split; auto.
Qed.

(** * C39 *)
Theorem C39_empty_spin_ignored : forall g E oldE n old s, (0 < Nelem g)%nat -> (s < 2)%nat ->
  (forall k, (k < Nelem g)%nat -> n k s = 0) -> (forall k, (k < Nelem g)%nat -> old k s = 0) ->
  dens_residual g 2 n old = Ok NaN /\ residual g 2 E oldE n old = Ok (energy_residual E oldE).
Proof. exact residual_empty_spin. Qed.
Print Assumptions C39_empty_spin_ignored.
Theorem C39_both_spins : forall g E oldE n old, (0 < Nelem g)%nat -> E <> 0 ->
  (forall s, (s < 2)%nat -> 0 < integrate1 g (fun k => Rabs (n k s))) ->
  exists r, residual g 2 (Fin E) (Fin oldE) n old = Ok (Fin r) /\
    forall t, r <= t <-> (Rabs (E - oldE) <= t * Rabs E /\
      forall s, (s < 2)%nat -> integrate1 g (fun k => Rabs (n k s - old k s)) <= t * integrate1 g (fun k => Rabs (n k s))).
Proof. exact residual_two. Qed.
Print Assumptions C39_both_spins.
(** unpolarised: the quadrature weights drop out of the density residual *)
Theorem C39_one_spin_unweighted : forall g n old, sumR (Nelem g) (fun k => gwi g k * gw g k) <> 0 -> iprefac g <> 0 ->
  sumR (Nelem g) (fun k => Rabs (n k 0%nat)) <> 0 ->
  dens_residual g 1 n old = Ok (Fin (sumR (Nelem g) (fun k => Rabs (n k 0%nat - old k 0%nat)) / sumR (Nelem g) (fun k => Rabs (n k 0%nat)))).
Proof. exact residual_one. Qed.
Print Assumptions C39_one_spin_unweighted.
(** a hydrogen-like run: the density of the one occupied spin changes by 100 %, yet the residual is zero *)
Lemma C39_witness : residual g22 2 (Fin (-1)) (Fin (-1)) (fun _ s => if (s =? 0)%nat then 1 else 0) (fun _ s => if (s =? 0)%nat then 2 else 0) = Ok (Fin 0) /\
  forall s, (s < 2)%nat -> 0 < integrate1 g22 (fun k => Rabs ((fun _ _ => 1 : R) k s)).
Proof.
  split.
  - rewrite (proj2 (C39_empty_spin_ignored g22 (Fin (-1)) (Fin (-1)) (fun _ s => if (s =? 0)%nat then 1 else 0) (fun _ s => if (s =? 0)%nat then 2 else 0) 1 ltac:(rewrite g22_n; lia) ltac:(lia) (fun _ _ => eq_refl) (fun _ _ => eq_refl))).
    unfold energy_residual, nsub, nneg, nadd, ndivn, ndiv. destruct (Req_EM_T (-1) 0); [lra|]. cbn [nabs]. do 2 f_equal.
    replace ((-1 + - -1) / -1) with 0 by (field). apply Rabs_R0.
  - intros. apply g22_int_pos. intros. rewrite Rabs_R1. lra.
Qed.

(** * C40 *)
Definition classes : list schema := [KohnShamOptions; SolverOptions; KohnShamSCFOptions; PartitionOptions; PartitionSCFOptions; InverterOptions].
Lemma classes_distinct : forall sc, In sc classes -> NoDup (field_names sc).
Proof.
  intros sc H. destruct schemas_distinct as (D1 & D2 & D3 & D4 & D5 & D6). simpl in H.
  repeat (destruct H as [<-|H]; [assumption|]). contradiction.
Qed.
Theorem C40_accepted_keys_take_effect : forall sc d o, In sc classes -> case_distinct d -> configure sc d = Ok o ->
  (forall f v, In f (field_names sc) -> gives d f v -> dget o f = Some v) /\
  (forall f, In f sc -> silent d (f_name f) -> dget o (f_name f) = Some (f_default f)) /\
  (forall k, In k (keys_of d) -> In (lower k) (field_names sc)).
Proof. intros sc d o HS. apply configure_field. apply classes_distinct. auto. Qed.
Print Assumptions C40_accepted_keys_take_effect.
Theorem C40_unknown_key : forall sc d k, In k (keys_of d) -> ~ In (lower k) (field_names sc) -> configure sc d = Err ValueError.
Proof. exact configure_unknown. Qed.
Print Assumptions C40_unknown_key.
Theorem C40_bad_value : forall sc d f k v, case_distinct d -> In f sc -> In (k, v) d -> lower k = f_name f ->
  value_ok f v = false -> configure sc d = Err ValueError.
Proof. exact configure_bad. Qed.
Print Assumptions C40_bad_value.
Theorem C40_good_dictionary_accepted : forall sc d, (forall k, In k (keys_of d) -> In (lower k) (field_names sc)) ->
  (forall f k v, In f sc -> In (k, v) d -> lower k = f_name f -> value_ok f v = true) -> exists o, configure sc d = Ok o.
Proof. exact configure_accepts. Qed.
Print Assumptions C40_good_dictionary_accepted.
(** accepted exactly when every key names a field, up to case, and every value is of an admissible kind *)
Theorem C40_accepted_iff : forall sc d, In sc classes -> case_distinct d ->
  ((exists o, configure sc d = Ok o) <-> forall k v, In (k, v) d -> exists f, In f sc /\ f_name f = lower k /\ admissible f v).
Proof. exact accepted_iff. Qed.
Print Assumptions C40_accepted_iff.
Theorem C40_refused : forall sc d, In sc classes -> case_distinct d ->
  (exists k v, In (k, v) d /\ forall f, In f sc -> f_name f = lower k -> ~ admissible f v) -> configure sc d = Err ValueError.
Proof. exact refused_is_ValueError. Qed.
Print Assumptions C40_refused.
Theorem C40_case : forall s i, match String.get i s with
  | None => String.get i (lower s) = None
  | Some c => exists c', String.get i (lower s) = Some c' /\ small_of c c' end.
Proof. exact lower_letters. Qed.
Print Assumptions C40_case.
(** the admitted words *)
Theorem C40_words : forall s,
  ((exists o, configure KohnShamOptions [("interaction_type"%string, VS s)] = Ok o) <-> In s ["dft"; "ni"]%string) /\
  ((exists o, configure PartitionOptions [("interaction_type"%string, VS s)] = Ok o) <-> In s ["dft"; "ni"]%string) /\
  ((exists o, configure PartitionOptions [("vp_calc_type"%string, VS s)] = Ok o) <-> In s ["component"; "potential_inversion"]%string) /\
  ((exists o, configure PartitionOptions [("hxc_part_type"%string, VS s)] = Ok o) <->
    In s ["exact"; "overlap_hxc_2"; "overlap_hxc"; "overlap_xc"; "surprisal"; "hartree"]%string) /\
  ((exists o, configure PartitionOptions [("kinetic_part_type"%string, VS s)] = Ok o) <->
    In s ["vonweiz"; "inversion"; "libxcke"; "paramke"; "none"; "twoorbital"; "fixed"]%string) /\
  ((exists o, configure PartitionSCFOptions [("calc_type"%string, VS s)] = Ok o) <-> In s ["pdft"; "sdft"]%string) /\
  ((exists o, configure InverterOptions [("invert_type"%string, VS s)] = Ok o) <->
    In s ["wuyang"; "simple"; "orbitalinvert"; "qinvert"; "eigensolveinvert"; "test"]%string) /\
  (exists o, configure KohnShamOptions [("xc_family"%string, VS s)] = Ok o).
Proof.
  intros s.
  split; [apply (choice_alone KohnShamOptions (St "interaction_type" "dft" (Some ["dft"; "ni"]%string)) "dft"%string); auto; simpl; tauto|].
  split; [apply (choice_alone PartitionOptions (St "interaction_type" "dft" (Some ["dft"; "ni"]%string)) "dft"%string); auto; simpl; tauto|].
  split; [apply (choice_alone PartitionOptions (St "vp_calc_type" "component" (Some ["component"; "potential_inversion"]%string)) "component"%string); auto; simpl; tauto|].
  split; [apply (choice_alone PartitionOptions (St "hxc_part_type" "exact" (Some ["exact"; "overlap_hxc_2"; "overlap_hxc"; "overlap_xc"; "surprisal"; "hartree"]%string)) "exact"%string); auto; simpl; tauto|].
  split; [apply (choice_alone PartitionOptions (St "kinetic_part_type" "vonweiz" (Some ["vonweiz"; "inversion"; "libxcke"; "paramke"; "none"; "twoorbital"; "fixed"]%string)) "vonweiz"%string); auto; simpl; tauto|].
  split; [apply (choice_alone PartitionSCFOptions (St "calc_type" "pdft" (Some ["pdft"; "sdft"]%string)) "pdft"%string); auto; simpl; tauto|].
  split; [apply (choice_alone InverterOptions (St "invert_type" "wuyang" (Some ["wuyang"; "simple"; "orbitalinvert"; "qinvert"; "eigensolveinvert"; "test"]%string)) "wuyang"%string); auto; simpl; tauto|].
  eexists. reflexivity.
Qed.
Print Assumptions C40_words.
(** an empty dictionary selects the documented defaults *)
Theorem C40_defaults :
  configure KohnShamOptions [] = Ok [("interaction_type", VS "dft"); ("sym", VB false); ("fractional", VB false); ("xfunc_id", VZ 1); ("cfunc_id", VZ 12); ("xc_family", VS "lda")]%string /\
  configure SolverOptions [] = Ok [("fractional", VB false); ("sym", VB false); ("iter_lin_solver", VB true); ("disp", VB true);
    ("tol_orbital", VR (/ 10 ^ 15)); ("tol_lin_solver", VR (/ 10 ^ 4))]%string /\
  configure KohnShamSCFOptions [] = Ok [("disp", VB true); ("continuing", VB false); ("iterative", VB true); ("spinflipsym", VB false); ("auto_tol", VB false);
    ("maxiter", VZ 100); ("auto_tol_iter", VZ 3); ("e_tol", VR (10 * / 10 ^ 6)); ("alpha", VR (1 / 2))]%string /\
  configure PartitionSCFOptions [] = Ok [("e_tol", VR (/ 10 ^ 7)); ("max_iter", VZ 50); ("alpha", VL [82 / 100]); ("beta", VL [82 / 100]); ("calc_type", VS "pdft");
    ("disp", VB false); ("continuing", VB false); ("from_target_density", VB false); ("iterative", VB true); ("isolated", VB false); ("auto_tol", VB false);
    ("auto_tol_iter", VZ 3); ("freeze_a", VB false); ("freeze_b", VB false)]%string /\
  configure InverterOptions [] = Ok [("ab_sym", VB false); ("ens_spin_sym", VB false); ("use_iterative", VB false); ("disp", VB false); ("avoid_loop", VB false);
    ("invert_type", VS "wuyang"); ("k_val", VR (- / 10 ^ 12)); ("tol_lin_solver", VR (/ 10 ^ 2)); ("tol_invert", VR (/ 10 ^ 12)); ("max_iter_lin_solver", VZ 2000);
    ("max_iter_invert", VZ 20); ("res_factor", VR 1)]%string /\
  configure PartitionOptions [] = Ok [("interaction_type", VS "dft"); ("sym", VB false); ("fractional", VB false); ("xfunc_id", VZ 1); ("cfunc_id", VZ 12); ("xc_family", VS "lda");
    ("vp_calc_type", VS "component"); ("hxc_part_type", VS "exact"); ("kinetic_part_type", VS "vonweiz"); ("k_family", VS "gga"); ("ke_func_id", VZ 5); ("disp", VB false);
    ("ab_sym", VB false); ("fractonal", VB false); ("ens_spin_sym", VB false); ("isolated", VB false); ("fixed_q", VB false)]%string.
Proof. repeat (split; [reflexivity|]). reflexivity. Qed.
Print Assumptions C40_defaults.
(** Kohnsham.scf: a key that is not all lower case passes the check and changes nothing *)
Theorem C40_scf_mixed_case_ignored_refuted : forall d1 d2 k v, ~ In k (field_names KohnShamSCFOptions) -> In (lower k) (field_names KohnShamSCFOptions) ->
  configure_raw KohnShamSCFOptions (d1 ++ (k, v) :: d2)%list = configure_raw KohnShamSCFOptions (d1 ++ d2)%list.
Proof. exact (raw_ignored KohnShamSCFOptions). Qed.
Print Assumptions C40_scf_mixed_case_ignored_refuted.
Theorem C40_scf_lower_case_works : forall d o, NoDup (keys_of d) -> configure_raw KohnShamSCFOptions d = Ok o ->
  (forall f v, In f (field_names KohnShamSCFOptions) -> In (f, v) d -> dget o f = Some v) /\
  (forall f, In f KohnShamSCFOptions -> ~ In (f_name f) (keys_of d) -> dget o (f_name f) = Some (f_default f)).
Proof. intros d o. apply raw_field. apply classes_distinct. simpl. tauto. Qed.
Print Assumptions C40_scf_lower_case_works.
Theorem C40_scf_unknown_key : forall d k, In k (keys_of d) -> ~ In (lower k) (field_names KohnShamSCFOptions) -> configure_raw KohnShamSCFOptions d = Err ValueError.
Proof. exact (raw_unknown KohnShamSCFOptions). Qed.
Print Assumptions C40_scf_unknown_key.
(** Partition.scf: "isolated" is accepted and overwritten *)
Theorem C40_partition_scf_isolated_overwritten : forall iso d o, case_distinct d -> configure_partition_scf iso d = Ok o ->
  getB o "isolated" = iso /\
  (forall f v, f <> "isolated"%string -> In f (field_names PartitionSCFOptions) -> gives d f v -> dget o f = Some v) /\
  (forall f, f_name f <> "isolated"%string -> In f PartitionSCFOptions -> silent d (f_name f) -> dget o (f_name f) = Some (f_default f)).
Proof. exact partition_scf_field. Qed.
Print Assumptions C40_partition_scf_isolated_overwritten.
(** the settings as Kohnsham.scf uses them *)
Theorem C40_scf_settings : forall d o, NoDup (keys_of d) -> scf_options d = Ok o ->
  (forall b, In ("continuing"%string, VB b) d -> so_cont o = b) /\ (forall b, In ("iterative"%string, VB b) d -> so_iter o = b) /\
  (forall b, In ("spinflipsym"%string, VB b) d -> so_flip o = b) /\ (forall b, In ("auto_tol"%string, VB b) d -> so_auto o = b) /\
  (forall z, In ("maxiter"%string, VZ z) d -> so_maxiter o = z) /\ (forall r, In ("e_tol"%string, VR r) d -> so_tol o = r) /\
  (forall r, In ("alpha"%string, VR r) d -> so_alpha o = r) /\
  (forall z, In ("e_tol"%string, VZ z) d -> so_tol o = IZR z) /\ (forall z, In ("alpha"%string, VZ z) d -> so_alpha o = IZR z) /\
  (~ In "continuing"%string (keys_of d) -> so_cont o = false) /\ (~ In "iterative"%string (keys_of d) -> so_iter o = true) /\
  (~ In "spinflipsym"%string (keys_of d) -> so_flip o = false) /\ (~ In "auto_tol"%string (keys_of d) -> so_auto o = false) /\
  (~ In "maxiter"%string (keys_of d) -> so_maxiter o = 100%Z) /\ (~ In "e_tol"%string (keys_of d) -> so_tol o = 10 * / 10 ^ 6) /\
  (~ In "alpha"%string (keys_of d) -> so_alpha o = 1 / 2).
Proof.
  intros d o ND H. unfold scf_options in H. destruct (configure_raw KohnShamSCFOptions d) as [c|] eqn:C; [|discriminate]. cbn [bind] in H. injection H as <-.
  destruct (C40_scf_lower_case_works d c ND C) as (A1 & A2). unfold getB, getZ, getR. cbn [so_cont so_iter so_flip so_auto so_maxiter so_tol so_alpha].
  split; [intros b J; rewrite (A1 "continuing"%string _ ltac:(simpl; tauto) J); reflexivity|].
  split; [intros b J; rewrite (A1 "iterative"%string _ ltac:(simpl; tauto) J); reflexivity|].
  split; [intros b J; rewrite (A1 "spinflipsym"%string _ ltac:(simpl; tauto) J); reflexivity|].
  split; [intros b J; rewrite (A1 "auto_tol"%string _ ltac:(simpl; tauto) J); reflexivity|].
  split; [intros b J; rewrite (A1 "maxiter"%string _ ltac:(simpl; tauto) J); reflexivity|].
  split; [intros b J; rewrite (A1 "e_tol"%string _ ltac:(simpl; tauto) J); reflexivity|].
  split; [intros b J; rewrite (A1 "alpha"%string _ ltac:(simpl; tauto) J); reflexivity|].
  split; [intros b J; rewrite (A1 "e_tol"%string _ ltac:(simpl; tauto) J); reflexivity|].
  split; [intros b J; rewrite (A1 "alpha"%string _ ltac:(simpl; tauto) J); reflexivity|].
  split; [intros J; pose proof (A2 (B "continuing" false) ltac:(simpl; tauto) J) as Q; cbn [f_name B f_default] in Q; rewrite Q; reflexivity|].
  split; [intros J; pose proof (A2 (B "iterative" true) ltac:(simpl; tauto) J) as Q; cbn [f_name B f_default] in Q; rewrite Q; reflexivity|].
  split; [intros J; pose proof (A2 (B "spinflipsym" false) ltac:(simpl; tauto) J) as Q; cbn [f_name B f_default] in Q; rewrite Q; reflexivity|].
  split; [intros J; pose proof (A2 (B "auto_tol" false) ltac:(simpl; tauto) J) as Q; cbn [f_name B f_default] in Q; rewrite Q; reflexivity|].
  split; [intros J; pose proof (A2 (I "maxiter" 100) ltac:(simpl; tauto) J) as Q; cbn [f_name I f_default] in Q; rewrite Q; reflexivity|].
  split; [intros J; pose proof (A2 (Fl "e_tol" (10 * / 10 ^ 6)) ltac:(simpl; tauto) J) as Q; cbn [f_name Fl f_default] in Q; rewrite Q; reflexivity|].
  intros J; pose proof (A2 (Fl "alpha" (1 / 2)) ltac:(simpl; tauto) J) as Q; cbn [f_name Fl f_default] in Q; rewrite Q; reflexivity.
Qed.
Print Assumptions C40_scf_settings.
Lemma C40_witness : exists o o1 o2, In KohnShamOptions classes /\ case_distinct [("Xc_Family"%string, VS "gga"); ("SYM"%string, VB true)] /\
  configure KohnShamOptions [("Xc_Family"%string, VS "gga"); ("SYM"%string, VB true)] = Ok o /\ dget o "xc_family" = Some (VS "gga") /\
  configure_raw KohnShamSCFOptions [("MaxIter"%string, VZ 7)] = Ok o1 /\ dget o1 "maxiter" = Some (VZ 100) /\
  configure_partition_scf false [("isolated"%string, VB true)] = Ok o2 /\ getB o2 "isolated" = false.
Proof.
  do 3 eexists. split; [simpl; tauto|]. split; [repeat constructor; simpl; intuition discriminate|].
  split; [reflexivity|]. split; [reflexivity|]. split; [reflexivity|]. split; [reflexivity|]. split; reflexivity.
Qed.

(** * C41 *)
Theorem C41_auto_tol_raises : forall g w k sched d o, (0 < Nelem g)%nat -> capable w k -> hxc_available g w k -> (1 <= k_cols k <= k_pol k)%nat -> (1 <= k_lv k)%nat ->
  scf_options d = Ok o -> so_auto o = true -> (forall t, schedule k (sched t)) -> (so_cont o = true -> k_n k <> None) ->
  (1 < so_maxiter o)%Z \/ 10 <= so_tol o -> ks_scf g w sched d k = Err NameError.
Proof. exact auto_fails. Qed.
Print Assumptions C41_auto_tol_raises.
Theorem C41_auto_tol_returns_only_without_iterating : forall g w sched d k o st, scf_options d = Ok o -> so_auto o = true -> ks_scf g w sched d k = Ok st ->
  c_iter st = 1%Z /\ (so_maxiter o <= 1)%Z /\ so_tol o < 10.
Proof. exact auto_return. Qed.
Print Assumptions C41_auto_tol_returns_only_without_iterating.
Theorem C41_no_NameError_otherwise : forall g w, (forall id pol, e_lib w id pol <> Err NameError) ->
  forall sched d k o, scf_options d = Ok o -> so_auto o = false -> ks_scf g w sched d k <> Err NameError.
Proof. exact ne_scf. Qed.
Print Assumptions C41_no_NameError_otherwise.
Lemma C41_witness : exists k, ks_init g22 1 1 2 1 2 (fun _ _ => 1%nat) 1 2 ex_N ex_opt = Ok k /\
  ks_scf g22 ex_env (fun _ => keys k) [("auto_tol"%string, VB true)] k = Err NameError /\ forall id pol, e_lib ex_env id pol <> Err NameError.
Proof.
  destruct ex_init as (k & H). destruct (ex_capable k H) as (C1 & C2 & C3 & C4). destruct (ex_static k H) as (P & C & L & OS & OI & OF & S).
  exists k. split; auto. split; [|discriminate].
  eapply C41_auto_tol_raises; try eassumption; try reflexivity; try (intros _; apply keys_schedule); try discriminate; try (rewrite ?g22_n; lia).
  left. reflexivity.
Qed.

(** * C42 *)
Theorem C42_every_solver_gets_its_column : forall k k', set_effective_potential k = Ok k' ->
  exists ve vh v, k_vext k = Some ve /\ k_vhxc k = Some vh /\ k_veff k' = Some v /\ (forall x s, v x s = k_vnuc k x s + ve x s + vh x s) /\
  (forall i j, place k i j -> (j < k_pol k)%nat /\ (forall x, s_veff (k_sol k' i j) x = v x j) /\
     s_phi (k_sol k' i j) = s_phi (k_sol k i j) /\ s_eig (k_sol k' i j) = s_eig (k_sol k i j) /\ same_static (k_sol k i j) (k_sol k' i j)) /\
  (forall i j, ~ place k i j -> k_sol k' i j = k_sol k i j) /\ k_n k' = k_n k /\ k_vnuc k' = k_vnuc k.
Proof.
  intros k k' H. apply eff_pot in H. destruct H as (ve & vh & A1 & A2 & A3 & A4 & A5 & A6 & A7 & A8 & A9 & _).
  exists ve, vh, (add3 (k_vnuc k) ve vh). do 4 (split; [auto|]). split; [|auto].
  intros i j Hp. destruct (A4 i j Hp) as (B1 & ->). split; auto. split; [reflexivity|]. split; [reflexivity|]. split; [reflexivity|]. repeat split.
Qed.
Print Assumptions C42_every_solver_gets_its_column.
Theorem C42_succeeds : forall k ve vh, k_vext k = Some ve -> k_vhxc k = Some vh -> (k_cols k <= k_pol k)%nat ->
  exists k', set_effective_potential k = Ok k'.
Proof. exact eff_pot_total. Qed.
Print Assumptions C42_succeeds.
Theorem C42_external_argument_ignored_refuted : forall k v v', set_veff_external k v = set_veff_external k v'.
Proof. reflexivity. Qed.
Print Assumptions C42_external_argument_ignored_refuted.
Theorem C42_external_redistributes_stored : forall k v k', set_veff_external k v = Ok k' ->
  forall i j, place k i j -> exists stored, k_veff k = Some stored /\ (j < k_pol k)%nat /\
    k_sol k' i j = set_veff (k_sol k i j) (fun x => stored x j).
Proof. exact veff_external. Qed.
Print Assumptions C42_external_redistributes_stored.
(** SCF: the solvers hold the plain sum, the stored potential is the spin-flip average *)
Theorem C42_scf_solver_potential : forall g w o l st st', scf_body g w o l st = Ok st' ->
  exists ve vh, k_vext (c_ks st') = Some ve /\ k_vhxc (c_ks st') = Some vh /\
    (forall i j, place (c_ks st') i j -> forall x, s_veff (k_sol (c_ks st') i j) x = k_vnuc (c_ks st') x j + ve x j + vh x j) /\
    k_veff (c_ks st') = Some (if so_flip o then flip_avg g (k_pol (c_ks st)) (add3 (k_vnuc (c_ks st)) ve vh) else add3 (k_vnuc (c_ks st)) ve vh).
Proof. exact body_solver_potential. Qed.
Print Assumptions C42_scf_solver_potential.
Theorem C42_stored_potential_has_no_influence : forall g w o l st v,
  scf_body g w o l (mkSt (set_veffs (c_ks st) v) (c_diff st) (c_oldE st) (c_oldn st) (c_iter st)) = scf_body g w o l st.
Proof. exact body_ignores_veff. Qed.
Print Assumptions C42_stored_potential_has_no_influence.
Lemma C42_witness : exists k k', ks_init g22 1 1 2 1 2 (fun _ _ => 1%nat) 1 2 ex_N ex_opt = Ok k /\
  set_effective_potential (set_vext (set_vhxc k (Some (fun _ _ => 3))) (Some (fun x _ => INR x))) = Ok k' /\ place k 0 1.
Proof.
  destruct ex_init as (k & H). destruct (ex_static k H) as (P & C & L & _).
  destruct (C42_succeeds (set_vext (set_vhxc k (Some (fun _ _ => 3))) (Some (fun x _ => INR x))) (fun x _ => INR x) (fun _ _ => 3) eq_refl eq_refl) as (k' & E).
  - cbn [set_vext set_vhxc k_cols k_pol]. lia.
  - exists k, k'. split; auto. split; auto. split; lia.
Qed.

(** * C43 *)
(** sum over solvers of band energy minus potential energy *)
Theorem C43_total_energy : forall g w k k', ks_energy g w k = Ok k' ->
  exists E n ve, k_E k' = Some E /\ k_n k = Some n /\ k_vext k = Some ve /\
    (forall i j, place k i j -> (j < k_pol k)%nat /\ calc_density g (k_sol k i j) = Ok (dens g (k_sol k i j))) /\
    E_Ts E = Fin (kinetic g k) /\
    (forall s, (s < k_cols k)%nat -> E_Eks E s = sumR (k_lv k) (fun i => eks_of (k_sol k i s))) /\
    (forall s, (s < k_cols k)%nat -> (forall i, (i < k_lv k)%nat -> Rabs (pot_of g (k_sol k i s)) <= 10 ^ 5) ->
       E_Vks E s = Fin (sumR (k_lv k) (fun i => pot_of g (k_sol k i s)))) /\
    E_evals E = flat_map (fun i => flat_map (fun j => evals_of (k_sol k i j)) (seq 0 (k_cols k))) (seq 0 (k_lv k)) /\
    E_Enuc E = interaction g (k_pol k) n (k_vnuc k) /\ E_Vext E = interaction g (k_pol k) n ve /\
    E_Vnn E = k_Za k * k_Zb k / (2 * ga g) /\
    ((o_int (k_opt k) = "ni"%string /\ E_E E = Fin (kinetic g k + E_Enuc E + E_Vnn E)) \/
     (o_int (k_opt k) <> "ni"%string /\ exists vhxc vh Ex ex vx Ec ec vc Eh,
        k_vhxc k = Some vhxc /\ E_Vhxc E = Some (interaction g (k_pol k) n vhxc) /\
        v_hartree g (e_spL w) (e_spU w) (A2 (k_pol k) n) = Ok vh /\
        get_xc g (e_lib w) (o_fam (k_opt k)) (o_xid (k_opt k)) (k_pol k) n = Ok (Ex, ex, vx) /\
        get_xc g (e_lib w) (o_fam (k_opt k)) (o_cid (k_opt k)) (k_pol k) n = Ok (Ec, ec, vc) /\
        E_Eh E = Some Eh /\ Eh = 1 / 2 * integrate1 g (fun x => sumR (k_pol k) (fun s => n x s) * entry vh x 0) /\
        E_E E = Fin (kinetic g k + E_Enuc E + Eh + Ex + Ec + E_Vnn E) /\
        V_vx (k_V k') = Some vx /\ V_vc (k_V k') = Some vc /\ V_ex (k_V k') = Some ex /\ V_ec (k_V k') = Some ec /\
        E_Ex E = Ex /\ E_Ec E = Ec)).
Proof. exact energy_inv. Qed.
Print Assumptions C43_total_energy.
(** double counting form: Ts + Enuc = band energy - external - hxc potential energy *)
Theorem C43_double_counting : forall g k n ve vhxc, k_pol k = k_cols k ->
  (forall i j, place k i j -> forall x, (x < Nelem g)%nat -> s_veff (k_sol k i j) x = k_vnuc k x j + ve x j + vhxc x j) ->
  sum_dens g k (k_sol k) = Ok n ->
  kinetic g k + interaction g (k_pol k) n (k_vnuc k) =
  sumR (k_lv k) (fun i => sumR (k_cols k) (fun j => eks_of (k_sol k i j))) - interaction g (k_pol k) n ve - interaction g (k_pol k) n vhxc.
Proof. exact double_counting. Qed.
Print Assumptions C43_double_counting.
(** the Hartree potential counts its energy twice *)
Theorem C43_hartree_twice : forall g w n vh Eh, (v_hartree g (e_spL w) (e_spU w) (A2 2 n) = Ok vh) ->
  Eh = 1 / 2 * integrate1 g (fun x => sumR 2 (fun s => n x s) * entry vh x 0) -> interaction g 2 n (entry vh) = 2 * Eh.
Proof.
  intros g w n vh Eh H ->. unfold interaction. cbn [sumR]. rewrite Rplus_0_l, <- integrate1_plus.
  replace (2 * (1 / 2 * integrate1 g (fun x => (0 + n x 0%nat + n x 1%nat) * entry vh x 0))) with (integrate1 g (fun x => (0 + n x 0%nat + n x 1%nat) * entry vh x 0)) by field.
  apply integrate1_ext. intros x Hx. unfold v_hartree in H. destruct (_ || _)%bool; [discriminate|]. cbn [Nat.eqb] in H. cbv zeta in H. injection H as <-.
  cbn [entry Nat.eqb andb]. ring.
Qed.
Print Assumptions C43_hartree_twice.
Lemma C43_witness : exists k k' k2, ks_init g22 1 1 2 1 2 (fun _ _ => 1%nat) 1 2 ex_N ex_opt = Ok k /\ frame k k' /\ ks_energy g22 ex_env k' = Ok k2 /\
  o_int (k_opt k') = "dft"%string /\ k_pol k' = k_cols k'.
Proof.
  destruct ex_init as (k & H). destruct (ex_capable k H) as (C1 & C2 & C3 & C4). destruct (ex_static k H) as (P & C & L & OS & OI & OF & S).
  destruct (density_total g22 ex_env k) with (k' := k) (it := true) (dif := Fin 0) (l := keys k) as (k1 & n & D & SO); auto; try (rewrite ?g22_n; lia).
  { apply frame_refl. } { apply keys_schedule. }
  pose proof (density_frame _ _ _ _ _ _ _ _ D) as F.
  set (k' := set_n (set_vext (set_vhxc k1 (Some (fun _ _ => 0))) (Some (fun _ _ => 0))) (Some n)).
  assert (F' : frame k k') by (apply (frame_trans _ _ _ F); repeat split).
  destruct (energy_total g22 ex_env k) with (k' := k') as (k2 & E2); auto; try (rewrite ?g22_n; lia).
  { eexists; reflexivity. } { eexists; reflexivity. } { eexists; reflexivity. }
  exists k, k', k2. split; auto. split; auto. split; auto. destruct F' as (FO & _ & _ & FP & _ & FC & _). rewrite FO, FP, FC. split; auto. lia.
Qed.

(** * C44 *)
(** averaging with the mirror image is symmetric for every commutative addition, hence also in floating point *)
Theorem C44_bitwise : forall (A : Type) (add : A -> A -> A) (half : A -> A) g f k s, (forall x y, add x y = add y x) -> (k < Nelem g)%nat ->
  mirror2 g (sym_avg add half g f) k s = sym_avg add half g f k s.
Proof. exact sym_avg_mirror. Qed.
Print Assumptions C44_bitwise.
Theorem C44_density_symmetric : forall g w it dif l k k' n, o_sym (k_opt k) = true -> ks_density g w it dif l k = Ok (k', n) -> forall c, symmetric g c n.
Proof.
  intros g w it dif l k k' n HS H c. apply density_inv in H. destruct H as (sol & n0 & _ & _ & _ & _ & ->). rewrite HS. apply sym_avgR_sym.
Qed.
Print Assumptions C44_density_symmetric.
Theorem C44_vhxc_symmetric : forall g w k k', o_sym (k_opt k) = true -> calc_hxc_potential g w k = Ok k' ->
  exists v, k_vhxc k' = Some v /\ forall c, symmetric g c v.
Proof.
  intros g w k k' HS H. apply hxc_inv in H. destruct H as (V & v & -> & _). rewrite HS. eexists. split; [reflexivity|]. intros c. apply sym_avgR_sym.
Qed.
Print Assumptions C44_vhxc_symmetric.
Theorem C44_vnuc_symmetric : forall g Za Zb pol lv cols Nmo lv' cols' N opt k, ks_init g Za Zb pol lv cols Nmo lv' cols' N opt = Ok k ->
  o_sym (k_opt k) = true -> forall c, symmetric g c (k_vnuc k).
Proof.
  intros g Za Zb pol lv cols Nmo lv' cols' N opt k H HS c. unfold ks_init in H.
  destruct (configure KohnShamOptions opt) as [o|]; [|discriminate]. cbn [bind] in H.
  destruct (negb _); [discriminate|]. cbv zeta in H. destruct (Pssolver lv cols Nmo N _) as [sol|]; [|discriminate]. cbn [bind] in H. injection H as <-.
  cbn [k_opt o_sym] in HS. cbn [k_vnuc]. unfold ks_vnuc. rewrite HS. apply sym_avgR_sym.
Qed.
Print Assumptions C44_vnuc_symmetric.
Theorem C44_solver_potentials_symmetric : forall g k k' ve vh c, set_effective_potential k = Ok k' -> k_vext k = Some ve -> k_vhxc k = Some vh ->
  symmetric g c ve -> symmetric g c vh -> symmetric g c (k_vnuc k) ->
  forall i j x, place k i j -> (j < c)%nat -> (x < Nelem g)%nat -> mirror1 g (s_veff (k_sol k' i j)) x = s_veff (k_sol k' i j) x.
Proof.
  intros g k k' ve vh c H E1 E2 S1 S2 S3 i j x Hp Hj Hx. apply eff_pot in H.
  destruct H as (ve' & vh' & A1 & A2 & A3 & A4 & _). rewrite E1 in A1. rewrite E2 in A2. injection A1 as <-. injection A2 as <-.
  destruct (A4 i j Hp) as (_ & ->). cbn [set_veff s_veff]. apply (symmetric_add g c (k_vnuc k) ve vh S3 S1 S2); auto.
Qed.
Print Assumptions C44_solver_potentials_symmetric.
(** on the 2 x 2 grid, with unequal charges *)
Lemma C44_witness : exists k, ks_init g22 1 2 2 1 2 (fun _ _ => 1%nat) 1 2 ex_N [("sym"%string, VB true)] = Ok k /\ o_sym (k_opt k) = true.
Proof.
  edestruct (init_total g22 1 2 2 1 2 (fun _ _ => 1%nat) ex_N [("sym"%string, VB true)]) as (k & H); [reflexivity|intros; unfold ex_N; lra|].
  exists k. split; auto. apply init_spec in H. destruct H as (o & C & _ & _ & _ & _ & _ & _ & _ & _ & OS & _). injection C as <-. exact OS.
Qed.

(** * C73 *)
Theorem C73_construction : forall g Za Zb pol lv cols Nmo lv' cols' N opt k, ks_init g Za Zb pol lv cols Nmo lv' cols' N opt = Ok k ->
  exists o, configure KohnShamOptions opt = Ok o /\ lv' = lv /\ cols' = cols /\
  k_Za k = Za /\ k_Zb k = Zb /\ k_pol k = pol /\ k_lv k = lv /\ k_cols k = cols /\
  o_int (k_opt k) = getS o "interaction_type" /\ o_sym (k_opt k) = getB o "sym" /\ o_frac (k_opt k) = getB o "fractional" /\
  o_xid (k_opt k) = Z.to_nat (getZ o "xfunc_id") /\ o_cid (k_opt k) = Z.to_nat (getZ o "cfunc_id") /\ o_fam (k_opt k) = getS o "xc_family" /\
  k_vext k = None /\ k_vhxc k = None /\ k_veff k = None /\ k_n k = None /\ k_u k = None /\ k_E k = None /\
  (forall i j, place k i j -> N i j <> -1 /\ s_m (k_sol k i j) = Z.of_nat i /\ s_pol (k_sol k i j) = cols /\ s_N (k_sol k i j) = N i j /\
     s_Nmo (k_sol k i j) = Nmo i j /\ s_frac (k_sol k i j) = getB o "fractional" /\ s_sym (k_sol k i j) = getB o "sym" /\
     s_phi (k_sol k i j) = None /\ s_eig (k_sol k i j) = None).
Proof. exact init_spec. Qed.
Print Assumptions C73_construction.
Theorem C73_nuclear_potential : forall g Za Zb pol lv cols Nmo lv' cols' N opt k, ks_init g Za Zb pol lv cols Nmo lv' cols' N opt = Ok k ->
  forall x s, (x < Nelem g)%nat -> (s < pol)%nat ->
  k_vnuc k x s = if (pol =? 1)%nat || (pol =? 2)%nat then
                   (if o_sym (k_opt k) then 1 / 2 * (coulomb g Za Zb x + coulomb g Zb Za x) else coulomb g Za Zb x)
                 else 0.
Proof.
  intros g Za Zb pol lv cols Nmo lv' cols' N opt k H x s Hx Hs. unfold ks_init in H.
  destruct (configure KohnShamOptions opt) as [o|]; [|discriminate]. cbn [bind] in H.
  destruct (negb _); [discriminate|]. cbv zeta in H. destruct (Pssolver lv cols Nmo N _) as [sol|]; [|discriminate]. cbn [bind] in H. injection H as <-.
  cbn [k_opt o_sym k_vnuc]. unfold ks_vnuc. cbv zeta.
  set (f := fun (k s : nat) => if ((pol =? 1) && (s =? 0))%nat%bool then coulomb g Za Zb k else if ((pol =? 2) && (s <? 2))%nat%bool then coulomb g Za Zb k else 0).
  assert (Q : forall y, f y s = if (pol =? 1)%nat || (pol =? 2)%nat then coulomb g Za Zb y else 0).
  { intros y. unfold f. destruct (Nat.eqb_spec pol 1).
    - replace s with 0%nat by lia. reflexivity.
    - cbn [andb orb]. destruct (Nat.eqb_spec pol 2); auto. cbn [andb]. destruct (Nat.ltb_spec s 2); auto; lia. }
  destruct (getB o "sym"); [|rewrite Q; reflexivity].
  unfold sym_avgR, sym_avg. rewrite mirror2_mirror1 by auto. rewrite Q.
  replace (mirror1 g (fun k => f k s) x) with (if (pol =? 1)%nat || (pol =? 2)%nat then coulomb g Zb Za x else 0).
  - destruct ((pol =? 1)%nat || (pol =? 2)%nat)%bool; [reflexivity|ring].
  - destruct (pos_surj g x Hx) as (ia & ir & Hp & ->). rewrite mirror1_pos by auto. rewrite Q.
    destruct ((pol =? 1)%nat || (pol =? 2)%nat)%bool; auto.
    rewrite <- (coulomb_mirror g Za Zb) by auto. rewrite mirror1_pos by auto. reflexivity.
Qed.
Print Assumptions C73_nuclear_potential.
Theorem C73_minus_one_electrons : forall g Za Zb pol lv cols Nmo N opt o i j, configure KohnShamOptions opt = Ok o -> (i < lv)%nat -> (j < cols)%nat ->
  N i j = -1 -> ks_init g Za Zb pol lv cols Nmo lv cols N opt = Err AttributeError.
Proof. exact init_minus1. Qed.
Print Assumptions C73_minus_one_electrons.
Theorem C73_shape_mismatch : forall g Za Zb pol lv cols Nmo lv' cols' N opt o, configure KohnShamOptions opt = Ok o -> (lv', cols') <> (lv, cols) ->
  ks_init g Za Zb pol lv cols Nmo lv' cols' N opt = Err AssertionError.
Proof. exact init_shape. Qed.
Print Assumptions C73_shape_mismatch.
Theorem C73_unknown_option : forall g Za Zb pol lv cols Nmo lv' cols' N opt key, In key (map fst opt) -> ~ In (lower key) (map f_name KohnShamOptions) ->
  ks_init g Za Zb pol lv cols Nmo lv' cols' N opt = Err ValueError.
Proof. exact init_unknown. Qed.
Print Assumptions C73_unknown_option.
Theorem C73_succeeds : forall g Za Zb pol lv cols Nmo N opt o, configure KohnShamOptions opt = Ok o ->
  (forall i j, (i < lv)%nat -> (j < cols)%nat -> N i j <> -1) -> exists k, ks_init g Za Zb pol lv cols Nmo lv cols N opt = Ok k.
Proof. exact init_total. Qed.
Print Assumptions C73_succeeds.
(** The shifts handed to the eigensolvers (which look for the eigenvalues nearest to them): twice and three times the lowest
    level of angular momentum m of an atom with the larger of the two charges. *)
Definition atomic_level (Z : R) (m : nat) : R := - (Z ^ 2 / (2 * INR (S m) ^ 2)).
Theorem C73_shift : forall Za Zb m, let Z := Rmax Za Zb in
  (forall i, ks_e0 i Za Zb m = (if String.eqb i "ni" then 3 else 2) * atomic_level Z m) /\
  (0 < Z -> forall i, ks_e0 i Za Zb m < atomic_level Z m) /\
  (forall i, ks_e0 i Za Zb m = ks_e0 i Zb Za m).
Proof.
  intros Za Zb m Z. assert (P : 0 < INR (S m)) by (apply lt_0_INR; lia).
  assert (A : forall i, ks_e0 i Za Zb m = (if String.eqb i "ni" then 3 else 2) * atomic_level Z m).
  { intros i. unfold ks_e0, atomic_level. fold Z. rewrite S_INR in *. destruct (String.eqb i "ni"); field; lra. }
  split; [exact A|]. split.
  - intros HZ i. rewrite A. unfold atomic_level. assert (0 < Z ^ 2 / (2 * INR (S m) ^ 2)) by (apply Rdiv_lt_0_compat; [apply pow_lt; auto|apply Rmult_lt_0_compat; [lra|apply pow_lt; auto]]).
    destruct (String.eqb i "ni"); lra.
  - intros i. unfold ks_e0. rewrite (Rmax_comm Zb Za). reflexivity.
Qed.
Print Assumptions C73_shift.
(** For two equal nuclei the shift lies above the level of the united atom, so it is no lower bound for a molecule. *)
Theorem C73_shift_united_refuted : forall Z i m, 0 < Z -> atomic_level (Z + Z) m < ks_e0 i Z Z m.
Proof.
  intros Z i m HZ. destruct (C73_shift Z Z m) as (A & _). rewrite A. unfold Rmax. destruct (Rle_dec Z Z) as [_|n]; [|lra]. unfold atomic_level.
  assert (P : 0 < INR (S m)) by (apply lt_0_INR; lia).
  assert (Q : 0 < Z ^ 2 / (2 * INR (S m) ^ 2)) by (apply Rdiv_lt_0_compat; [apply pow_lt; auto|apply Rmult_lt_0_compat; [lra|apply pow_lt; auto]]).
  replace ((Z + Z) ^ 2 / (2 * INR (S m) ^ 2)) with (4 * (Z ^ 2 / (2 * INR (S m) ^ 2))) by (field; lra). destruct (String.eqb i "ni"); lra.
Qed.
Print Assumptions C73_shift_united_refuted.
(** the solvers' polarisation is the number of columns, whatever pol was asked for *)
Lemma C73_witness : exists k, ks_init g22 1 1 1 1 2 (fun _ _ => 1%nat) 1 2 ex_N ex_opt = Ok k /\ k_pol k = 1%nat /\ s_pol (k_sol k 0 0) = 2%nat.
Proof.
  edestruct (C73_succeeds g22 1 1 1 1 2 (fun _ _ => 1%nat) ex_N ex_opt) as (k & H); [reflexivity|intros; unfold ex_N; lra|].
  exists k. split; auto. apply C73_construction in H. destruct H as (o & _ & _ & _ & _ & _ & P & L & C & _ & _ & _ & _ & _ & _ & _ & _ & _ & _ & _ & _ & S).
  split; auto. apply S. split; lia.
Qed.
