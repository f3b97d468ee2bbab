(** Properties C91 onward: symmetry of complete runs. *)
From Coq Require Import Reals List Arith Lia Lra ZArith Bool String.
From Verif Require Import Base BaseLemmas GridModel GridSpec GridProofs GridWitness GridMore FDProofs HartreeModel HartreeSpec HartreeProofs LinAlg HartreeThms SolverModel SolverSpec SolverProofs SolverThms LibxcModel LibxcSpec LibxcThms OptionsModel OptionsProofs KSModel KSSpec KSProofs KSThms KSLoop KSEnergy KSTotal KSWit
  InverterModel PartitionModel PartitionSpec PartitionBase PartitionConstr PartitionDens PartitionLoop PartitionPass PartitionScf PartitionRun PartitionNew PartitionGood PartitionWit
  SelfConsistent NonInteracting Isolated IsolatedWit Transport MirrorRun MirrorPart MirrorWit ClosedShell ClosedRun EmbedPot EmbedEnergy MirrorEmbed MirrorEnergy EmbedWit.
Import ListNotations.
Local Open Scope R_scope.
Local Opaque sinh cosh.

(** * C91: the mirror image of a molecule *)
Theorem C91_eigenpairs : forall g b m v e p, grid_ok g -> fd_ok g b -> (b <= Na g)%nat -> eigenpair g (hamiltonian g m) v e p -> eigenpair g (hamiltonian g m) (mirror1 g v) e (mirror1 g p).
Proof. exact mirror_eigenpair. Qed.
Print Assumptions C91_eigenpairs.
Theorem C91_exchanged_charges : forall g w Za Zb pol lv cols Nmo lv' cols' N opt k k' sched sched' d o st st', mirror_setting g w -> (pol = 1 \/ pol = 2)%nat ->
  ks_init g Za Zb pol lv cols Nmo lv' cols' N opt = Ok k -> ks_init g Zb Za pol lv cols Nmo lv' cols' N opt = Ok k' -> local_functionals w k -> equivariant g w (across g) ->
  ks_scf g w sched d k = Ok st -> ks_scf g w sched' d k' = Ok st' -> scf_options d = Ok o -> so_cont o = false -> so_flip o = false ->
  alike st st' /\ exists n n', k_n (c_ks st) = Some n /\ k_n (c_ks st') = Some n' /\ forall x s, (x < Nelem g)%nat -> (s < pol)%nat -> n' x s = mirror1 g (fun y => n y s) x.
Proof. exact mirror_runs. Qed.
Print Assumptions C91_exchanged_charges.
Theorem C91_homonuclear : forall g w Z pol lv cols Nmo lv' cols' N opt k sched o st, mirror_setting g w -> (pol = 1 \/ pol = 2)%nat ->
  ks_init g Z Z pol lv cols Nmo lv' cols' N opt = Ok k -> local_functionals w k -> equivariant g w (across g) -> so_cont o = false -> so_flip o = false -> scf_trace g w o sched k st ->
  exists n, k_n (c_ks st) = Some n /\ forall x s, (x < Nelem g)%nat -> (s < pol)%nat -> mirror1 g (fun y => n y s) x = n x s.
Proof. exact mirror_symmetric. Qed.
Print Assumptions C91_homonuclear.
Lemma C91_witness : forall Za Zb, exists w k k' st st' o, mirror_setting g3p w /\ equivariant g3p w (across g3p) /\ ks_init g3p Za Zb 2 1 2 (fun _ _ => 1%nat) 1 2 (fun _ _ => 1) [] = Ok k /\ ks_init g3p Zb Za 2 1 2 (fun _ _ => 1%nat) 1 2 (fun _ _ => 1) [] = Ok k' /\ local_functionals w k /\
  ks_scf g3p w (fun _ => keys k) [] k = Ok st /\ ks_scf g3p w (fun _ => keys k') [] k' = Ok st' /\ scf_options [] = Ok o /\ so_cont o = false /\ so_flip o = false /\ scf_trace g3p w o (fun _ => keys k) k st /\ (1 < c_iter st)%Z.
Proof. exact mirror_case. Qed.

(** * C92: the two spins *)
Theorem C92_exchanged_spins : forall g w Za Zb lv Nmo Nmo' lv' cols' N N' opt k k' sched sched' d o st st', hartree_setting g w ->
  ks_init g Za Zb 2 lv 2 Nmo lv' cols' N opt = Ok k -> ks_init g Za Zb 2 lv 2 Nmo' lv' cols' N' opt = Ok k' -> (forall i j, (i < lv)%nat -> (j < 2)%nat -> Nmo' i j = Nmo i (1 - j)%nat /\ N' i j = N i (1 - j)%nat) ->
  spin_functionals w k -> equivariant g w same -> ks_scf g w sched d k = Ok st -> ks_scf g w sched' d k' = Ok st' -> scf_options d = Ok o -> so_cont o = false -> so_flip o = false ->
  alike st st' /\ exists n n', k_n (c_ks st) = Some n /\ k_n (c_ks st') = Some n' /\ forall x s, (x < Nelem g)%nat -> (s < 2)%nat -> n' x s = n x (1 - s)%nat.
Proof. exact spin_runs. Qed.
Print Assumptions C92_exchanged_spins.
Theorem C92_closed_shell : forall g w Za Zb lv Nmo lv' cols' N opt k sched o st, hartree_setting g w ->
  ks_init g Za Zb 2 lv 2 Nmo lv' cols' N opt = Ok k -> (forall i, (i < lv)%nat -> Nmo i 0%nat = Nmo i 1%nat /\ N i 0%nat = N i 1%nat) ->
  spin_functionals w k -> equivariant g w same -> so_cont o = false -> so_flip o = false -> scf_trace g w o sched k st ->
  (exists n, k_n (c_ks st) = Some n /\ forall x, (x < Nelem g)%nat -> n x 0%nat = n x 1%nat) /\
  ((1 < c_iter st)%Z -> forall i m, (i < lv)%nat -> eig_at (k_sol (c_ks st) i 0%nat) m = eig_at (k_sol (c_ks st) i 1%nat) m).
Proof. exact closed_shell. Qed.
Print Assumptions C92_closed_shell.
Lemma C92_witness : forall Za Zb, exists w k k' st st' o, hartree_setting g3p w /\ equivariant g3p w same /\ ks_init g3p Za Zb 2 1 2 (fun _ _ => 1%nat) 1 2 half_spin [] = Ok k /\ ks_init g3p Za Zb 2 1 2 (fun _ _ => 1%nat) 1 2 half_other [] = Ok k' /\ spin_functionals w k /\
  (forall i j, (i < 1)%nat -> (j < 2)%nat -> half_other i j = half_spin i (1 - j)%nat) /\ ks_scf g3p w (fun _ => keys k) [] k = Ok st /\ ks_scf g3p w (fun _ => keys k') [] k' = Ok st' /\ scf_options [] = Ok o /\ so_cont o = false /\ so_flip o = false /\ (1 < c_iter st)%Z.
Proof. exact spin_case. Qed.
Lemma C92_closed_witness : forall Za Zb, exists w k st o, hartree_setting g3p w /\ equivariant g3p w same /\ ks_init g3p Za Zb 2 1 2 (fun _ _ => 1%nat) 1 2 (fun _ _ => 1) [] = Ok k /\ spin_functionals w k /\ so_cont o = false /\ so_flip o = false /\ scf_trace g3p w o (fun _ => keys k) k st /\ (1 < c_iter st)%Z.
Proof. exact closed_case. Qed.

(** * C93: isolated fragments of mirror-image partitions *)
Theorem C93_exchanged_nuclei : forall g w Za Zb pol spec nua nub opt p p' sched sched' d d' o o' n l l' s s', mirror_setting g (pe_env w) -> equivariant g (pe_env w) (across g) -> (pol = 1 \/ pol = 2)%nat ->
  partition_init g Za Zb pol spec nua nub opt = Ok p -> partition_init g Zb Za pol (fun c => spec (partner c)) nub nua opt = Ok p' -> local_partition (pe_env w) p ->
  po_iso (p_opt p) = true -> po_ab (p_opt p) = false -> passes g w sched d p o n l s -> passes g w sched' d' p' o' n l' s' ->
  ps_cont o = false -> ps_cont o' = false -> ps_target o = false -> ps_target o' = false -> (forall c, member (p_ens p) c -> step_size (ps_alpha o') (partner c) = step_size (ps_alpha o) c) ->
  (forall c, member (p_ens p) c -> exists f f' m m', p_f (q_p s) c = Some f /\ p_f (q_p s') (partner c) = Some f' /\ k_n (f_ks f) = Some m /\ k_n (f_ks f') = Some m' /\ reflected g pol m m' /\
     ((0 < n)%nat -> exists E E', k_E (f_ks f) = Some E /\ k_E (f_ks f') = Some E' /\ E_E E' = E_E E)) /\
  exists nf nf', p_nf (q_p s) = Some nf /\ p_nf (q_p s') = Some nf' /\ reflected g pol nf nf'.
Proof. exact exchanged_runs. Qed.
Print Assumptions C93_exchanged_nuclei.
Theorem C93_identical_fragments : forall g w Z pol spec nu opt p sched d o n l s, mirror_setting g (pe_env w) -> equivariant g (pe_env w) (across g) -> (pol = 1 \/ pol = 2)%nat ->
  partition_init g Z Z pol spec nu nu opt = Ok p -> spec Cb = spec Ca -> spec CB = spec CA -> local_partition (pe_env w) p -> po_iso (p_opt p) = true -> po_ab (p_opt p) = false ->
  passes g w sched d p o n l s -> ps_cont o = false -> ps_target o = false -> step_size (ps_alpha o) Cb = step_size (ps_alpha o) Ca -> (p_ens p = true -> step_size (ps_alpha o) CB = step_size (ps_alpha o) CA) ->
  (forall c, member (p_ens p) c -> exists f f' m m', p_f (q_p s) c = Some f /\ p_f (q_p s) (partner c) = Some f' /\ k_n (f_ks f) = Some m /\ k_n (f_ks f') = Some m' /\ reflected g pol m m' /\
     ((0 < n)%nat -> exists E E', k_E (f_ks f) = Some E /\ k_E (f_ks f') = Some E' /\ E_E E' = E_E E)) /\
  exists nf, p_nf (q_p s) = Some nf /\ reflected g pol nf nf.
Proof. exact identical_fragments. Qed.
Print Assumptions C93_identical_fragments.
Lemma C93_witness : forall Za Zb, exists w p p' o o' n l l' s s', mirror_setting g3p (pe_env w) /\ equivariant g3p (pe_env w) (across g3p) /\ partition_init g3p Za Zb 2 m_spec 1 1 w_iso = Ok p /\ partition_init g3p Zb Za 2 (fun c => m_spec (partner c)) 1 1 w_iso = Ok p' /\
  local_partition (pe_env w) p /\ po_iso (p_opt p) = true /\ po_ab (p_opt p) = false /\ po_int (p_opt p) = "dft"%string /\ passes g3p w w_sched [] p o n l s /\ passes g3p w w_sched [] p' o' n l' s' /\ (0 < n)%nat /\
  ps_cont o = false /\ ps_cont o' = false /\ ps_target o = false /\ ps_target o' = false /\ (forall c, member (p_ens p) c -> step_size (ps_alpha o') (partner c) = step_size (ps_alpha o) c).
Proof. exact exchange_case. Qed.
Lemma C93_identical_witness : forall Z, exists w p o n l s, mirror_setting g3p (pe_env w) /\ equivariant g3p (pe_env w) (across g3p) /\ partition_init g3p Z Z 2 w_spec 1 1 w_iso = Ok p /\ w_spec Cb = w_spec Ca /\ w_spec CB = w_spec CA /\
  local_partition (pe_env w) p /\ po_iso (p_opt p) = true /\ po_ab (p_opt p) = false /\ po_int (p_opt p) = "dft"%string /\ partition_scf g3p w w_sched [] p = Ok s /\ passes g3p w w_sched [] p o n l s /\ (0 < n)%nat /\
  ps_cont o = false /\ ps_target o = false /\ step_size (ps_alpha o) Cb = step_size (ps_alpha o) Ca /\ (p_ens p = true -> step_size (ps_alpha o) CB = step_size (ps_alpha o) CA).
Proof. exact identical_case. Qed.

(** * C95: a closed shell with one column and with two *)
Theorem C95_functional : forall g w k, closed_functionals w k -> closed_xc g w (k_opt k).
Proof. exact closed_lda. Qed.
Print Assumptions C95_functional.
Theorem C95_two_treatments : forall g w Za Zb lv Nmo Nmo' N N' opt k k' o sched sched' st st', hartree_setting g w -> spin_blind g w ->
  ks_init g Za Zb 1 lv 1 Nmo lv 1 N opt = Ok k -> ks_init g Za Zb 2 lv 2 Nmo' lv 2 N' opt = Ok k' -> (forall i j, (i < lv)%nat -> (j < 2)%nat -> Nmo' i j = Nmo i 0%nat /\ N' i j = N i 0%nat / 2) ->
  closed_functionals w k -> so_cont o = false -> so_flip o = false -> scf_trace g w o sched k st -> scf_trace g w o sched' k' st' -> c_iter st' = c_iter st ->
  c_oldE st' = c_oldE st /\ (exists n n', k_n (c_ks st) = Some n /\ k_n (c_ks st') = Some n' /\ halves g n n') /\
  ((1 < c_iter st)%Z -> k_u (c_ks st') = k_u (c_ks st) /\ forall i j m, (i < lv)%nat -> (j < 2)%nat -> eig_at (k_sol (c_ks st') i j) m = eig_at (k_sol (c_ks st) i 0) m).
Proof. exact closed_from_init. Qed.
Print Assumptions C95_two_treatments.
Theorem C95_gradient_refuted : exists g lib n n' e eps v e' eps' v', grid_ok g /\ lstsq_ok g /\ fd_ok g 1 /\ lib 0%nat 1%nat = Ok grad1 /\ lib 0%nat 2%nat = Ok grad2 /\ closed_gradient grad1 grad2 /\ halves g n n' /\
  get_xc g lib "gga" 0 1 n = Ok (e, eps, v) /\ get_xc g lib "gga" 0 2 n' = Ok (e', eps', v') /\ exists x, (x < Nelem g)%nat /\ eps' x <> eps x.
Proof. exact gga_parts. Qed.
Print Assumptions C95_gradient_refuted.
Theorem C95_residual_refuted : exists g n n' old old' r r', grid_ok g /\ lstsq_ok g /\ halves g n n' /\ halves g old old' /\ dens_residual g 1 n old = Ok (Fin r) /\ dens_residual g 2 n' old' = Ok (Fin r') /\ r' < r.
Proof. exact residual_parts. Qed.
Print Assumptions C95_residual_refuted.
Lemma C95_witness : forall Za Zb, exists w k k' o st st', hartree_setting g3p w /\ spin_blind g3p w /\ ks_init g3p Za Zb 1 1 1 (fun _ _ => 1%nat) 1 1 (fun _ _ => 2) [] = Ok k /\ ks_init g3p Za Zb 2 1 2 (fun _ _ => 1%nat) 1 2 (fun _ _ => 1) [] = Ok k' /\
  closed_functionals w k /\ so_cont o = false /\ so_flip o = false /\ scf_trace g3p w o (fun _ => keys k) k st /\ scf_trace g3p w o (fun _ => keys k') k' st' /\ c_iter st' = c_iter st /\ (1 < c_iter st)%Z.
Proof. exact closed_both. Qed.

(** * C97: embedding potentials of explicit functionals *)
Theorem C97_embedding_potential : forall g w Za Zb pol spec nua nub opt p sched d o n l s0 s, partition_init g Za Zb pol spec nua nub opt = Ok p -> (pol <= 2)%nat -> po_sym (p_opt p) = false -> explicit p -> po_iso (p_opt p) = false ->
  passes g w sched d p o n l s0 -> psc_body g w o (sched (q_iter s0)) s0 = Ok s -> exists nf t h, p_nf (q_p s0) = Some nf /\ kinetic_pot g (pe_env w) p nf t /\ repulsion_pot g (pe_env w) p nf h /\
  forall c, computed p c -> exists f0 m tc hc f v, p_f (q_p s0) c = Some f0 /\ k_n (f_ks f0) = Some m /\ kinetic_pot g (pe_env w) p m tc /\ repulsion_pot g (pe_env w) p m hc /\ p_f (q_p s) c = Some f /\ f_V f "vp"%string = Some v /\
    (forall k j, (k < Nelem g)%nat -> (j < pol)%nat -> k_vnuc (f_ks f0) k j = match c with Ca | CA => coulomb g Za 0 k | _ => coulomb g 0 Zb k end) /\
    forall k j, (k < Nelem g)%nat -> (j < pol)%nat -> v k j = match c with Ca | CA => coulomb g 0 Zb k | _ => coulomb g Za 0 k end + (t k j - tc k j) + (h k j - hc k j).
Proof. exact embedding_functional. Qed.
Print Assumptions C97_embedding_potential.

Theorem C97_subsystem_potential : forall g w Za Zb pol spec nua nub opt p sched d o n l s0 s, partition_init g Za Zb pol spec nua nub opt = Ok p -> (pol <= 2)%nat -> po_sym (p_opt p) = false -> explicit p -> po_hxc (p_opt p) = "exact"%string -> po_iso (p_opt p) = false ->
  passes g w sched d p o n l s0 -> psc_body g w o (sched (q_iter s0)) s0 = Ok s -> ps_sdft o = true -> exists nf t h, p_nf (q_p s0) = Some nf /\ kinetic_pot g (pe_env w) p nf t /\ repulsion_pot g (pe_env w) p nf h /\
  forall c, computed p c -> match c with Ca | CA => ps_fa o | _ => ps_fb o end = false -> exists f0 m tc f k1 k2 nout ve, p_f (q_p s0) c = Some f0 /\ k_n (f_ks f0) = Some m /\ kinetic_pot g (pe_env w) p m tc /\ p_f (q_p s) c = Some f /\
    frame (f_ks f0) k1 /\ ks_density g (pe_env w) (ps_iter o) (q_dif s0) (sched (q_iter s0) c) k1 = Ok (k2, nout) /\ k_n (f_ks f) = Some (fun x j => (1 - f_alpha f0) * m x j + f_alpha f0 * nout x j) /\ k_veff k1 = Some ve /\
    forall k j, (k < Nelem g)%nat -> (j < pol)%nat -> ve k j = coulomb g Za 0 k + coulomb g 0 Zb k + h k j + (t k j - tc k j).
Proof. exact subsystem_potential. Qed.
Print Assumptions C97_subsystem_potential.

Lemma C97_witness : forall Za Zb kin ess ct nua nub, kin = "none"%string \/ kin = "libxcke"%string -> ct = "pdft"%string \/ ct = "sdft"%string -> (nua = 1 <-> nub = 1) -> exists w p o n l s0 s, partition_init g3p Za Zb 2 m_spec nua nub (w_opt kin false ess) = Ok p /\ po_sym (p_opt p) = false /\ explicit p /\ po_kin (p_opt p) = kin /\
  po_hxc (p_opt p) = "exact"%string /\ po_iso (p_opt p) = false /\ (p_ens p = false <-> nua = 1) /\ passes g3p w w_sched (e_dict ct) p o n l s0 /\ psc_body g3p w o (w_sched (q_iter s0)) s0 = Ok s /\ ps_sdft o = String.eqb ct "sdft" /\ ps_fa o = false /\ ps_fb o = false /\ forall c, member (p_ens p) c -> computed p c.
Proof. exact subsystem_case. Qed.


(** * C98: interacting fragments of mirror-image partitions *)
Theorem C98_exchanged_nuclei : forall g w Za Zb pol spec nua nub opt p p' sched sched' d d' o o' n l l' s s', mirror_setting g (pe_env w) -> equivariant g (pe_env w) (across g) -> (pol = 1 \/ pol = 2)%nat ->
  partition_init g Za Zb pol spec nua nub opt = Ok p -> partition_init g Zb Za pol (fun c => spec (partner c)) nub nua opt = Ok p' -> local_embedding (pe_env w) p -> explicit p ->
  po_iso (p_opt p) = false -> po_ab (p_opt p) = false -> passes g w sched d p o n l s -> passes g w sched' d' p' o' n l' s' ->
  ps_cont o = false -> ps_cont o' = false -> ps_target o = false -> ps_target o' = false -> ps_sdft o' = ps_sdft o -> ps_fa o' = ps_fb o -> ps_fb o' = ps_fa o -> (forall c, member (p_ens p) c -> step_size (ps_alpha o') (partner c) = step_size (ps_alpha o) c) ->
  (forall c, member (p_ens p) c -> exists f f' m m', p_f (q_p s) c = Some f /\ p_f (q_p s') (partner c) = Some f' /\ k_n (f_ks f) = Some m /\ k_n (f_ks f') = Some m' /\ reflected g pol m m' /\
     ((0 < n)%nat -> exists E E' v v', k_E (f_ks f) = Some E /\ k_E (f_ks f') = Some E' /\ E_E E' = E_E E /\ f_V f "vp"%string = Some v /\ f_V f' "vp"%string = Some v' /\ reflected g pol v v')) /\
  (exists nf nf', p_nf (q_p s) = Some nf /\ p_nf (q_p s') = Some nf' /\ reflected g pol nf nf') /\
  ((0 < n)%nat -> exists vp vp', p_V (q_p s) "vp"%string = Some vp /\ p_V (q_p s') "vp"%string = Some vp' /\ reflected g pol vp vp').
Proof. exact exchanged_embedding. Qed.
Print Assumptions C98_exchanged_nuclei.

Theorem C98_identical_fragments : forall g w Z pol spec nu opt p sched d o n l s, mirror_setting g (pe_env w) -> equivariant g (pe_env w) (across g) -> (pol = 1 \/ pol = 2)%nat ->
  partition_init g Z Z pol spec nu nu opt = Ok p -> spec Cb = spec Ca -> spec CB = spec CA -> local_embedding (pe_env w) p -> explicit p -> po_iso (p_opt p) = false -> po_ab (p_opt p) = false ->
  passes g w sched d p o n l s -> ps_cont o = false -> ps_target o = false -> ps_fb o = ps_fa o -> step_size (ps_alpha o) Cb = step_size (ps_alpha o) Ca -> (p_ens p = true -> step_size (ps_alpha o) CB = step_size (ps_alpha o) CA) ->
  (forall c, member (p_ens p) c -> exists f f' m m', p_f (q_p s) c = Some f /\ p_f (q_p s) (partner c) = Some f' /\ k_n (f_ks f) = Some m /\ k_n (f_ks f') = Some m' /\ reflected g pol m m' /\
     ((0 < n)%nat -> exists E E' v v', k_E (f_ks f) = Some E /\ k_E (f_ks f') = Some E' /\ E_E E' = E_E E /\ f_V f "vp"%string = Some v /\ f_V f' "vp"%string = Some v' /\ reflected g pol v v')) /\
  (exists nf, p_nf (q_p s) = Some nf /\ reflected g pol nf nf) /\ ((0 < n)%nat -> exists vp, p_V (q_p s) "vp"%string = Some vp /\ reflected g pol vp vp).
Proof. exact identical_embedding. Qed.
Print Assumptions C98_identical_fragments.

Theorem C98_energy_sum : forall g w Za Zb pol spec nua nub opt p p' sched sched' d d' o o' n l l' s s', mirror_setting g (pe_env w) -> equivariant g (pe_env w) (across g) -> (pol = 1 \/ pol = 2)%nat ->
  partition_init g Za Zb pol spec nua nub opt = Ok p -> partition_init g Zb Za pol (fun c => spec (partner c)) nub nua opt = Ok p' -> local_embedding (pe_env w) p -> explicit p ->
  po_iso (p_opt p) = false -> po_ab (p_opt p) = false -> passes g w sched d p o (S n) l s -> passes g w sched' d' p' o' (S n) l' s' ->
  ps_cont o = false -> ps_cont o' = false -> ps_target o = false -> ps_target o' = false -> ps_sdft o' = ps_sdft o -> ps_fa o' = ps_fb o -> ps_fb o' = ps_fa o -> (forall c, member (p_ens p) c -> step_size (ps_alpha o') (partner c) = step_size (ps_alpha o) c) ->
  exists F e Ef Ef', energies (q_p s) F e /\ p_E (q_p s) "Ef"%string = Some Ef /\ p_E (q_p s') "Ef"%string = Some Ef' /\
    let x := fun c => f_scale (F c) * to_R (E_E (e c)) in
    (p_ens p = false -> Ef' = Ef) /\ (p_ens p = true -> Ef' = Ef + (if po_ess (p_opt p) then 2 else 1) * ((x CA - x Ca) - (x CB - x Cb))).
Proof. exact exchanged_energy_sum. Qed.
Print Assumptions C98_energy_sum.

Lemma C98_witness : forall Za Zb kin ess ct nua nub, kin = "none"%string \/ kin = "libxcke"%string -> ct = "pdft"%string \/ ct = "sdft"%string -> (nua = 1 <-> nub = 1) -> exists w p p' o o' n l l' s s', mirror_setting g3p (pe_env w) /\ equivariant g3p (pe_env w) (across g3p) /\
  partition_init g3p Za Zb 2 m_spec nua nub (w_opt kin false ess) = Ok p /\ partition_init g3p Zb Za 2 (fun c => m_spec (partner c)) nub nua (w_opt kin false ess) = Ok p' /\ local_embedding (pe_env w) p /\ explicit p /\ po_iso (p_opt p) = false /\ po_ab (p_opt p) = false /\
  po_kin (p_opt p) = kin /\ po_ess (p_opt p) = ess /\ (p_ens p = false <-> nua = 1) /\ passes g3p w w_sched (e_dict ct) p o n l s /\ passes g3p w w_sched (e_dict ct) p' o' n l' s' /\ (0 < n)%nat /\
  ps_cont o = false /\ ps_cont o' = false /\ ps_target o = false /\ ps_target o' = false /\ ps_sdft o' = ps_sdft o /\ ps_fa o' = ps_fb o /\ ps_fb o' = ps_fa o /\ (forall c, member (p_ens p) c -> step_size (ps_alpha o') (partner c) = step_size (ps_alpha o) c).
Proof. exact embedding_case. Qed.

Lemma C98_identical_witness : forall Z kin ess ct nu, kin = "none"%string \/ kin = "libxcke"%string -> ct = "pdft"%string \/ ct = "sdft"%string -> exists w p o n l s, mirror_setting g3p (pe_env w) /\ equivariant g3p (pe_env w) (across g3p) /\
  partition_init g3p Z Z 2 w_spec nu nu (w_opt kin false ess) = Ok p /\ w_spec Cb = w_spec Ca /\ w_spec CB = w_spec CA /\ local_embedding (pe_env w) p /\ explicit p /\ po_iso (p_opt p) = false /\ po_ab (p_opt p) = false /\
  po_kin (p_opt p) = kin /\ (p_ens p = false <-> nu = 1) /\ partition_scf g3p w w_sched (e_dict ct) p = Ok s /\ passes g3p w w_sched (e_dict ct) p o n l s /\ (0 < n)%nat /\
  ps_cont o = false /\ ps_target o = false /\ ps_fb o = ps_fa o /\ step_size (ps_alpha o) Cb = step_size (ps_alpha o) Ca /\ (p_ens p = true -> step_size (ps_alpha o) CB = step_size (ps_alpha o) CA).
Proof. exact identical_embedding_case. Qed.

(** * C99: the total energy of explicit functionals *)
Theorem C99_total_energy : forall g w Za Zb pol spec nua nub opt p sched d o n l s0 s, partition_init g Za Zb pol spec nua nub opt = Ok p -> (pol <= 2)%nat -> po_sym (p_opt p) = false ->
  po_kin (p_opt p) = "none"%string \/ po_kin (p_opt p) = "libxcke"%string -> po_hxc (p_opt p) = "exact"%string -> po_int (p_opt p) = "dft"%string -> po_iso (p_opt p) = false -> po_ab (p_opt p) = false -> p_ens p = false ->
  passes g w sched d p o n l s0 -> psc_test o s0 = Ok true -> psc_body g w o (sched (q_iter s0)) s0 = Ok s -> ps_target o = false ->
  exists nf0 nf T0 n0 T e vh x c, p_nf (q_p s0) = Some nf0 /\ p_nf (q_p s) = Some nf /\ kinetic_int g (pe_env w) p nf0 T0 /\
    (forall c, c = Ca \/ c = Cb -> exists f f', p_f (q_p s0) c = Some f /\ k_n (f_ks f) = Some (n0 c) /\ kinetic_int g (pe_env w) p (n0 c) (T c) /\ p_f (q_p s) c = Some f' /\ k_E (f_ks f') = Some (e c)) /\
    v_hartree g (e_spL (pe_env w)) (e_spU (pe_env w)) (A1 (fun k => sumR pol (fun s => nf k s))) = Ok vh /\
    get_xc g (e_lib (pe_env w)) (po_fam (p_opt p)) (po_xid (p_opt p)) pol nf0 = Ok x /\ get_xc g (e_lib (pe_env w)) (po_fam (p_opt p)) (po_cid (p_opt p)) pol nf0 = Ok c /\
    p_T (q_p s) "E"%string = Some (SC (to_R (E_Ts (e Ca)) + to_R (E_Ts (e Cb)) + (T0 - T Ca - T Cb) +
      integrate1 g (fun k => sumR pol (fun s => nf k s) * (coulomb g Za 0 k + coulomb g 0 Zb k)) + 1 / 2 * integrate1 g (fun k => sumR pol (fun s => nf k s) * entry vh k 0) + fst (fst x) + fst (fst c) + Za * Zb / (2 * ga g))).
Proof. exact run_explicit. Qed.
Print Assumptions C99_total_energy.

Lemma C99_witness : forall Za Zb kin ess ct, kin = "none"%string \/ kin = "libxcke"%string -> ct = "pdft"%string \/ ct = "sdft"%string -> exists w p o n l s0 s, partition_init g3p Za Zb 2 m_spec 1 1 (w_opt kin false ess) = Ok p /\ po_sym (p_opt p) = false /\ po_kin (p_opt p) = kin /\
  po_hxc (p_opt p) = "exact"%string /\ po_int (p_opt p) = "dft"%string /\ po_iso (p_opt p) = false /\ po_ab (p_opt p) = false /\ p_ens p = false /\ passes g3p w w_sched (e_dict ct) p o n l s0 /\ psc_test o s0 = Ok true /\ psc_body g3p w o (w_sched (q_iter s0)) s0 = Ok s /\ ps_target o = false /\
  partition_scf g3p w w_sched (e_dict ct) p = Ok s.
Proof. exact explicit_case. Qed.

(** * C100: energies and numbers of passes of mirror-image partitions *)
Theorem C100_every_pass : forall g w Za Zb pol spec nua nub opt p p' sched sched' d d' o o' n l l' s s', mirror_setting g (pe_env w) -> equivariant g (pe_env w) (across g) -> (pol = 1 \/ pol = 2)%nat ->
  partition_init g Za Zb pol spec nua nub opt = Ok p -> partition_init g Zb Za pol (fun c => spec (partner c)) nub nua opt = Ok p' -> local_embedding (pe_env w) p ->
  po_kin (p_opt p) = "none"%string \/ po_kin (p_opt p) = "libxcke"%string -> po_hxc (p_opt p) = "exact"%string -> po_int (p_opt p) = "dft"%string -> po_sym (p_opt p) = false -> po_iso (p_opt p) = false -> po_ab (p_opt p) = false -> p_ens p = false ->
  ps_cont o = false -> ps_cont o' = false -> ps_target o = false -> ps_target o' = false -> ps_sdft o' = ps_sdft o -> ps_fa o' = ps_fb o -> ps_fb o' = ps_fa o -> (forall c, member (p_ens p) c -> step_size (ps_alpha o') (partner c) = step_size (ps_alpha o) c) ->
  passes g w sched d p o n l s -> passes g w sched' d' p' o' n l' s' ->
  q_dif s' = q_dif s /\ q_iter s' = q_iter s /\ ((0 < n)%nat -> exists E, p_T (q_p s) "E"%string = Some (SC E) /\ p_T (q_p s') "E"%string = Some (SC E)).
Proof. exact exchanged_passes. Qed.
Print Assumptions C100_every_pass.

Theorem C100_complete_runs : forall g w Za Zb pol spec nua nub opt p p' sched sched' d o s s', mirror_setting g (pe_env w) -> equivariant g (pe_env w) (across g) -> (pol = 1 \/ pol = 2)%nat ->
  partition_init g Za Zb pol spec nua nub opt = Ok p -> partition_init g Zb Za pol (fun c => spec (partner c)) nub nua opt = Ok p' -> local_embedding (pe_env w) p ->
  po_kin (p_opt p) = "none"%string \/ po_kin (p_opt p) = "libxcke"%string -> po_hxc (p_opt p) = "exact"%string -> po_int (p_opt p) = "dft"%string -> po_sym (p_opt p) = false -> po_iso (p_opt p) = false -> po_ab (p_opt p) = false -> p_ens p = false ->
  partition_scf g w sched d p = Ok s -> partition_scf g w sched' d p' = Ok s' -> psc_options p d = Ok o -> ps_cont o = false -> ps_target o = false -> ps_fb o = ps_fa o -> step_size (ps_alpha o) Cb = step_size (ps_alpha o) Ca ->
  q_iter s' = q_iter s /\ q_dif s' = q_dif s /\ ((1 < q_iter s)%Z -> exists E, p_T (q_p s) "E"%string = Some (SC E) /\ p_T (q_p s') "E"%string = Some (SC E)) /\
  (exists nf nf', p_nf (q_p s) = Some nf /\ p_nf (q_p s') = Some nf' /\ reflected g pol nf nf') /\
  forall c, c = Ca \/ c = Cb -> exists f f' m m', p_f (q_p s) c = Some f /\ p_f (q_p s') (partner c) = Some f' /\ k_n (f_ks f) = Some m /\ k_n (f_ks f') = Some m' /\ reflected g pol m m'.
Proof. exact exchanged_stops. Qed.
Print Assumptions C100_complete_runs.

Lemma C100_witness : forall Za Zb kin ess ct, kin = "none"%string \/ kin = "libxcke"%string -> ct = "pdft"%string \/ ct = "sdft"%string -> exists w p p' o s s', mirror_setting g3p (pe_env w) /\ equivariant g3p (pe_env w) (across g3p) /\
  partition_init g3p Za Zb 2 m_spec 1 1 (w_opt kin false ess) = Ok p /\ partition_init g3p Zb Za 2 (fun c => m_spec (partner c)) 1 1 (w_opt kin false ess) = Ok p' /\ local_embedding (pe_env w) p /\ po_kin (p_opt p) = kin /\ po_hxc (p_opt p) = "exact"%string /\ po_int (p_opt p) = "dft"%string /\
  po_sym (p_opt p) = false /\ po_iso (p_opt p) = false /\ po_ab (p_opt p) = false /\ p_ens p = false /\ partition_scf g3p w w_sched (e_dict ct) p = Ok s /\ partition_scf g3p w w_sched (e_dict ct) p' = Ok s' /\ psc_options p (e_dict ct) = Ok o /\
  ps_cont o = false /\ ps_target o = false /\ ps_fb o = ps_fa o /\ step_size (ps_alpha o) Cb = step_size (ps_alpha o) Ca /\ (1 < q_iter s)%Z.
Proof. exact exchanged_case. Qed.
