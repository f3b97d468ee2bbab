(** C127: a fragment without nucleus and electrons. *)
From Coq Require Import Reals List Arith Lia Lra ZArith Bool String.
From Verif Require Import Base BaseLemmas GridModel GridSpec HartreeModel HartreeThms SolverModel LibxcModel OptionsModel KSModel KSSpec KSProofs KSThms InverterModel PartitionModel PartitionSpec PartitionWit NonInteracting EmbedPot EmbedEnergy EmbedWit EmptyFrag EmptyWit.
Import ListNotations.
Local Open Scope R_scope.

Theorem C127_empty_density : forall g w Za Zb pol spec nua nub opt p sched d o n l s c, partition_init g Za Zb pol spec nua nub opt = Ok p -> passes g w sched d p o n l s -> computed p c -> no_electrons (spec c) ->
  exists f m, p_f (q_p s) c = Some f /\ k_n (f_ks f) = Some m /\ forall x j, m x j = 0.
Proof. exact empty_density. Qed.
Print Assumptions C127_empty_density.

Theorem C127_no_force : forall g w Za pol spec opt p sched d o n l s0 s, lone g Za pol spec opt p -> passes g w sched d p o n l s0 -> psc_body g w o (sched (q_iter s0)) s0 = Ok s -> ps_target o = false ->
  exists f0 nf f v vp, p_f (q_p s0) Ca = Some f0 /\ k_n (f_ks f0) = Some nf /\ p_nf (q_p s0) = Some nf /\ p_f (q_p s) Ca = Some f /\ f_V f "vp"%string = Some v /\ p_V (q_p s) "vp"%string = Some vp /\
    forall k j, (k < Nelem g)%nat -> (j < pol)%nat -> v k j = 0 /\ vp k j = 0.
Proof. exact empty_pass. Qed.
Print Assumptions C127_no_force.

Theorem C127_as_kohnsham : forall g w Za pol spec opt p sched d o n l s f0 a ko ksched k st, steady g (pe_env w) -> lone g Za pol spec opt p -> passes g w sched d p o n l s -> ps_cont o = false -> ps_target o = false ->
  p_f p Ca = Some f0 -> step_size (ps_alpha o) Ca = Some a ->
  scf_trace g (pe_env w) ko ksched k st -> frame (f_ks f0) k -> k_vext k = None -> so_cont ko = false -> so_flip ko = false -> so_alpha ko = a -> c_iter st = (Z.of_nat n + 1)%Z ->
  exists f m, p_f (q_p s) Ca = Some f /\ k_n (f_ks f) = Some m /\ k_n (c_ks st) = Some m /\ p_nf (q_p s) = Some m /\ ((0 < n)%nat -> exists E, k_E (f_ks f) = Some E /\ c_oldE st = E_E E).
Proof. exact lone_as_kohnsham. Qed.
Print Assumptions C127_as_kohnsham.

Theorem C127_energy : forall g w Za pol spec opt p sched d o n l s0 s, lone g Za pol spec opt p -> po_hxc (p_opt p) = "exact"%string -> po_int (p_opt p) = "dft"%string ->
  passes g w sched d p o n l s0 -> psc_test o s0 = Ok true -> psc_body g w o (sched (q_iter s0)) s0 = Ok s -> ps_target o = false ->
  exists f E n0 n1 x0 c0 x1 c1, p_f (q_p s) Ca = Some f /\ k_E (f_ks f) = Some E /\ p_nf (q_p s0) = Some n0 /\ p_nf (q_p s) = Some n1 /\
    get_xc g (e_lib (pe_env w)) (po_fam (p_opt p)) (po_xid (p_opt p)) pol n0 = Ok x0 /\ get_xc g (e_lib (pe_env w)) (po_fam (p_opt p)) (po_cid (p_opt p)) pol n0 = Ok c0 /\
    get_xc g (e_lib (pe_env w)) (po_fam (p_opt p)) (po_xid (p_opt p)) pol n1 = Ok x1 /\ get_xc g (e_lib (pe_env w)) (po_fam (p_opt p)) (po_cid (p_opt p)) pol n1 = Ok c1 /\
    p_T (q_p s) "E"%string = Some (SC (to_R (E_E E) + (fst (fst x0) - fst (fst x1)) + (fst (fst c0) - fst (fst c1)))).
Proof. exact lone_energy. Qed.
Print Assumptions C127_energy.

Lemma C127_witness : forall Za kin ct, kin = "none"%string \/ kin = "libxcke"%string -> ct = "pdft"%string \/ ct = "sdft"%string ->
  exists w p o n l s0 s, lone g3p Za 2 z_spec (w_opt kin false false) p /\ po_kin (p_opt p) = kin /\ po_hxc (p_opt p) = "exact"%string /\ po_int (p_opt p) = "dft"%string /\ partition_scf g3p w w_sched (e_dict ct) p = Ok s /\
  passes g3p w w_sched (e_dict ct) p o n l s0 /\ psc_test o s0 = Ok true /\ psc_body g3p w o (w_sched (q_iter s0)) s0 = Ok s /\ ps_cont o = false /\ ps_target o = false /\ ps_sdft o = String.eqb ct "sdft".
Proof. exact lone_case. Qed.

Lemma C127_pair_witness : forall Za kin ct, kin = "none"%string \/ kin = "libxcke"%string -> ct = "pdft"%string \/ ct = "sdft"%string ->
  exists w p o l s f0 dk ko k st, steady g3p (pe_env w) /\ lone g3p Za 2 z_spec (w_opt kin false false) p /\ passes g3p w w_sched (e_dict ct) p o 1 l s /\ ps_cont o = false /\ ps_target o = false /\ p_f p Ca = Some f0 /\ step_size (ps_alpha o) Ca = Some (82 / 100) /\
  scf_options dk = Ok ko /\ k = f_ks f0 /\ scf_trace g3p (pe_env w) ko (fun _ => keys k) k st /\ frame (f_ks f0) k /\ k_vext k = None /\ so_cont ko = false /\ so_flip ko = false /\ so_alpha ko = 82 / 100 /\ c_iter st = (Z.of_nat 1 + 1)%Z.
Proof. exact lone_pair. Qed.

