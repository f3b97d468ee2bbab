(** The settings an Inverter and a run of Partition.scf work with, stated over the dictionaries the caller gives. *)
From Coq Require Import Reals List Arith ZArith Bool String Ascii Lia.
From Verif Require Import Base OptionsModel OptionsProofs OptionsMore KSModel SolverModel InverterModel PartitionModel.
Import ListNotations.
Local Open Scope string_scope.

(** The value in force: the one given under the name (any case), otherwise the default. *)
Definition setting (d : dict) (f : string) (dflt v : pv) : Prop := gives d f v \/ (silent d f /\ v = dflt).
(** A float option may be given as an integer. *)
Definition real_setting (d : dict) (f : string) (dflt r : R) : Prop :=
  setting d f (VR dflt) (VR r) \/ exists z, gives d f (VZ z) /\ r = IZR z.

Lemma given_or_silent : forall d f, (exists v, gives d f v) \/ silent d f.
Proof.
  intros d f. induction d as [|(k, v) d [(w & k' & E & J)|S]].
  - right. intros k [].
  - left. exists w, k'. split; simpl; auto.
  - destruct (string_dec (lower k) f) as [E|N].
    + left. exists v, k. split; simpl; auto.
    + right. intros k' [<- | J]; simpl; auto.
Qed.
Lemma given_value : forall sc d o f v, In sc option_classes -> case_distinct d -> configure sc d = Ok o -> In f sc -> gives d (f_name f) v ->
  dget o (f_name f) = Some v /\ admissible f v.
Proof.
  intros sc d o f v HS CD H Hf G. destruct (configure_field sc d o (classes_nodup sc HS) CD H) as (A & _ & _). split; [apply A; auto; apply in_map, Hf|].
  destruct G as (k & E & J). destruct (proj1 (accepted_iff sc d HS CD) (ex_intro _ o H) k v J) as (f' & Hf' & E' & Ad).
  assert (f' = f) as -> by (apply (names_unique sc); auto using classes_nodup; congruence). auto.
Qed.
Section Field.
  Variables (sc : schema) (d o : dict) (f : field).
  Hypotheses (HS : In sc option_classes) (CD : case_distinct d) (H : configure sc d = Ok o) (Hf : In f sc).
  Lemma silent_value : silent d (f_name f) -> dget o (f_name f) = Some (f_default f).
  Proof. destruct (configure_field sc d o (classes_nodup sc HS) CD H) as (_ & B & _). auto. Qed.
  Lemma setting_B : forall b, f_default f = VB b -> setting d (f_name f) (VB b) (VB (getB o (f_name f))).
  Proof.
    intros b E. unfold getB. destruct (given_or_silent d (f_name f)) as [(v & G)|S].
    - destruct (given_value sc d o f v HS CD H Hf G) as (-> & A). inversion A; try congruence. left. subst v. exact G.
    - right. rewrite (silent_value S), E. auto.
  Qed.
  Lemma setting_Z : forall b, f_default f = VZ b -> setting d (f_name f) (VZ b) (VZ (getZ o (f_name f))).
  Proof.
    intros b E. unfold getZ. destruct (given_or_silent d (f_name f)) as [(v & G)|S].
    - destruct (given_value sc d o f v HS CD H Hf G) as (-> & A). inversion A; try congruence. left. subst v. exact G.
    - right. rewrite (silent_value S), E. auto.
  Qed.
  Lemma setting_S : forall b, f_default f = VS b -> setting d (f_name f) (VS b) (VS (getS o (f_name f))).
  Proof.
    intros b E. unfold getS. destruct (given_or_silent d (f_name f)) as [(v & G)|S].
    - destruct (given_value sc d o f v HS CD H Hf G) as (-> & A). inversion A; try congruence; left; subst v; exact G.
    - right. rewrite (silent_value S), E. auto.
  Qed.
  Lemma setting_L : forall b, f_default f = VL b -> setting d (f_name f) (VL b) (VL (getL o (f_name f))).
  Proof.
    intros b E. unfold getL. destruct (given_or_silent d (f_name f)) as [(v & G)|S].
    - destruct (given_value sc d o f v HS CD H Hf G) as (-> & A). inversion A; try congruence. left. subst v. exact G.
    - right. rewrite (silent_value S), E. auto.
  Qed.
  Lemma setting_R : forall b, f_default f = VR b -> real_setting d (f_name f) b (getR o (f_name f)).
  Proof.
    intros b E. unfold getR. destruct (given_or_silent d (f_name f)) as [(v & G)|S].
    - destruct (given_value sc d o f v HS CD H Hf G) as (-> & A). inversion A; try congruence; subst v.
      + left. left. exact G.
      + right. eexists. split; [exact G|]. reflexivity.
    - left. right. rewrite (silent_value S), E. auto.
  Qed.
End Field.

Theorem inverter_settings : forall lv cols sol vset d iv, case_distinct d -> inverter_init lv cols sol vset d = Ok iv ->
  setting d "ab_sym" (VB false) (VB (io_ab (i_opt iv))) /\ setting d "ens_spin_sym" (VB false) (VB (io_ess (i_opt iv))) /\
  setting d "use_iterative" (VB false) (VB (io_iter (i_opt iv))) /\ setting d "avoid_loop" (VB false) (VB (io_avoid (i_opt iv))) /\
  setting d "invert_type" (VS "wuyang") (VS (io_type (i_opt iv))) /\ real_setting d "tol_invert" (/ 10 ^ 12) (io_tol (i_opt iv)) /\
  setting d "max_iter_invert" (VZ 20) (VZ (io_maxit (i_opt iv))) /\ real_setting d "res_factor" 1 (io_resf (i_opt iv)) /\
  i_lv iv = lv /\ i_cols iv = cols /\ i_sol iv = sol /\ i_vset iv = vset /\ i_vs iv = None /\ i_us iv = None /\ i_Ts iv = None.
Proof.
  intros lv cols sol vset d iv CD H. unfold inverter_init in H. destruct (configure InverterOptions d) as [o|] eqn:C; [|discriminate]. cbn [bind] in H.
  destruct (_ || _)%bool; [discriminate|]. injection H as <-. cbn [i_opt i_lv i_cols i_sol i_vset i_vs i_us i_Ts io_ab io_ess io_iter io_avoid io_type io_tol io_maxit io_resf].
  assert (HS : In InverterOptions option_classes) by (simpl; tauto).
  split; [exact (setting_B _ _ _ (B "ab_sym" false) HS CD C ltac:(simpl; tauto) _ eq_refl)|].
  split; [exact (setting_B _ _ _ (B "ens_spin_sym" false) HS CD C ltac:(simpl; tauto) _ eq_refl)|].
  split; [exact (setting_B _ _ _ (B "use_iterative" false) HS CD C ltac:(simpl; tauto) _ eq_refl)|].
  split; [exact (setting_B _ _ _ (B "avoid_loop" false) HS CD C ltac:(simpl; tauto) _ eq_refl)|].
  split; [exact (setting_S _ _ _ (St "invert_type" "wuyang" (Some ["wuyang"; "simple"; "orbitalinvert"; "qinvert"; "eigensolveinvert"; "test"])) HS CD C ltac:(simpl; tauto) _ eq_refl)|].
  split; [exact (setting_R _ _ _ (Fl "tol_invert" (/ 10 ^ 12)) HS CD C ltac:(simpl; tauto) _ eq_refl)|].
  split; [exact (setting_Z _ _ _ (I "max_iter_invert" 20) HS CD C ltac:(simpl; tauto) _ eq_refl)|].
  split; [exact (setting_R _ _ _ (Fl "res_factor" 1) HS CD C ltac:(simpl; tauto) _ eq_refl)|].
  repeat split.
Qed.

Theorem pscf_settings : forall p d o, case_distinct d -> psc_options p d = Ok o ->
  real_setting d "e_tol" (/ 10 ^ 7) (ps_tol o) /\ setting d "max_iter" (VZ 50) (VZ (ps_maxit o)) /\ setting d "alpha" (VL [(82 / 100)%R]) (VL (ps_alpha o)) /\
  (exists t, setting d "calc_type" (VS "pdft") (VS t) /\ (ps_sdft o = true <-> t = "sdft")) /\
  setting d "continuing" (VB false) (VB (ps_cont o)) /\ setting d "from_target_density" (VB false) (VB (ps_target o)) /\
  setting d "iterative" (VB true) (VB (ps_iter o)) /\ setting d "auto_tol" (VB false) (VB (ps_auto o)) /\
  setting d "freeze_a" (VB false) (VB (ps_fa o)) /\ setting d "freeze_b" (VB false) (VB (ps_fb o)).
Proof.
  intros p d o CD H. unfold psc_options in H. destruct (configure_partition_scf (po_iso (p_opt p)) d) as [c|] eqn:C; [|discriminate]. cbn [bind] in H. injection H as <-.
  cbn [ps_tol ps_maxit ps_alpha ps_sdft ps_cont ps_target ps_iter ps_auto ps_fa ps_fb].
  unfold configure_partition_scf in C. destruct (configure PartitionSCFOptions d) as [c0|] eqn:C0; [|discriminate]. cbn [bind] in C. injection C as <-.
  set (m := fun kv : string * pv => if String.eqb (fst kv) "isolated" then (fst kv, VB (po_iso (p_opt p))) else kv).
  assert (G : forall l f, f <> "isolated" -> dget (map m l) f = dget l f).
  { induction l as [|(k, v) l IH]; intros f Hf; auto. cbn [map dget].
    assert (m (k, v) = (k, if String.eqb k "isolated" then VB (po_iso (p_opt p)) else v)) as ->. { unfold m; simpl. destruct (String.eqb k "isolated"); auto. }
    simpl. rewrite IH by auto. destruct (dget l f); auto. destruct (String.eqb_spec f k); auto. subst. destruct (String.eqb_spec k "isolated"); congruence. }
  unfold getR, getZ, getL, getS, getB. rewrite !G by discriminate.
  assert (HS : In PartitionSCFOptions option_classes) by (simpl; tauto).
  split; [exact (setting_R _ _ _ (Fl "e_tol" (/ 10 ^ 7)) HS CD C0 ltac:(simpl; tauto) _ eq_refl)|].
  split; [exact (setting_Z _ _ _ (I "max_iter" 50) HS CD C0 ltac:(simpl; tauto) _ eq_refl)|].
  split; [exact (setting_L _ _ _ (mkField "alpha" (VL [(82 / 100)%R]) None) HS CD C0 ltac:(simpl; tauto) _ eq_refl)|].
  split.
  { eexists. split; [exact (setting_S _ _ _ (St "calc_type" "pdft" (Some ["pdft"; "sdft"])) HS CD C0 ltac:(simpl; tauto) _ eq_refl)|]. apply String.eqb_eq. }
  split; [exact (setting_B _ _ _ (B "continuing" false) HS CD C0 ltac:(simpl; tauto) _ eq_refl)|].
  split; [exact (setting_B _ _ _ (B "from_target_density" false) HS CD C0 ltac:(simpl; tauto) _ eq_refl)|].
  split; [exact (setting_B _ _ _ (B "iterative" true) HS CD C0 ltac:(simpl; tauto) _ eq_refl)|].
  split; [exact (setting_B _ _ _ (B "auto_tol" false) HS CD C0 ltac:(simpl; tauto) _ eq_refl)|].
  split; [exact (setting_B _ _ _ (B "freeze_a" false) HS CD C0 ltac:(simpl; tauto) _ eq_refl)|].
  exact (setting_B _ _ _ (B "freeze_b" false) HS CD C0 ltac:(simpl; tauto) _ eq_refl).
Qed.
