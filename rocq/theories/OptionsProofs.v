(** Lemmas about option dictionaries. *)
From Coq Require Import Reals List Arith ZArith Bool String Ascii Lia.
From Verif Require Import Base OptionsModel.
Import ListNotations.
Local Open Scope string_scope.

(** Independent vocabulary: the keys of a dict up to case; the value a dict gives to a field name. *)
Definition keys_of (d : dict) : list string := map fst d.
Definition gives (d : dict) (f : string) (v : pv) : Prop := exists k, lower k = f /\ In (k, v) d.
Definition silent (d : dict) (f : string) : Prop := forall k, In k (keys_of d) -> lower k <> f.
Definition case_distinct (d : dict) : Prop := NoDup (map lower (keys_of d)).

Lemma dget_in : forall d k v, NoDup (map fst d) -> In (k, v) d -> dget d k = Some v.
Proof.
  induction d as [|(k', v') r IH]; intros k v ND H; [contradiction|]. simpl in *. inversion ND; subst.
  destruct H as [E|H].
  - injection E as <- <-. destruct (dget r k') as [x|] eqn:Q.
    + exfalso. apply H2. clear -Q. induction r as [|(a, b) r IH]; [discriminate|]. simpl in *.
      destruct (dget r k'); [right; auto|]. destruct (String.eqb_spec k' a); [left; congruence|discriminate].
    + rewrite String.eqb_refl. reflexivity.
  - rewrite (IH k v); auto.
Qed.
Lemma dget_none : forall d k, ~ In k (map fst d) -> dget d k = None.
Proof.
  induction d as [|(k', v') r IH]; intros k H; auto. simpl in *. rewrite IH by tauto.
  destruct (String.eqb_spec k k'); auto. exfalso. apply H. left. congruence.
Qed.
Lemma dget_some_in : forall d k v, dget d k = Some v -> In (k, v) d.
Proof.
  induction d as [|(k', v') r IH]; intros k v H; [discriminate|]. simpl in *.
  destruct (dget r k) eqn:Q.
  - injection H as ->. right. auto.
  - destruct (String.eqb_spec k k'); [|discriminate]. injection H as ->. subst. left; auto.
Qed.
Lemma lower_keys_fst : forall d, map fst (lower_keys d) = map lower (keys_of d).
Proof. intros. unfold lower_keys, keys_of. rewrite !map_map. reflexivity. Qed.
Lemma gives_in : forall d f v, gives d f v <-> In (f, v) (lower_keys d).
Proof.
  intros. unfold gives, lower_keys. rewrite in_map_iff. split.
  - intros (k & <- & H). exists (k, v). split; auto.
  - intros ((k, v') & E & H). simpl in E. injection E as <- <-. exists k. auto.
Qed.

Definition field_names (sc : schema) : list string := map f_name sc.
Lemma pydantic_names : forall sc d o, pydantic sc d = Ok o -> map fst o = field_names sc.
Proof.
  induction sc as [|f r IH]; intros d o H; simpl in *; [injection H as <-; auto|].
  destruct (pydantic r d) as [rest|] eqn:Q; [|discriminate]. cbn [bind] in H.
  destruct (dget d (f_name f)).
  - destruct (value_ok f p); [|discriminate]. injection H as <-. simpl. f_equal. eauto.
  - injection H as <-. simpl. f_equal. eauto.
Qed.
Lemma pydantic_get : forall sc d o f, NoDup (field_names sc) -> pydantic sc d = Ok o -> In f sc ->
  dget o (f_name f) = Some (match dget d (f_name f) with Some v => v | None => f_default f end) /\
  (forall v, dget d (f_name f) = Some v -> value_ok f v = true).
Proof.
  induction sc as [|f0 r IH]; intros d o f ND H Hf; [contradiction|]. simpl in *. inversion ND; subst.
  destruct (pydantic r d) as [rest|] eqn:Q; [|discriminate]. cbn [bind] in H.
  destruct Hf as [->|Hf].
  - assert (N : dget rest (f_name f) = None). { apply dget_none. rewrite (pydantic_names r d rest Q). auto. }
    destruct (dget d (f_name f)) eqn:G.
    + destruct (value_ok f p) eqn:V; [|discriminate]. injection H as <-. simpl. rewrite N, String.eqb_refl.
      split; auto. intros v Hv. congruence.
    + injection H as <-. simpl. rewrite N, String.eqb_refl. split; auto. discriminate.
  - destruct (IH d rest f H3 Q Hf) as (A & B). split; auto.
    destruct (dget d (f_name f0)).
    + destruct (value_ok f0 p); [|discriminate]. injection H as <-. simpl. rewrite A. auto.
    + injection H as <-. simpl. rewrite A. auto.
Qed.
Lemma pydantic_ok : forall sc d, (forall f v, In f sc -> dget d (f_name f) = Some v -> value_ok f v = true) ->
  exists o, pydantic sc d = Ok o.
Proof.
  induction sc as [|f r IH]; intros d H; simpl; [eauto|].
  destruct (IH d) as (o & ->); [intros; apply H; simpl; auto|]. cbn [bind].
  destruct (dget d (f_name f)) eqn:G; [|eauto]. rewrite (H f p); simpl; eauto.
Qed.
Lemma pydantic_bad : forall sc d f v, In f sc -> dget d (f_name f) = Some v -> value_ok f v = false -> pydantic sc d = Err ValueError.
Proof.
  induction sc as [|f0 r IH]; intros d f v Hf G V; [contradiction|]. simpl.
  destruct (pydantic r d) as [rest|e] eqn:Q.
  - cbn [bind]. destruct Hf as [->|Hf].
    + rewrite G, V. reflexivity.
    + rewrite (IH d f v Hf G V) in Q. discriminate.
  - cbn [bind]. clear -Q. revert e Q. induction r as [|f1 r IH]; intros e Q; simpl in Q; [discriminate|].
    destruct (pydantic r d) eqn:P; cbn [bind] in Q.
    + destruct (dget d (f_name f1)); [|discriminate]. destruct (value_ok f1 p); [discriminate|]. congruence.
    + eauto.
Qed.
Lemma pydantic_err : forall sc d e, pydantic sc d = Err e -> e = ValueError.
Proof.
  induction sc as [|f r IH]; intros d e H; simpl in H; [discriminate|].
  destruct (pydantic r d) eqn:P; cbn [bind] in H.
  - destruct (dget d (f_name f)); [|discriminate]. destruct (value_ok f p); [discriminate|congruence].
  - injection H as ->. eauto.
Qed.
Lemma known_in : forall sc k, known sc k = true <-> In k (field_names sc).
Proof.
  intros. unfold known. rewrite existsb_exists. split.
  - intros (x & H & E). apply String.eqb_eq in E. subst. exact H.
  - intros H. exists k. split; auto. apply String.eqb_refl.
Qed.

(** ** configure *)
Lemma configure_unknown : forall sc d k, In k (keys_of d) -> ~ In (lower k) (field_names sc) -> configure sc d = Err ValueError.
Proof.
  intros sc d k Hk Hn. unfold configure. destruct (forallb (known sc) (map fst (lower_keys d))) eqn:F; auto.
  exfalso. rewrite forallb_forall in F. apply Hn, known_in, F. rewrite lower_keys_fst. apply in_map. auto.
Qed.
Lemma configure_field : forall sc d o, NoDup (field_names sc) -> case_distinct d -> configure sc d = Ok o ->
  (forall f v, In f (field_names sc) -> gives d f v -> dget o f = Some v) /\
  (forall f, In f sc -> silent d (f_name f) -> dget o (f_name f) = Some (f_default f)) /\
  (forall k, In k (keys_of d) -> In (lower k) (field_names sc)).
Proof.
  intros sc d o ND CD H. unfold configure in H. destruct (forallb (known sc) (map fst (lower_keys d))) eqn:F; [|discriminate].
  split; [|split].
  - intros f v Hf Hg. apply in_map_iff in Hf. destruct Hf as (fl & <- & Hf).
    destruct (pydantic_get sc _ o fl ND H Hf) as (A & _). rewrite A. apply gives_in in Hg.
    rewrite (dget_in _ _ v); auto. rewrite lower_keys_fst. exact CD.
  - intros f Hf Hs. destruct (pydantic_get sc _ o f ND H Hf) as (A & _). rewrite A. rewrite dget_none; auto.
    rewrite lower_keys_fst, in_map_iff. intros (k & E & Hk). exact (Hs k Hk E).
  - intros k Hk. rewrite forallb_forall in F. apply known_in, F. rewrite lower_keys_fst. apply in_map. auto.
Qed.
Lemma configure_accepts : forall sc d, (forall k, In k (keys_of d) -> In (lower k) (field_names sc)) ->
  (forall f k v, In f sc -> In (k, v) d -> lower k = f_name f -> value_ok f v = true) -> exists o, configure sc d = Ok o.
Proof.
  intros sc d H1 H2. unfold configure.
  assert (F : forallb (known sc) (map fst (lower_keys d)) = true).
  { apply forallb_forall. intros x Hx. rewrite lower_keys_fst, in_map_iff in Hx. destruct Hx as (k & <- & Hk). apply known_in, H1, Hk. }
  rewrite F. apply pydantic_ok. intros f v Hf G. apply dget_some_in in G. apply gives_in in G. destruct G as (k & E & Hk). eapply H2; eauto.
Qed.
Lemma configure_bad : forall sc d f k v, case_distinct d -> In f sc -> In (k, v) d -> lower k = f_name f ->
  value_ok f v = false -> configure sc d = Err ValueError.
Proof.
  intros sc d f k v CD Hf Hk E V. unfold configure. destruct (forallb _ _); auto.
  apply (pydantic_bad sc _ f v); auto. apply dget_in; [rewrite lower_keys_fst; auto|]. apply gives_in. exists k. auto.
Qed.
Lemma configure_err : forall sc d e, configure sc d = Err e -> e = ValueError.
Proof. intros sc d e. unfold configure. destruct (forallb _ _); [apply pydantic_err|congruence]. Qed.

(** ** configure_raw *)
Lemma raw_err : forall sc d e, configure_raw sc d = Err e -> e = ValueError.
Proof. intros sc d e. unfold configure_raw. destruct (forallb _ _); [apply pydantic_err|congruence]. Qed.
Lemma raw_unknown : forall sc d k, In k (keys_of d) -> ~ In (lower k) (field_names sc) -> configure_raw sc d = Err ValueError.
Proof.
  intros sc d k Hk Hn. unfold configure_raw. destruct (forallb _ _) eqn:F; auto.
  exfalso. rewrite forallb_forall in F. apply Hn, known_in, F, Hk.
Qed.
Lemma dget_app : forall d1 d2 k, dget (d1 ++ d2)%list k = match dget d2 k with Some v => Some v | None => dget d1 k end.
Proof.
  induction d1 as [|(k', v') r IH]; intros; simpl.
  - destruct (dget d2 k); auto.
  - rewrite IH. destruct (dget d2 k); auto.
Qed.
Lemma pydantic_ext : forall sc d d', (forall f, In f (field_names sc) -> dget d f = dget d' f) -> pydantic sc d = pydantic sc d'.
Proof.
  induction sc as [|f r IH]; intros d d' H; simpl; auto.
  rewrite (IH d d'); [|intros; apply H; simpl; auto]. rewrite (H (f_name f)); simpl; auto.
Qed.
Lemma raw_ignored : forall sc d1 d2 k v, ~ In k (field_names sc) -> In (lower k) (field_names sc) ->
  configure_raw sc (d1 ++ (k, v) :: d2)%list = configure_raw sc (d1 ++ d2)%list.
Proof.
  intros sc d1 d2 k v Hn Hl. unfold configure_raw. rewrite !map_app, !forallb_app. simpl.
  rewrite (proj2 (known_in sc (lower k)) Hl). simpl. destruct (_ && _); auto.
  apply pydantic_ext. intros f Hf. rewrite !dget_app. simpl. destruct (dget d2 f); auto.
  destruct (String.eqb_spec f k); auto. subst. contradiction.
Qed.
Lemma raw_field : forall sc d o, NoDup (field_names sc) -> NoDup (keys_of d) -> configure_raw sc d = Ok o ->
  (forall f v, In f (field_names sc) -> In (f, v) d -> dget o f = Some v) /\
  (forall f, In f sc -> ~ In (f_name f) (keys_of d) -> dget o (f_name f) = Some (f_default f)).
Proof.
  intros sc d o ND CD H. unfold configure_raw in H. destruct (forallb _ _) eqn:F; [|discriminate]. split.
  - intros f v Hf Hg. apply in_map_iff in Hf. destruct Hf as (fl & <- & Hf).
    destruct (pydantic_get sc _ o fl ND H Hf) as (A & _). rewrite A, (dget_in _ _ v); auto.
  - intros f Hf Hs. destruct (pydantic_get sc _ o f ND H Hf) as (A & _). rewrite A. rewrite dget_none; auto.
Qed.

(** ** the classes *)
Ltac nodup := repeat constructor; simpl; intuition discriminate.
Lemma schemas_distinct : NoDup (field_names KohnShamOptions) /\ NoDup (field_names SolverOptions) /\ NoDup (field_names KohnShamSCFOptions) /\
  NoDup (field_names PartitionOptions) /\ NoDup (field_names PartitionSCFOptions) /\ NoDup (field_names InverterOptions).
Proof. repeat split; nodup. Qed.
Lemma schemas_lower : forall sc, In sc [KohnShamOptions; SolverOptions; KohnShamSCFOptions; PartitionOptions; PartitionSCFOptions; InverterOptions] ->
  forall f, In f (field_names sc) -> lower f = f.
Proof.
  intros sc H f Hf. simpl in H. repeat (destruct H as [<-|H]; [simpl in Hf; repeat (destruct Hf as [<-|Hf]; [reflexivity|]); contradiction|]).
  contradiction.
Qed.
Lemma lower_ascii_idem : forall c, lower_ascii (lower_ascii c) = lower_ascii c.
Proof. intros [[] [] [] [] [] [] [] []]; reflexivity. Qed.
Lemma lower_idem : forall s, lower (lower s) = lower s.
Proof. induction s; simpl; auto. rewrite lower_ascii_idem, IHs. reflexivity. Qed.
Lemma partition_scf_field : forall iso d o, case_distinct d -> configure_partition_scf iso d = Ok o ->
  getB o "isolated" = iso /\
  (forall f v, f <> "isolated" -> In f (field_names PartitionSCFOptions) -> gives d f v -> dget o f = Some v) /\
  (forall f, f_name f <> "isolated" -> In f PartitionSCFOptions -> silent d (f_name f) -> dget o (f_name f) = Some (f_default f)).
Proof.
  intros iso d o CD H. unfold configure_partition_scf in H.
  destruct (configure PartitionSCFOptions d) as [o'|] eqn:Q; [|discriminate]. cbn [bind] in H. injection H as <-.
  set (m := fun kv : string * pv => if String.eqb (fst kv) "isolated" then (fst kv, VB iso) else kv).
  assert (G : forall l f, dget (map m l) f = match dget l f with None => None | Some v => Some (if String.eqb f "isolated" then VB iso else v) end).
  { induction l as [|(k, v) l IH]; intros f; auto. cbn [map]. 
    assert (m (k, v) = (k, if String.eqb k "isolated" then VB iso else v)) as ->. { unfold m; simpl. destruct (String.eqb k "isolated"); auto. }
    simpl. rewrite IH. destruct (dget l f); auto. destruct (String.eqb_spec f k); auto. subst. auto. }
  destruct schemas_distinct as (_ & _ & _ & _ & ND & _).
  destruct (configure_field PartitionSCFOptions d o' ND CD Q) as (HA & HB & HC). split; [|split].
  - unfold getB. rewrite G. destruct (dget o' "isolated") eqn:P; auto. exfalso.
    unfold configure in Q. destruct (forallb _ _); [|discriminate].
    destruct (pydantic_get PartitionSCFOptions _ o' (B "isolated" false) ND Q) as (X & _); [simpl; tauto|].
    simpl f_name in X. rewrite P in X. discriminate.
  - intros f v Hn Hf Hg. rewrite G, (HA f v Hf Hg). destruct (String.eqb_spec f "isolated"); congruence.
  - intros f Hn Hf Hs. rewrite G, (HB f Hf Hs). destruct (String.eqb_spec (f_name f) "isolated"); congruence.
Qed.

(** ** An option restricted to a list of strings always holds one of them. *)
Lemma configure_choice : forall sc d o f s0 l, NoDup (field_names sc) -> configure sc d = Ok o -> In f sc ->
  f_default f = VS s0 -> f_values f = Some l -> In s0 l -> In (getS o (f_name f)) l.
Proof.
  intros sc d o f s0 l ND H Hf Hd Hv Hs. unfold configure in H. destruct (forallb _ _); [|discriminate].
  destruct (pydantic_get sc _ o f ND H Hf) as (A & B). unfold getS. rewrite A.
  destruct (dget (lower_keys d) (f_name f)) as [v|] eqn:G; [|rewrite Hd; auto].
  specialize (B v eq_refl). unfold value_ok in B. rewrite Hd, Hv in B. apply andb_true_iff in B. destruct B as [B1 B2].
  destruct v; try discriminate. apply existsb_exists in B2. destruct B2 as (x & Hx & E). apply String.eqb_eq in E. subst. auto.
Qed.
