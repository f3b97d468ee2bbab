(** Which option dictionaries are accepted, stated without the checks of the model. *)
From Coq Require Import Reals List Arith ZArith Bool String Ascii Lia.
From Verif Require Import Base OptionsModel OptionsProofs.
Import ListNotations.
Local Open Scope string_scope.

(** Independent vocabulary: the value kinds a field admits, by the type of its default and the list of its validator. *)
Inductive admissible (f : field) : pv -> Prop :=
| adm_bool : forall d b, f_default f = VB d -> admissible f (VB b)
| adm_int : forall d z, f_default f = VZ d -> admissible f (VZ z)
| adm_float : forall d r, f_default f = VR d -> admissible f (VR r)
| adm_float_int : forall d z, f_default f = VR d -> admissible f (VZ z)
| adm_list : forall d l, f_default f = VL d -> admissible f (VL l)
| adm_free : forall d s, f_default f = VS d -> f_values f = None -> admissible f (VS s)
| adm_choice : forall d s l, f_default f = VS d -> f_values f = Some l -> In s l -> admissible f (VS s).
(** Letters in two columns. *)
Definition capitals : string := "ABCDEFGHIJKLMNOPQRSTUVWXYZ".
Definition smalls : string := "abcdefghijklmnopqrstuvwxyz".
Definition small_of (c c' : ascii) : Prop :=
  (exists i, String.get i capitals = Some c /\ String.get i smalls = Some c') \/ ((forall i, String.get i capitals <> Some c) /\ c' = c).

Lemma value_ok_adm : forall f v, (f_values f <> None -> exists s, f_default f = VS s) ->
  (value_ok f v = true <-> admissible f v).
Proof.
  intros f v HS. unfold value_ok. rewrite andb_true_iff. split.
  - intros (K & V). destruct (f_default f) eqn:D, v; try discriminate;
      try (econstructor; eassumption).
    destruct (f_values f) as [l|] eqn:FV; [|eapply adm_free; eassumption].
    apply existsb_exists in V. destruct V as (x & Hx & E). apply String.eqb_eq in E. subst x. eapply adm_choice; eassumption.
  - intros A. destruct A as [d b D|d z D|d r D|d z D|d l D|d s D FV|d s l D FV Hs]; rewrite D; simpl.
    1-5: split; auto; destruct (f_values f); auto.
    + rewrite FV. auto.
    + rewrite FV. split; auto. apply existsb_exists. exists s. split; auto. apply String.eqb_refl.
Qed.
Definition option_classes : list schema := [KohnShamOptions; SolverOptions; KohnShamSCFOptions; PartitionOptions; PartitionSCFOptions; InverterOptions].
Lemma classes_nodup : forall sc, In sc option_classes -> NoDup (field_names sc).
Proof.
  intros sc H. destruct schemas_distinct as (D1 & D2 & D3 & D4 & D5 & D6). simpl in H.
  repeat (destruct H as [<-|H]; [assumption|]). contradiction.
Qed.
Lemma classes_choice : forall sc f, In sc option_classes -> In f sc -> f_values f <> None -> exists s, f_default f = VS s.
Proof.
  intros sc f H Hf N. simpl in H.
  repeat (destruct H as [<-|H]; [simpl in Hf; repeat (destruct Hf as [<-|Hf]; [simpl in *; first [congruence | eexists; reflexivity]|]); contradiction|]).
  contradiction.
Qed.
Lemma names_unique : forall sc f f', NoDup (field_names sc) -> In f sc -> In f' sc -> f_name f = f_name f' -> f = f'.
Proof.
  induction sc as [|a r IH]; intros f f' ND H H' E; [contradiction|]. simpl in ND. inversion ND; subst.
  destruct H as [->|H], H' as [->|H']; auto.
  - exfalso. apply H2. rewrite E. apply in_map, H'.
  - exfalso. apply H2. rewrite <- E. apply in_map, H.
Qed.

Theorem accepted_iff : forall sc d, In sc option_classes -> case_distinct d ->
  ((exists o, configure sc d = Ok o) <-> forall k v, In (k, v) d -> exists f, In f sc /\ f_name f = lower k /\ admissible f v).
Proof.
  intros sc d HS CD. split.
  - intros (o & H) k v Hk.
    destruct (configure_field sc d o (classes_nodup sc HS) CD H) as (_ & _ & K).
    assert (J : In (lower k) (field_names sc)) by (apply K; apply (in_map fst) in Hk; exact Hk).
    apply in_map_iff in J. destruct J as (f & E & Hf). exists f. split; auto. split; auto.
    apply value_ok_adm; [apply (classes_choice sc); auto|].
    destruct (value_ok f v) eqn:V; auto. rewrite (configure_bad sc d f k v CD Hf Hk (eq_sym E) V) in H. discriminate.
  - intros H. apply configure_accepts.
    + intros k Hk. unfold keys_of in Hk. apply in_map_iff in Hk. destruct Hk as ((k', v) & <- & Hk). simpl.
      destruct (H k' v Hk) as (f & Hf & E & _). rewrite <- E. apply in_map, Hf.
    + intros f k v Hf Hk E. destruct (H k v Hk) as (f' & Hf' & E' & A).
      assert (f' = f) as -> by (apply (names_unique sc); auto using classes_nodup; congruence).
      apply value_ok_adm; auto. apply (classes_choice sc); auto.
Qed.
Theorem refused_is_ValueError : forall sc d, In sc option_classes -> case_distinct d ->
  (exists k v, In (k, v) d /\ forall f, In f sc -> f_name f = lower k -> ~ admissible f v) -> configure sc d = Err ValueError.
Proof.
  intros sc d HS CD (k & v & Hk & N). destruct (configure sc d) as [o|e] eqn:Q.
  - exfalso. destruct (proj1 (accepted_iff sc d HS CD) (ex_intro _ o Q) k v Hk) as (f & Hf & E & A). exact (N f Hf E A).
  - f_equal. apply (configure_err sc d e Q).
Qed.
Theorem lower_letters : forall s i, match String.get i s with
  | None => String.get i (lower s) = None
  | Some c => exists c', String.get i (lower s) = Some c' /\ small_of c c' end.
Proof.
  assert (L : forall c, small_of c (lower_ascii c)).
  { intros c. destruct (in_dec ascii_dec c (list_ascii_of_string capitals)) as [J|J].
    - left. simpl in J. repeat (destruct J as [<-|J]); try contradiction.
      all: first [ exists 0%nat; now split | exists 1%nat; now split | exists 2%nat; now split | exists 3%nat; now split | exists 4%nat; now split | exists 5%nat; now split
        | exists 6%nat; now split | exists 7%nat; now split | exists 8%nat; now split | exists 9%nat; now split | exists 10%nat; now split | exists 11%nat; now split
        | exists 12%nat; now split | exists 13%nat; now split | exists 14%nat; now split | exists 15%nat; now split | exists 16%nat; now split | exists 17%nat; now split
        | exists 18%nat; now split | exists 19%nat; now split | exists 20%nat; now split | exists 21%nat; now split | exists 22%nat; now split | exists 23%nat; now split
        | exists 24%nat; now split | exists 25%nat; now split ].
    - right. split.
      + intros i G. apply J. clear J. revert G. generalize capitals. intros t. revert i. induction t as [|a t IH]; intros [|i] G; simpl in *; try discriminate.
        * left. congruence.
        * right. eauto.
      + destruct c as [[] [] [] [] [] [] [] []]; try reflexivity; exfalso; apply J; simpl; tauto. }
  induction s as [|a s IH]; intros [|i]; simpl; auto.
  - exists (lower_ascii a). auto.
  - apply IH.
Qed.

(** One restricted field, given alone. *)
Lemma choice_alone : forall sc f d0 l s, In sc option_classes -> In f sc -> lower (f_name f) = f_name f -> f_default f = VS d0 -> f_values f = Some l ->
  ((exists o, configure sc [(f_name f, VS s)] = Ok o) <-> In s l).
Proof.
  intros sc f d0 l s HS Hf HL HD HV. rewrite (accepted_iff sc); [|auto|repeat constructor; simpl; tauto]. split.
  - intros H. destruct (H (f_name f) (VS s) (or_introl eq_refl)) as (f' & Hf' & E & A).
    assert (f' = f) as -> by (apply (names_unique sc); auto using classes_nodup; congruence).
    inversion A; congruence.
  - intros J k v [E|[]]. injection E as <- <-. exists f. split; auto. split; [congruence|]. eapply adm_choice; eauto.
Qed.
