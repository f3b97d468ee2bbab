(** Partition: the potential of the two-orbital kinetic functional is not symmetric in the two fragments. *)
From Coq Require Import FunctionalExtensionality Reals List Arith Lia Lra ZArith Bool String.
From Verif Require Import Base BaseLemmas GridModel GridSpec GridProofs FDProofs OpProofs GridWitness GridMore HartreeModel SolverModel SolverSpec LibxcModel OptionsModel KSModel KSSpec KSProofs KSLoop KSEnergy
  InverterModel PartitionModel PartitionSpec PartitionBase PartitionConstr PartitionDens PartitionFrame PartitionEnergy PartitionEp PartitionKin PartitionTwo.
Import ListNotations.
Local Open Scope R_scope.

(** The difference of the square roots of the densities, normalised to one. *)
Definition two_diff (g : grid) (n1 n2 : vec) : vec :=
  fun k => (sqrt (n1 k) - sqrt (n2 k)) / sqrt (integrate1 g (fun j => (sqrt (n1 j) - sqrt (n2 j)) ^ 2)).
(** Integral of minus one half of the Laplacian of a function. *)
Definition lap_total (g : grid) (f : vec) : R := integrate1 g (fun k => half_lap g f k / gw g k).

Lemma half_lap_opp : forall g f k, half_lap g (fun j => - f j) k = - half_lap g f k.
Proof. intros. unfold half_lap. rewrite (sumR_ext _ _ (fun j => -1 * (elap g k j * f j))) by (intros; ring). rewrite sumR_scal. ring. Qed.

#[local] Opaque pow.
Ltac fin2 := unfold Rdiv; repeat match goal with |- context [/ ?x] => lazymatch x with 2 => fail | 4 => fail | _ => generalize (/ x); intro end end; field.
(** The two columns of V.vt. *)
Lemma two_pot_inv : forall g n1 n2 v1 v2, two_pot g n1 n2 = Ok (v1, v2) ->
  let C := integrate1 g (fun j => (sqrt (n1 j) - sqrt (n2 j)) ^ 2) in let f := two_diff g n1 n2 in
  (forall k, (k < Nelem g)%nat -> 0 < n1 k /\ 0 < n2 k) /\ 0 < C /\
  exists b1 b2, (forall k, (k < Nelem g)%nat -> v1 k = / sqrt (C * n1 k) * (half_lap g f k / gw g k - f k * lap_total g f) + b1 k) /\
    (forall k, (k < Nelem g)%nat -> v2 k = - / sqrt (C * n2 k) * (half_lap g f k / gw g k - f k * kin_energy g f) + b2 k) /\
    (forall w1 w2, two_pot g n2 n1 = Ok (w1, w2) ->
      (forall k, (k < Nelem g)%nat -> w1 k = / sqrt (C * n2 k) * (- (half_lap g f k / gw g k) - f k * lap_total g f) + b2 k) /\
      (forall k, (k < Nelem g)%nat -> w2 k = / sqrt (C * n1 k) * (half_lap g f k / gw g k - f k * kin_energy g f) + b1 k)).
Proof.
  intros g n1 n2 v1 v2 H. cbv zeta. unfold two_pot in H. cbv zeta in H.
  change (two_C g (fun k => sqrt (n1 k)) (fun k => sqrt (n2 k))) with (integrate1 g (fun j => (sqrt (n1 j) - sqrt (n2 j)) ^ 2)) in H.
  set (C := integrate1 g (fun j => (sqrt (n1 j) - sqrt (n2 j)) ^ 2)) in *.
  destruct (_ && _)%bool eqn:E; [|discriminate]. cbn [negb] in H. injection H as <- <-.
  apply andb_prop in E. destruct E as (E & E4). apply andb_prop in E. destruct E as (E & E3). apply andb_prop in E. destruct E as (E1 & E2).
  destruct (Rlt_dec 0 C) as [PC|]; [|discriminate]. pose proof (all_pos_ok _ _ E1) as P1. pose proof (all_pos_ok _ _ E2) as P2.
  split; [auto|]. split; [exact PC|].
  assert (SC : 0 < sqrt C) by (apply sqrt_lt_R0; auto).
  set (f := two_diff g n1 n2). assert (FE : forall k, (sqrt (n1 k) - sqrt (n2 k)) / sqrt C = f k) by reflexivity.
  assert (D1 : forall k, kinop g (fun k0 => (sqrt (n1 k0) - sqrt (n2 k0)) / sqrt C) k = half_lap g f k) by (intros; apply kinop_half; intros; apply FE).
  set (q := fun k => (n1 k + n2 k) / 2 - f k ^ 2). set (ph := fun k => sqrt (q k)).
  assert (QE : forall k, (n1 k + n2 k) / 2 - ((sqrt (n1 k) - sqrt (n2 k)) / sqrt C) ^ 2 = q k) by reflexivity.
  set (d2 := fun k => kinop g ph k / gw g k).
  set (i2 := integrate1 g (fun k => f k ^ 2 / ph k * d2 k)).
  exists (fun k => 2 * (d2 k * ((1 / 4 - 1 / 2 * / sqrt (C * n1 k) * f k) / ph k) + 1 / 2 * (f k / sqrt (C * n1 k)) * i2)),
         (fun k => 2 * (d2 k * ((1 / 4 + 1 / 2 * / sqrt (C * n2 k) * f k) / ph k) - 1 / 2 * (f k / sqrt (C * n2 k)) * i2)).
  assert (I0 : integrate1 g (fun k => kinop g (fun k0 => (sqrt (n1 k0) - sqrt (n2 k0)) / sqrt C) k / gw g k) = lap_total g f).
  { apply integrate1_ext. intros k K. rewrite D1. reflexivity. }
  assert (I1 : integrate1 g (fun k => (sqrt (n1 k) - sqrt (n2 k)) / sqrt C * (kinop g (fun k0 => (sqrt (n1 k0) - sqrt (n2 k0)) / sqrt C) k / gw g k)) = kin_energy g f).
  { apply integrate1_ext. intros k K. rewrite D1. reflexivity. }
  assert (D2 : forall k, kinop g (fun k0 => sqrt ((n1 k0 + n2 k0) / 2 - ((sqrt (n1 k0) - sqrt (n2 k0)) / sqrt C) ^ 2)) k = kinop g ph k) by reflexivity.
  assert (I2 : integrate1 g (fun k => ((sqrt (n1 k) - sqrt (n2 k)) / sqrt C) ^ 2 / sqrt ((n1 k + n2 k) / 2 - ((sqrt (n1 k) - sqrt (n2 k)) / sqrt C) ^ 2) * (kinop g (fun k0 => sqrt ((n1 k0 + n2 k0) / 2 - ((sqrt (n1 k0) - sqrt (n2 k0)) / sqrt C) ^ 2)) k / gw g k)) = i2) by reflexivity.
  split; [|split].
  - intros k K. rewrite D1, I0, D2, I2, QE, FE. fold (ph k). fold (d2 k). fin2.
  - intros k K. rewrite D1, I1, D2, I2, QE, FE. fold (ph k). fold (d2 k). fin2.
  - intros w1 w2 W. unfold two_pot in W. cbv zeta in W.
    change (two_C g (fun k => sqrt (n2 k)) (fun k => sqrt (n1 k))) with (integrate1 g (fun j => (sqrt (n2 j) - sqrt (n1 j)) ^ 2)) in W.
    assert (CE : integrate1 g (fun j => (sqrt (n2 j) - sqrt (n1 j)) ^ 2) = C) by (apply integrate1_ext; intros; ring). rewrite CE in W.
    destruct (negb _); [discriminate|]. injection W as <- <-.
    assert (FM : forall k, (sqrt (n2 k) - sqrt (n1 k)) / sqrt C = - f k) by (intros k; rewrite <- FE; unfold Rdiv; ring).
    assert (D1M : forall k, kinop g (fun k0 => (sqrt (n2 k0) - sqrt (n1 k0)) / sqrt C) k = - half_lap g f k).
    { intros k. rewrite (kinop_half g _ (fun j => - f j)) by (intros; apply FM). apply half_lap_opp. }
    assert (QM : forall k, (n2 k + n1 k) / 2 - ((sqrt (n2 k) - sqrt (n1 k)) / sqrt C) ^ 2 = q k) by (intros k; rewrite FM; unfold q; field).
    assert (D2M : forall k, kinop g (fun k0 => sqrt ((n2 k0 + n1 k0) / 2 - ((sqrt (n2 k0) - sqrt (n1 k0)) / sqrt C) ^ 2)) k = kinop g ph k).
    { intros k. rewrite (kinop_half g _ ph), (kinop_half g ph ph); auto. intros j J. rewrite QM. reflexivity. }
    assert (I0M : integrate1 g (fun k => kinop g (fun k0 => (sqrt (n2 k0) - sqrt (n1 k0)) / sqrt C) k / gw g k) = - lap_total g f).
    { transitivity (integrate1 g (fun k => -1 * (half_lap g f k / gw g k))); [apply integrate1_ext; intros k K; rewrite D1M; unfold Rdiv; ring|]. rewrite integrate1_scal. unfold lap_total. ring. }
    assert (I1M : integrate1 g (fun k => (sqrt (n2 k) - sqrt (n1 k)) / sqrt C * (kinop g (fun k0 => (sqrt (n2 k0) - sqrt (n1 k0)) / sqrt C) k / gw g k)) = kin_energy g f).
    { apply integrate1_ext. intros k K. rewrite D1M, FM. unfold Rdiv. ring. }
    assert (I2M : integrate1 g (fun k => ((sqrt (n2 k) - sqrt (n1 k)) / sqrt C) ^ 2 / sqrt ((n2 k + n1 k) / 2 - ((sqrt (n2 k) - sqrt (n1 k)) / sqrt C) ^ 2) * (kinop g (fun k0 => sqrt ((n2 k0 + n1 k0) / 2 - ((sqrt (n2 k0) - sqrt (n1 k0)) / sqrt C) ^ 2)) k / gw g k)) = i2).
    { apply integrate1_ext. intros k K. rewrite D2M, QM, FM. fold (ph k). fold (d2 k). replace ((- f k) ^ 2) with (f k ^ 2) by ring. reflexivity. }
    split; intros k K.
    + rewrite D1M, D2M, I0M, I2M, QM, FM. fold (ph k). fold (d2 k). fin2.
    + rewrite D1M, D2M, I1M, I2M, QM, FM. fold (ph k). fold (d2 k). fin2.
Qed.

Lemma two_frag_det : forall g n v v', two_frag g n = Ok v -> two_frag g n = Ok v' -> v = v'.
Proof. intros. congruence. Qed.

(** What vp_kinetic leaves in KSa and KSb. *)
Lemma vpk_two_inv : forall g w p F n p', densities p F n -> p_ens p = false -> po_kin (p_opt p) = "twoorbital"%string -> vp_kinetic g w p = Ok p' ->
  exists na nb v1 v2 ua ub xa xb fa fb, p_na p = Some na /\ p_nb p = Some nb /\ two_pot g (fun k => na k 0%nat) (fun k => nb k 0%nat) = Ok (v1, v2) /\
    two_frag g (fun k => n Ca k 0%nat) = Ok ua /\ two_frag g (fun k => n Cb k 0%nat) = Ok ub /\
    p_f p' Ca = Some fa /\ f_V fa "vp_kin"%string = Some xa /\ p_f p' Cb = Some fb /\ f_V fb "vp_kin"%string = Some xb /\
    (forall k, (k < Nelem g)%nat -> xa k 0%nat = v1 k - ua k /\ xb k 0%nat = v2 k - ub k) /\
    (exists x, p_vt p' = Some (2%nat, x) /\ forall k, x k 0%nat = Fin (v1 k) /\ x k 1%nat = Fin (v2 k)) /\ (exists y, f_vt fa = Some y /\ forall k, y k 0%nat = Fin (ua k)) /\ (exists y, f_vt fb = Some y /\ forall k, y k 0%nat = Fin (ub k)).
Proof.
  intros g w p F n p' (D1 & D2) EN K H. unfold vp_kinetic in H. rewrite K in H. cbn [String.eqb Ascii.eqb Bool.eqb] in H. cbv zeta in H.
  destruct (vpk_two g p) as [p1|] eqn:E; [|discriminate]. cbn [bind] in H. unfold vpk_two in E.
  destruct (p_na p) as [na|]; [|discriminate]. destruct (p_nb p) as [nb|]; [|discriminate]. cbn [have bind] in E.
  destruct (p_pol p =? 2)%nat; [discriminate|]. rewrite EN in E. cbn [comps forL] in E. unfold get_f in E.
  assert (MA : member (p_ens p) Ca) by exact Logic.I. assert (MB : member (p_ens p) Cb) by exact Logic.I.
  rewrite (D1 Ca MA) in E. cbn [have bind] in E. rewrite (D2 Ca MA) in E. cbn [need bind] in E.
  destruct (two_frag g (fun k => n Ca k 0%nat)) as [ua|] eqn:UA; [|discriminate]. cbn [bind] in E.
  change (p_f (set_frag p Ca (fvt (F Ca) (fun k _ => Fin (ua k)))) Cb) with (p_f p Cb) in E.
  rewrite (D1 Cb MB) in E. cbn [have bind] in E. rewrite (D2 Cb MB) in E. cbn [need bind] in E.
  destruct (two_frag g (fun k => n Cb k 0%nat)) as [ub|] eqn:UB; [|discriminate]. cbn [bind] in E.
  destruct (two_pot g (fun k => na k 0%nat) (fun k => nb k 0%nat)) as [[v1 v2]|] eqn:TP; [|discriminate]. cbn [bind fst snd] in E. injection E as <-.
  unfold vpk_finish in H. change (po_kin (p_opt _)) with (po_kin (p_opt p)) in H at 1. rewrite K in H. cbn [String.eqb Ascii.eqb Bool.eqb] in H.
  cbn [p_vt set_vt have bind fst snd get_f p_f set_frag comp_eqb f_vt fvt nsub nadd Nat.eqb] in H.
  destruct (finite (Nelem g) 1 _) as [xa|] eqn:FA in H; [|discriminate]. cbn [bind] in H.
  destruct (finite (Nelem g) 1 _) as [xb|] eqn:FB in H; [|discriminate]. cbn [bind] in H. injection H as <-.
  apply finite_ok in FA. destruct FA as (FA & _). apply finite_ok in FB. destruct FB as (FB & _).
  exists na, nb, v1, v2, ua, ub, xa, xb. do 2 eexists. do 5 (split; [first [reflexivity|assumption]|]).
  split; [cbn [p_f set_frag comp_eqb]; reflexivity|]. split; [reflexivity|]. split; [cbn [p_f set_frag comp_eqb]; reflexivity|]. split; [reflexivity|].
  split; [|split; [eexists; split; [reflexivity|intros; split; reflexivity]|split; eexists; (split; [reflexivity|intros; reflexivity])]].
  intros k KK. specialize (FA k 0%nat KK ltac:(lia)). specialize (FB k 0%nat KK ltac:(lia)). cbn in FA, FB. injection FA as <-. injection FB as <-. split; ring.
Qed.

(** q is p with the two fragments interchanged. *)
Definition interchanged (p q : part) (n m : comp -> mat) : Prop :=
  (exists na nb ma mb, p_na p = Some na /\ p_nb p = Some nb /\ p_na q = Some ma /\ p_nb q = Some mb /\ (forall k, ma k 0%nat = nb k 0%nat) /\ (forall k, mb k 0%nat = na k 0%nat)) /\
  (forall k, m Ca k 0%nat = n Cb k 0%nat) /\ (forall k, m Cb k 0%nat = n Ca k 0%nat).

Lemma two_frag_ext : forall g n m v v', (forall k, n k = m k) -> two_frag g n = Ok v -> two_frag g m = Ok v' -> forall k, v k = v' k.
Proof.
  intros g n m v v' E H H' k. unfold two_frag in H, H'. destruct (all_pos (Nelem g) n); [|discriminate]. destruct (all_pos (Nelem g) m); [|discriminate].
  injection H as <-. injection H' as <-. rewrite (kinop_half g _ (fun x => sqrt (m x))) by (intros; rewrite E; reflexivity).
  rewrite (kinop_half g (fun x => sqrt (m x)) (fun x => sqrt (m x))) by reflexivity. rewrite E. reflexivity.
Qed.

(** The potentials of interchanged fragments differ by the terms in which the code integrates the wrong function. *)
Theorem two_exchange : forall g w p q F G n m p' q' na nb, densities p F n -> densities q G m -> p_ens p = false -> p_ens q = false ->
  po_kin (p_opt p) = "twoorbital"%string -> po_kin (p_opt q) = "twoorbital"%string -> interchanged p q n m -> p_na p = Some na -> p_nb p = Some nb ->
  vp_kinetic g w p = Ok p' -> vp_kinetic g w q = Ok q' ->
  exists fa fb ga gb xa xb ya yb, p_f p' Ca = Some fa /\ p_f p' Cb = Some fb /\ p_f q' Ca = Some ga /\ p_f q' Cb = Some gb /\
    f_V fa "vp_kin"%string = Some xa /\ f_V fb "vp_kin"%string = Some xb /\ f_V ga "vp_kin"%string = Some ya /\ f_V gb "vp_kin"%string = Some yb /\
    let a := fun k => na k 0%nat in let b := fun k => nb k 0%nat in
    let C := integrate1 g (fun j => (sqrt (a j) - sqrt (b j)) ^ 2) in let f := two_diff g a b in
    0 < C /\ (forall k, (k < Nelem g)%nat -> 0 < a k /\ 0 < b k) /\
    forall k, (k < Nelem g)%nat ->
      yb k 0%nat - xa k 0%nat = / sqrt (C * a k) * f k * (lap_total g f - kin_energy g f) /\
      ya k 0%nat - xb k 0%nat = - (/ sqrt (C * b k) * f k * (lap_total g f + kin_energy g f)).
Proof.
  intros g w p q F G n m p' q' na nb D E EN EN' K K' ((na0 & nb0 & ma0 & mb0 & I1 & I2 & I5 & I6 & I7 & I8) & I3 & I4) PA PB H H'.
  rewrite PA in I1. injection I1 as <-. rewrite PB in I2. injection I2 as <-.
  destruct (vpk_two_inv _ _ _ _ _ _ D EN K H) as (na' & nb' & v1 & v2 & ua & ub & xa & xb & fa & fb & A1 & A2 & A3 & A4 & A5 & A6 & A7 & A8 & A9 & A10 & _).
  destruct (vpk_two_inv _ _ _ _ _ _ E EN' K' H') as (ma & mb & w1 & w2 & za & zb & ya & yb & ga & gb & B1 & B2 & B3 & B4 & B5 & B6 & B7 & B8 & B9 & B10 & _).
  rewrite PA in A1. injection A1 as <-. rewrite PB in A2. injection A2 as <-. rewrite I5 in B1. injection B1 as <-. rewrite I6 in B2. injection B2 as <-.
  rewrite (functional_extensionality _ _ I7), (functional_extensionality _ _ I8) in B3.
  exists fa, fb, ga, gb, xa, xb, ya, yb. do 8 (split; [assumption|]). cbv zeta.
  destruct (two_pot_inv _ _ _ _ _ A3) as (P & C & b1 & b2 & V1 & V2 & W). destruct (W _ _ B3) as (W1 & W2). split; [exact C|]. split; [exact P|].
  intros k KK. destruct (A10 k KK) as (X1 & X2). destruct (B10 k KK) as (Y1 & Y2). rewrite X1, X2, Y1, Y2, V1, V2, W1, W2 by auto.
  rewrite (two_frag_ext g _ _ _ _ I3 B4 A5 k), (two_frag_ext g _ _ _ _ I4 B5 A4 k). split; ring.
Qed.

(** Interchanging the fragments interchanges the potentials only if the kinetic energy of the difference orbital vanishes. *)
Theorem two_exchange_refuted : forall g w p q F G n m p' q' na nb, densities p F n -> densities q G m -> p_ens p = false -> p_ens q = false ->
  po_kin (p_opt p) = "twoorbital"%string -> po_kin (p_opt q) = "twoorbital"%string -> interchanged p q n m -> p_na p = Some na -> p_nb p = Some nb ->
  vp_kinetic g w p = Ok p' -> vp_kinetic g w q = Ok q' ->
  kin_energy g (two_diff g (fun k => na k 0%nat) (fun k => nb k 0%nat)) <> 0 ->
  exists fa fb ga gb xa xb ya yb k, p_f p' Ca = Some fa /\ p_f p' Cb = Some fb /\ p_f q' Ca = Some ga /\ p_f q' Cb = Some gb /\
    f_V fa "vp_kin"%string = Some xa /\ f_V fb "vp_kin"%string = Some xb /\ f_V ga "vp_kin"%string = Some ya /\ f_V gb "vp_kin"%string = Some yb /\
    (k < Nelem g)%nat /\ (yb k 0%nat <> xa k 0%nat \/ ya k 0%nat <> xb k 0%nat).
Proof.
  intros g w p q F G n m p' q' na nb D E EN EN' K K' I PA PB H H' KE.
  destruct (two_exchange _ _ _ _ _ _ _ _ _ _ _ _ D E EN EN' K K' I PA PB H H') as (fa & fb & ga & gb & xa & xb & ya & yb & A1 & A2 & A3 & A4 & A5 & A6 & A7 & A8 & C & P & X). cbv zeta in *.
  set (a := fun k => na k 0%nat) in *. set (b := fun k => nb k 0%nat) in *. set (f := two_diff g a b) in *.
  assert (N : exists k, (k < Nelem g)%nat /\ sqrt (a k) - sqrt (b k) <> 0).
  { destruct (List.existsb (fun k => if Req_EM_T (sqrt (a k) - sqrt (b k)) 0 then false else true) (seq 0 (Nelem g))) eqn:EX.
    - apply existsb_exists in EX. destruct EX as (k & K1 & K2). apply in_seq in K1. exists k. split; [lia|]. destruct (Req_EM_T _ 0); [discriminate|assumption].
    - exfalso. apply (Rlt_irrefl 0). rewrite <- (integrate1_zero g) at 2. eapply Rlt_le_trans; [exact C|]. right. apply integrate1_ext. intros k KK.
      assert (Z : sqrt (a k) - sqrt (b k) = 0). { destruct (Req_EM_T (sqrt (a k) - sqrt (b k)) 0) as [|NE]; auto. exfalso.
        assert (T : existsb (fun k => if Req_EM_T (sqrt (a k) - sqrt (b k)) 0 then false else true) (seq 0 (Nelem g)) = true).
        { apply existsb_exists. exists k. split; [apply in_seq; lia|]. destruct (Req_EM_T _ 0); [contradiction|reflexivity]. } congruence. }
      transitivity ((sqrt (a k) - sqrt (b k)) ^ 2); [reflexivity|]. rewrite Z. ring. }
  destruct N as (k & KK & NZ). exists fa, fb, ga, gb, xa, xb, ya, yb, k. do 8 (split; [assumption|]). split; [exact KK|].
  destruct (X k KK) as (X1 & X2). destruct (P k KK) as (Pa & Pb).
  set (CC := integrate1 g (fun j => (sqrt (a j) - sqrt (b j)) ^ 2)) in *.
  assert (FK : f k <> 0). { unfold f, two_diff. apply Rmult_integral_contrapositive_currified; [exact NZ|]. apply Rinv_neq_0_compat. apply Rgt_not_eq, sqrt_lt_R0. exact C. }
  assert (SA : / sqrt (CC * a k) <> 0) by (apply Rinv_neq_0_compat, Rgt_not_eq, sqrt_lt_R0, Rmult_lt_0_compat; auto).
  assert (SB : / sqrt (CC * b k) <> 0) by (apply Rinv_neq_0_compat, Rgt_not_eq, sqrt_lt_R0, Rmult_lt_0_compat; auto).
  destruct (Req_dec (lap_total g f - kin_energy g f) 0) as [Z|Z].
  - right. intros Q. rewrite Q in X2. change (xb k 0%nat - xb k 0%nat = - (/ sqrt (CC * b k) * f k * (lap_total g f + kin_energy g f))) in X2. assert (lap_total g f + kin_energy g f = 0).
    { assert (Y : / sqrt (CC * b k) * f k * (lap_total g f + kin_energy g f) = 0) by lra. apply Rmult_integral in Y. destruct Y as [Y|Y]; auto. apply Rmult_integral in Y. tauto. }
    lra.
  - left. intros Q. rewrite Q in X1. change (xa k 0%nat - xa k 0%nat = / sqrt (CC * a k) * f k * (lap_total g f - kin_energy g f)) in X1. assert (Y : / sqrt (CC * a k) * f k * (lap_total g f - kin_energy g f) = 0) by lra.
    apply Rmult_integral in Y. destruct Y as [Y|Y]; auto. apply Rmult_integral in Y. tauto.
Qed.
