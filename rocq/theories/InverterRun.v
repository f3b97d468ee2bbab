(** orbitalinvert as a whole. *)
From Coq Require Import Reals List Arith Lia Lra ZArith Bool String.
From Verif Require Import Base BaseLemmas GridModel GridSpec GridProofs FDProofs OpProofs SolverModel SolverSpec SolverProofs SolverThms
  OptionsModel KSModel KSSpec KSProofs InverterModel InverterSpec InverterOrb InverterLoop.
Import ListNotations.
Local Open Scope R_scope.
Local Opaque sinh cosh.

(** * Choice of the update *)
Lemma gtb_fin : forall a b, gtb (Fin a) (Fin b) = true <-> b < a.
Proof. intros. simpl. destruct (Rlt_dec b a); split; auto; discriminate. Qed.
Lemma pymax_fin : forall a b, pymax (Fin a) (Fin b) = Fin (Rmax a b).
Proof. intros. unfold pymax. simpl. unfold Rmax. destruct (Rlt_dec a b), (Rle_dec a b); auto; try lra. f_equal. lra. Qed.

Section Choice.
Context {X : Type} (o : invopt) (kres : X -> num * num) (update : bool -> X -> res X).
Lemma passes_len : forall l st, passes o kres update l st -> ol_iter st = List.length l.
Proof. induction 1; simpl; auto. destruct (o_step_iter _ _ _ _ _ _ H0) as (E & _). lia. Qed.
Lemma passes_old : io_avoid o = true -> forall l st, passes o kres update l st ->
  match l with
  | [] => ol_ks st = Fin 0 /\ ol_n st = Fin 0 /\ ol_oks st = Fin 0 /\ ol_on st = Fin 0
  | x1 :: l' => ol_ks st = fst (kres x1) /\ ol_n st = snd (kres x1) /\
      match l' with
      | [] => ol_oks st = Fin 0 /\ ol_on st = Fin 0
      | x2 :: _ => ol_oks st = fst (kres x2) /\ ol_on st = snd (kres x2)
      end
  end.
Proof.
  intros Ha l st H. induction H as [x|l st st' H IH E].
  - simpl. auto.
  - destruct (o_step_iter _ _ _ _ _ _ E) as (_ & _ & A & B). split; [auto|]. split; [auto|].
    assert (C : ol_oks st' = (if (1 <? S (ol_iter st))%nat then ol_ks st else ol_oks st) /\ ol_on st' = (if (1 <? S (ol_iter st))%nat then ol_n st else ol_on st)).
    { unfold o_step in E. destruct (kres (ol_x st)) as [ks n]. rewrite Ha in E. cbn [andb] in E.
      destruct (gtb (Fin (io_tol o)) (pymax ks n)); [inversion E|].
      destruct (io_maxit o <=? Z.of_nat (S (ol_iter st)))%Z; [inversion E|].
      match type of E with bind ?U _ = _ => destruct U end; cbn [bind] in E; [|discriminate].
      assert (H1 := f_equal (fun r => match r with Ok (s, _) => s | Err _ => st end) E). cbv beta iota in H1. rewrite <- H1. split; reflexivity. }
    pose proof (passes_len _ _ H) as L. destruct C as [C D]. rewrite C, D, L. destruct l as [|x1 l]; simpl in *.
    + tauto.
    + tauto.
Qed.
Lemma step_choice : forall l st st', passes o kres update l st -> o_step o kres update st = Ok (st', false) ->
  let ks := fst (kres (ol_x st)) in let n := snd (kres (ol_x st)) in
  exists b, update b (ol_x st) = Ok (ol_x st') /\
    (io_avoid o = false -> b = newton_wanted o ks n) /\
    (io_avoid o = true -> forall k0 n0, ks = Fin k0 -> n = Fin n0 ->
       match l with
       | x1 :: x2 :: _ => forall k1 k2 n2, fst (kres x1) = Fin k1 -> kres x2 = (Fin k2, Fin n2) ->
           (b = true <-> newton_wanted o ks n = true \/ stalled k0 n0 k1 k2 n2)
       | _ => b = newton_wanted o ks n
       end).
Proof.
  intros l st st' Hp E ks n. pose proof (passes_len _ _ Hp) as L. 
  assert (F : io_avoid o = false \/ (List.length l < 2)%nat -> ol_force st = false).
  { clear E. intros Hc. induction Hp as [x|l st0 st1 Hp IH E]; [reflexivity|].
    unfold o_step in E. destruct (kres (ol_x st0)) as [ks' n'].
    destruct (gtb (Fin (io_tol o)) (pymax ks' n')); [inversion E|].
    destruct (io_maxit o <=? Z.of_nat (S (ol_iter st0)))%Z; [inversion E|].
    match type of E with bind ?U _ = _ => destruct U end; cbn [bind] in E; [|discriminate].
    assert (H1 := f_equal (fun r => match r with Ok (s, _) => s | Err _ => st0 end) E). cbv beta iota in H1. rewrite <- H1.
    cbn [ol_force]. pose proof (passes_len _ _ Hp) as L0.
    destruct Hc as [Hc|Hc]; [rewrite Hc; cbn [andb]; apply IH; auto; apply (passes_len _ _ Hp)|].
    simpl in Hc. rewrite L0. destruct (Nat.ltb_spec 2 (S (List.length l))); [lia|]. rewrite andb_false_r. apply IH; [exact L0|right; lia]. }
  pose proof (passes_old) as PO.
  unfold o_step in E. destruct (kres (ol_x st)) as [ks' n'] eqn:K. cbn [fst snd] in ks, n. subst ks n.
  destruct (gtb (Fin (io_tol o)) (pymax ks' n')); [inversion E|].
  destruct (io_maxit o <=? Z.of_nat (S (ol_iter st)))%Z; [inversion E|].
  match type of E with bind (update ?B _) _ = _ => exists B; destruct (update B (ol_x st)) as [x'|] eqn:U end; cbn [bind] in E; [|discriminate].
  assert (H1 := f_equal (fun r => match r with Ok (s, _) => s | Err _ => st end) E). cbv beta iota in H1.
  split; [rewrite <- H1; reflexivity|]. unfold newton_wanted. replace 100 with (10 ^ 2) by ring.
  split.
  - intros Ha. rewrite Ha. cbn [andb]. rewrite F by auto. rewrite orb_false_r. reflexivity.
  - intros Ha k0 n0 -> ->. pose proof (PO Ha l st Hp) as Q. rewrite Ha. cbn [andb]. rewrite L.
    destruct l as [|x1 [|x2 l]].
    + cbn [List.length Nat.ltb Nat.leb]. rewrite F by (right; simpl; lia). rewrite orb_false_r. reflexivity.
    + cbn [List.length Nat.ltb Nat.leb]. rewrite F by (right; simpl; lia). rewrite orb_false_r. reflexivity.
    + intros k1 k2 n2 A1 A2. cbn [List.length Nat.ltb Nat.leb]. destruct Q as (Q1 & Q2 & Q3 & Q4). rewrite A2 in Q3, Q4. cbn [fst snd] in Q3, Q4.
      rewrite Q1, Q3, Q4, A1, pymax_fin. rewrite orb_true_iff.
      apply or_iff_compat_l. unfold o_force, stalled. rewrite !andb_true_iff. cbn [nmulr]. rewrite !gtb_fin. lra.
Qed.
End Choice.

(** * What a successful inversion delivers *)
Lemma polish_spec : forall g ab M occ x y, o_polish g ab M occ x = Ok y ->
  (forall i, (i < M)%nat -> 0 <= occ i -> integrate1 g (fun k => orb (Nelem g) y i k ^ 2) = occ i) /\
  (ab = true -> even_col g (pot (Nelem g) M y) /\ forall i, (i < M)%nat -> even_col g (orb (Nelem g) y i) \/ odd_col g (orb (Nelem g) y i)).
Proof.
  intros g ab M occ x y H. unfold o_polish in H. destruct ab.
  - destruct (ab_symmetrize g M x) as [x1|] eqn:E; [|discriminate]. simpl in H.
    destruct (normalize_spec _ _ _ _ _ H) as (A & B & C & D). destruct (ab_sym_spec _ _ _ _ E) as (P & _ & V & _).
    split; auto. intros _. split.
    + apply (even_ext g _ (pot (Nelem g) M x1)); auto.
    + intros i Hi. destruct (P i Hi) as [[Q|Q] _]; destruct (B i Hi) as (c & _ & _ & F).
      * left. intros k Hk. rewrite F by auto. rewrite (mirror1_ext R g _ (fun k => c * orb (Nelem g) x1 i k)) by auto.
        rewrite (mirror1_map R R g (fun a => c * a)) by auto. rewrite (Q k Hk) at 1. reflexivity.
      * right. intros k Hk. rewrite F by auto. rewrite (mirror1_ext R g _ (fun k => c * orb (Nelem g) x1 i k)) by auto.
        rewrite (mirror1_map R R g (fun a => c * a)) by auto. rewrite (Q k Hk) at 1. ring.
  - simpl in H. destruct (normalize_spec _ _ _ _ _ H) as (A & _). split; auto. discriminate.
Qed.

Lemma o_update_inv : forall g E o M n0 occ s b xs xs', same_static s (snd xs) ->
  o_update g E o M n0 occ b xs = Ok xs' ->
  same_static s (snd xs') /\ exists x, o_polish g (io_ab o) M occ x = Ok (fst xs').
Proof.
  intros g E o M n0 occ s b [x s0] xs' Hs H. unfold o_update in H. cbn [snd] in Hs. destruct b.
  - destruct (io_iter o); [discriminate|].
    match type of H with bind ?U _ = _ => destruct U as [d|] end; cbn [bind] in H; [|discriminate].
    match type of H with bind ?U _ = _ => destruct U as [x'|] eqn:P end; cbn [bind] in H; [|discriminate].
    inversion H; subst xs'. split; auto. eexists. exact P.
  - match type of H with bind ?U _ = _ => destruct U as [[[c e] ph]|] end; cbn [bind] in H; [|discriminate].
    match type of H with bind ?U _ = _ => destruct U as [p|] end; cbn [bind] in H; [|discriminate].
    match type of H with bind ?U _ = _ => destruct U as [x'|] eqn:P end; cbn [bind] in H; [|discriminate].
    inversion H; subst xs'. split; [|eexists; exact P]. cbn [snd].
    unfold same_static in *. simpl in *. tauto.
Qed.

Lemma maxabs_ge : forall n f i, (i < n)%nat -> Rabs (f i) <= maxabs n f.
Proof.
  induction n; intros f i Hi; [lia|]. simpl. destruct (Nat.eq_dec i n) as [->|]; [apply Rmax_r|].
  eapply Rle_trans; [apply IHn; lia|apply Rmax_l].
Qed.

(** Everything known about the outcome of orbitalinvert. *)
Definition resid (g : grid) (M : nat) (n0 : vec) (x : vec) : R :=
  let e := o_eqn g M (hamiltonian g 0) n0 (fun _ => 2) x in Rmax (o_res_ks g M e) (o_res_ncon g M e).
Lemma kres_resid : forall g M n0 x s, s_m s = 0%Z -> pymax (fst (o_kres g M n0 (fun _ => 2) (x, s))) (snd (o_kres g M n0 (fun _ => 2) (x, s))) = Fin (resid g M n0 x).
Proof. intros. unfold o_kres, resid. cbn [fst snd]. rewrite H. apply pymax_fin. Qed.

Lemma orbitalinvert_inv : forall g E n0 phi0 e0 vs0 sp iv iv' flag out,
  orbitalinvert g E n0 phi0 e0 vs0 sp iv = Ok (iv', flag, out) ->
  let s := i_sol iv 0%nat sp in let M := s_Nmo s in let N := Nelem g in let tol := io_tol (i_opt iv) in
  exists x s1 it r h vs us, (i_lv iv <= 1)%nat /\ (sp < i_cols iv)%nat /\ s_m s = 0%Z /\ (s_pol s = 1%nat -> Z.odd (floorZ (s_N s)) = false) /\
    same_static s s1 /\ (exists x0, o_polish g (io_ab (i_opt iv)) M (fun _ => 2) x0 = Ok x) /\
    i_sol iv' 0%nat sp = set_veff (o_store g M x s1) (x_v N M x) /\
    (flag = true <-> r <= tol) /\ out = OArr 1 1 (fun _ _ => Some (mkInfo it (Fin r))) /\
    (1 <= it)%nat /\ (Z.of_nat it <= Z.max 1 (io_maxit (i_opt iv)))%Z /\
    ((r = resid g M n0 x /\ (r < tol \/ (io_maxit (i_opt iv) <= Z.of_nat it)%Z)) \/
     (100 < r /\ tol <= r /\ (Z.of_nat it < io_maxit (i_opt iv))%Z /\ exists y s0 b, same_static s s0 /\ r = resid g M n0 y /\ o_update g E (i_opt iv) M n0 (fun _ => 2) b (y, s0) = Ok (x, s1))) /\
    get_homo (o_store g M x s1) = Ok h /\ i_vs iv' = Some vs /\ i_us iv' = Some us /\
    (match i_vs iv, i_us iv with
     | None, None => vs = A2 (i_cols iv) (fun k t => if (t =? sp)%nat then x_v N M x k else 0) /\
                     us = U2 N (i_cols iv) (fun k t => if (k =? sp)%nat then h else 0)
     | Some (A2 c f), Some (U2 rr cc u) => vs = A2 c (fun k t => if (t =? sp)%nat then x_v N M x k else f k t) /\
                     us = U2 rr cc (fun k t => if (k =? sp)%nat then h else u k t)
     | _, _ => True
     end) /\ (sp < match i_us iv with Some (U2 rr _ _) => rr | _ => N end)%nat.
Proof.
  intros g E n0 phi0 e0 vs0 sp iv iv' flag out H s M N tol. unfold orbitalinvert in H.
  match type of H with context [i_sol ?I 0%nat sp] => set (iv0 := I) in H end.
  assert (Q : i_sol iv0 = i_sol iv) by (unfold iv0; destruct (i_vs iv), (i_us iv); reflexivity). rewrite Q in H.
  fold s in H. fold M in H. fold N in H.
  destruct (negb (sp <? i_cols iv)%nat) eqn:Hc; [discriminate|].
  assert (Hsp : (sp < i_cols iv)%nat) by (destruct (Nat.ltb_spec sp (i_cols iv)); auto; discriminate).
  unfold o_setup in H. destruct (s_m s =? 0)%Z eqn:Hm; [|discriminate]. apply Z.eqb_eq in Hm.
  destruct ((s_pol s =? 1)%nat && Z.odd (floorZ (s_N s))) eqn:Ho; [discriminate|]. cbn [bind] in H.
  destruct (1 <? i_lv iv)%nat eqn:Hl; [discriminate|]. apply Nat.ltb_ge in Hl.
  destruct (o_guess g s phi0 e0 vs0) as [x0|] eqn:G; cbn [bind] in H; [|discriminate].
  destruct (o_polish g (io_ab (i_opt iv)) M (fun _ => 2) x0) as [x1|] eqn:P; cbn [bind] in H; [|discriminate].
  match type of H with bind ?U _ = _ => destruct U as [[st|]|] eqn:L end; cbn [bind] in H; try discriminate.
  destruct (ol_x st) as [x s1] eqn:X.
  destruct (set_vcol (i_vs iv0) sp (x_v N M x)) as [vs'|] eqn:V; cbn [bind] in H; [|discriminate].
  destruct (get_homo (o_store g M x s1)) as [h|] eqn:Hh; cbn [bind] in H; [|discriminate].
  destruct (set_urow (i_us iv0) sp h) as [us'|] eqn:U; cbn [bind] in H; [|discriminate].
  destruct (calc_density g (o_store g M x s1)) as [n|]; cbn [bind] in H; [|discriminate].
  set (P0 := fun xs : vec * solver => same_static s (snd xs) /\ exists x0, o_polish g (io_ab (i_opt iv)) M (fun _ => 2) x0 = Ok (fst xs)).
  assert (P1 : P0 (x1, s)) by (split; [unfold same_static; simpl; auto 10|eexists; exact P]).
  assert (P2 : forall b xs xs', P0 xs -> o_update g E (i_opt iv) M n0 (fun _ => 2) b xs = Ok xs' -> P0 xs')
    by (intros b xs xs' [A _] B; eapply o_update_inv; eauto).
  destruct (heads_inv (i_opt iv) (o_kres g M n0 (fun _ => 2)) _ P0 (x1, s) P1 P2 _ _ L) as [J1 J2]. rewrite X in J1, J2.
  destruct (loop_result _ (i_opt iv) (o_kres g M n0 (fun _ => 2)) _ (x1, s) P0 P1 P2) as [_ LR].
  destruct (LR st L) as (I1 & I2 & [y s0] & [R0 _] & R1 & R2). cbn [fst snd] in *.
  assert (Hs0 : s_m s0 = 0%Z) by (rewrite <- Hm; apply R0).
  rewrite kres_resid in R1 by auto.
  assert (H1 := f_equal (fun r => match r with Ok (i, _, _) => i | Err _ => iv end) H).
  assert (H2 := f_equal (fun r => match r with Ok (_, b, _) => b | Err _ => true end) H).
  assert (H3 := f_equal (fun r => match r with Ok (_, _, b) => b | Err _ => out end) H). cbv beta iota in H1, H2, H3. clear H.
  rewrite R1 in H2, H3, R2. rewrite X in R2.
  assert (VU : exists vs us, vs' = Some vs /\ us' = Some us /\
    (match i_vs iv, i_us iv with
     | None, None => vs = A2 (i_cols iv) (fun k t => if (t =? sp)%nat then x_v N M x k else 0) /\
                     us = U2 N (i_cols iv) (fun k t => if (k =? sp)%nat then h else 0)
     | Some (A2 c f), Some (U2 rr cc u) => vs = A2 c (fun k t => if (t =? sp)%nat then x_v N M x k else f k t) /\
                     us = U2 rr cc (fun k t => if (k =? sp)%nat then h else u k t)
     | _, _ => True
     end) /\ (sp < match i_us iv with Some (U2 rr _ _) => rr | _ => N end)%nat).
  { unfold iv0 in V, U. destruct (i_vs iv) as [[f|c f]|] eqn:EV, (i_us iv) as [[u|rr cc u]|] eqn:EU;
      rewrite ?EV, ?EU in V; rewrite ?EV, ?EU in U; cbn [i_vs i_us inv_vs inv_us] in V, U; rewrite ?EV in V; rewrite ?EU in U; cbn [set_vcol set_urow] in V, U; try discriminate.
    - destruct (sp <? c)%nat; inversion V. destruct (Nat.ltb_spec sp rr); inversion U. do 2 eexists. split; [reflexivity|]. split; [reflexivity|]. auto.
    - destruct (sp <? i_cols iv)%nat; inversion V. destruct (Nat.ltb_spec sp (Nelem g)); inversion U. do 2 eexists. split; [reflexivity|]. split; [reflexivity|]. auto. }
  destruct VU as (vs & us & -> & -> & VU1 & VU2).
  exists x, s1, (ol_iter st), (resid g M n0 y), h, vs, us.
  split; [auto|]. split; [auto|]. split; [auto|]. split.
  { intros E1. rewrite E1, Nat.eqb_refl in Ho. exact Ho. }
  split; [auto|]. split; [auto|]. split.
  { rewrite <- H1. unfold inv_setveff, inv_solver. cbn [i_sol]. rewrite !upd2_same. reflexivity. }
  split.
  { rewrite <- H2. rewrite negb_true_iff. destruct (gtb (Fin (resid g M n0 y)) (Fin (io_tol (i_opt iv)))) eqn:T.
    - apply gtb_fin in T. fold tol in T. split; [discriminate|lra].
    - split; auto. intros _. fold tol in T. apply Rnot_lt_le. intros T'. apply gtb_fin in T'. congruence. }
  split; [auto|]. split; [auto|]. split; [auto|]. split.
  { destruct R2 as [(R2 & R3)|(R2 & R3 & R4 & b & R5)].
    - left. inversion R2; subst. split; auto. destruct R3 as [R3|R3]; auto. left. apply gtb_fin in R3. exact R3.
    - right. apply gtb_fin in R2. split; auto. split.
      { apply Rnot_lt_le. intros T. apply gtb_fin in T. fold tol in R3. congruence. }
      split; auto. exists y, s0, b. auto. }
  split; [exact Hh|]. split; [rewrite <- H1; reflexivity|]. split; [rewrite <- H1; reflexivity|]. auto.
Qed.
