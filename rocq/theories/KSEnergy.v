(** Energies, chemical potential, residual, symmetry and construction for CADMium/kohnsham. *)
From Coq Require Import Reals List Arith Lia Lra ZArith Bool String Permutation.
From Verif Require Import Base BaseLemmas GridModel GridSpec GridProofs HartreeModel SolverModel SolverSpec
  LibxcModel OptionsModel OptionsProofs KSModel KSSpec KSProofs KSThms KSLoop.
Import ListNotations.
Local Open Scope R_scope.
Local Opaque sinh cosh.

(** * energy *)
Definition eks_of (s : solver) : R := match calc_eks s with Ok e => e | Err _ => 0 end.
(** potential energy of a solver's density in the solver's own effective potential *)
Definition pot_of (g : grid) (s : solver) : R := integrate1 g (fun k => s_veff s k * dens g s k).
Lemma calc_energy_inv : forall g s eks Vs Ts n, calc_energy g s = Ok (eks, Vs, Ts, n) ->
  eks = eks_of s /\ n = dens g s /\ calc_density g s = Ok (dens g s) /\ Ts = Fin (eks_of s - pot_of g s) /\
  Vs = Fin (if Rlt_dec (10 ^ 5) (Rabs (pot_of g s)) then 0 else pot_of g s).
Proof.
  intros g s eks Vs Ts n H. unfold calc_energy in H. unfold eks_of, pot_of, dens.
  destruct (calc_eks s) as [e|]; [|discriminate]. cbn [bind] in H.
  destruct (calc_density g s) as [d|]; [|discriminate]. cbn [bind] in H. cbv zeta in H.
  destruct (energy_tail e (Fin (integrate1 g (fun k => s_veff s k * d k)))) as [Vs' Ts'] eqn:T. 
  assert (X : e = eks /\ Vs' = Vs /\ Ts' = Ts /\ d = n).
  { split; [|split; [|split]]; [exact (f_equal (fun x => match x with Ok (a,_,_,_) => a | _ => e end) H)
     |exact (f_equal (fun x => match x with Ok (_,a,_,_) => a | _ => Vs end) H)
     |exact (f_equal (fun x => match x with Ok (_,_,a,_) => a | _ => Ts end) H)
     |exact (f_equal (fun x => match x with Ok (_,_,_,a) => a | _ => d end) H)]. }
  destruct X as (-> & -> & -> & ->). unfold energy_tail, rsub in T.
  destruct (Rlt_dec (10 ^ 5) (Rabs (integrate1 g (fun k => s_veff s k * n k)))); injection T as <- <-; repeat split; auto.
Qed.
Definition evals_of (s : solver) : list R := match s_eig s with Some (c, e) => map e (seq 0 c) | None => [] end.
Lemma energy_loop_inv : forall g k aE aV aT ev, energy_loop g k = Ok (aE, aV, aT, ev) ->
  (forall i j, place k i j -> (j < k_pol k)%nat /\ calc_density g (k_sol k i j) = Ok (dens g (k_sol k i j))) /\
  (forall s, aE s = if (s <? k_cols k)%nat then sumR (k_lv k) (fun i => eks_of (k_sol k i s)) else 0) /\
  aT = Fin (sumR (k_lv k) (fun i => sumR (k_cols k) (fun j => eks_of (k_sol k i j) - pot_of g (k_sol k i j)))) /\
  (forall s, aV s = Fin (if (s <? k_cols k)%nat then sumR (k_lv k) (fun i => if Rlt_dec (10 ^ 5) (Rabs (pot_of g (k_sol k i s))) then 0 else pot_of g (k_sol k i s)) else 0)) /\
  ev = flat_map (fun i => flat_map (fun j => evals_of (k_sol k i j)) (seq 0 (k_cols k))) (seq 0 (k_lv k)).
Proof.
  intros g k aE aV aT ev H. unfold energy_loop in H.
  set (vv := fun i s => if Rlt_dec (10 ^ 5) (Rabs (pot_of g (k_sol k i s))) then 0 else pot_of g (k_sol k i s)).
  set (P := fun i (a : eacc) =>
    (forall i' j, (i' < i)%nat -> (j < k_cols k)%nat -> (j < k_pol k)%nat /\ calc_density g (k_sol k i' j) = Ok (dens g (k_sol k i' j))) /\
    (forall s, fst (fst (fst a)) s = if (s <? k_cols k)%nat then sumR i (fun i => eks_of (k_sol k i s)) else 0) /\
    snd (fst a) = Fin (sumR i (fun i => sumR (k_cols k) (fun j => eks_of (k_sol k i j) - pot_of g (k_sol k i j)))) /\
    (forall s, snd (fst (fst a)) s = Fin (if (s <? k_cols k)%nat then sumR i (fun i => vv i s) else 0)) /\
    snd a = flat_map (fun i => flat_map (fun j => evals_of (k_sol k i j)) (seq 0 (k_cols k))) (seq 0 i)).
  assert (Q : P (k_lv k) (aE, aV, aT, ev)).
  { apply (forN_inv _ P _ _ _ _ H).
    - repeat split; simpl; intros; try lia; try (destruct (_ <? _)%nat; reflexivity).
    - intros i a b Hi (P1 & P2 & P3 & P4 & P5) E.
      set (I := fun j (b : eacc) =>
        (forall j', (j' < j)%nat -> (j' < k_pol k)%nat /\ calc_density g (k_sol k i j') = Ok (dens g (k_sol k i j'))) /\
        (forall s, fst (fst (fst b)) s = if (s <? j)%nat then fst (fst (fst a)) s + eks_of (k_sol k i s) else fst (fst (fst a)) s) /\
        snd (fst b) = Fin (sumR i (fun i => sumR (k_cols k) (fun j => eks_of (k_sol k i j) - pot_of g (k_sol k i j)))
                           + sumR j (fun j => eks_of (k_sol k i j) - pot_of g (k_sol k i j))) /\
        (forall s, snd (fst (fst b)) s = if (s <? j)%nat then nadd (snd (fst (fst a)) s) (Fin (vv i s)) else snd (fst (fst a)) s) /\
        snd b = (snd a ++ flat_map (fun j => evals_of (k_sol k i j)) (seq 0 j))%list).
      assert (J : I (k_cols k) b).
      { apply (forN_inv _ I _ _ _ _ E).
        - repeat split; simpl; intros; try lia; try reflexivity. + rewrite P3. f_equal. ring. + rewrite app_nil_r. reflexivity.
        - intros j c d Hj (I1 & I2 & I3 & I4 & I5) Ec.
          destruct (calc_energy g (k_sol k i j)) as [[[[e Vs] Ts] n]|] eqn:D; [|discriminate]. cbn [bind] in Ec.
          destruct c as [[[cE cV] cT] cev]. simpl in I2, I3, I4, I5.
          destruct (Nat.ltb_spec j (k_pol k)); [|discriminate]. injection Ec as <-.
          apply calc_energy_inv in D. destruct D as (-> & -> & Dn & -> & ->). fold (vv i j). cbv beta delta [I]. cbn [fst snd]. split; [|split; [|split; [|split]]].
          + intros j' Hj'. destruct (Nat.eq_dec j' j) as [->|]; [auto|apply I1; lia].
          + intros s. rewrite I2. destruct (Nat.eqb_spec s j), (Nat.ltb_spec s j), (Nat.ltb_spec s (S j)); subst; try lia; auto.
          + rewrite I3. simpl. f_equal. ring.
          + intros s. rewrite I4. destruct (Nat.eqb_spec s j), (Nat.ltb_spec s j), (Nat.ltb_spec s (S j)); subst; try lia; auto.
          + rewrite I5, seq_S, flat_map_app, app_assoc. simpl. rewrite app_nil_r. reflexivity. }
      destruct J as (J1 & J2 & J3 & J4 & J5). split; [|split; [|split; [|split]]].
      + intros i' j Hi' Hj. destruct (Nat.eq_dec i' i) as [->|]; [apply J1; auto|apply P1; auto; lia].
      + intros s. rewrite J2, P2. destruct (s <? k_cols k)%nat; auto.
      + rewrite J3. reflexivity.
      + intros s. rewrite J4, P4. destruct (s <? k_cols k)%nat; auto.
      + rewrite J5, P5, seq_S, flat_map_app. simpl. rewrite app_nil_r. reflexivity. }
  destruct Q as (Q1 & Q2 & Q3 & Q4 & Q5). cbn [fst snd] in *. split; [intros i j (Hi & Hj); apply Q1; auto|].
  split; [exact Q2|]. split; [exact Q3|]. split; [exact Q4|exact Q5].
Qed.
Lemma pair_integral_sum : forall g pol n v, pair_integral g pol n v = sumR pol (fun s => integrate1 g (fun k => n k s * v k s)).
Proof. intros. unfold pair_integral, sum_cols. apply (integrate1_sum pol g (fun s k => n k s * v k s)). Qed.

(** kinetic energy of all solvers *)
Definition kinetic (g : grid) (k : ks) : R :=
  sumR (k_lv k) (fun i => sumR (k_cols k) (fun j => eks_of (k_sol k i j) - pot_of g (k_sol k i j))).
Definition interaction (g : grid) (pol : nat) (n v : mat) : R := sumR pol (fun s => integrate1 g (fun k => n k s * v k s)).

Lemma energy_inv : forall g w k k', ks_energy g w k = Ok k' ->
  exists E n ve, k_E k' = Some E /\ k_n k = Some n /\ k_vext k = Some ve /\
    (forall i j, place k i j -> (j < k_pol k)%nat /\ calc_density g (k_sol k i j) = Ok (dens g (k_sol k i j))) /\
    E_Ts E = Fin (kinetic g k) /\
    (forall s, (s < k_cols k)%nat -> E_Eks E s = sumR (k_lv k) (fun i => eks_of (k_sol k i s))) /\
    (forall s, (s < k_cols k)%nat -> (forall i, (i < k_lv k)%nat -> Rabs (pot_of g (k_sol k i s)) <= 10 ^ 5) ->
       E_Vks E s = Fin (sumR (k_lv k) (fun i => pot_of g (k_sol k i s)))) /\
    E_evals E = flat_map (fun i => flat_map (fun j => evals_of (k_sol k i j)) (seq 0 (k_cols k))) (seq 0 (k_lv k)) /\
    E_Enuc E = interaction g (k_pol k) n (k_vnuc k) /\ E_Vext E = interaction g (k_pol k) n ve /\
    E_Vnn E = k_Za k * k_Zb k / (2 * ga g) /\
    ((o_int (k_opt k) = "ni"%string /\ E_E E = Fin (kinetic g k + E_Enuc E + E_Vnn E)) \/
     (o_int (k_opt k) <> "ni"%string /\ exists vhxc vh Ex ex vx Ec ec vc Eh,
        k_vhxc k = Some vhxc /\ E_Vhxc E = Some (interaction g (k_pol k) n vhxc) /\
        v_hartree g (e_spL w) (e_spU w) (A2 (k_pol k) n) = Ok vh /\
        get_xc g (e_lib w) (o_fam (k_opt k)) (o_xid (k_opt k)) (k_pol k) n = Ok (Ex, ex, vx) /\
        get_xc g (e_lib w) (o_fam (k_opt k)) (o_cid (k_opt k)) (k_pol k) n = Ok (Ec, ec, vc) /\
        E_Eh E = Some Eh /\ Eh = 1 / 2 * integrate1 g (fun x => sumR (k_pol k) (fun s => n x s) * entry vh x 0) /\
        E_E E = Fin (kinetic g k + E_Enuc E + Eh + Ex + Ec + E_Vnn E) /\
        V_vx (k_V k') = Some vx /\ V_vc (k_V k') = Some vc /\ V_ex (k_V k') = Some ex /\ V_ec (k_V k') = Some ec /\
        E_Ex E = Ex /\ E_Ec E = Ec)).
Proof.
  intros g w k k' H. unfold ks_energy in H.
  destruct (energy_loop g k) as [[[[aE aV] aT] ev]|] eqn:L; [|discriminate]. cbn [bind] in H.
  apply energy_loop_inv in L. destruct L as (L1 & L2 & L3 & L4 & L5).
  destruct (need (k_n k)) as [n|] eqn:N; [|discriminate]. cbn [bind] in H.
  destruct (need (k_vext k)) as [ve|] eqn:VE; [|discriminate]. cbn [bind] in H. cbv zeta in H. apply need_some in N, VE.
  assert (C1 : forall s, (s < k_cols k)%nat -> aE s = sumR (k_lv k) (fun i => eks_of (k_sol k i s))).
  { intros s Hs. rewrite L2, (proj2 (Nat.ltb_lt _ _) Hs). reflexivity. }
  assert (C2 : forall s, (s < k_cols k)%nat -> (forall i, (i < k_lv k)%nat -> Rabs (pot_of g (k_sol k i s)) <= 10 ^ 5) ->
       aV s = Fin (sumR (k_lv k) (fun i => pot_of g (k_sol k i s)))).
  { intros s Hs HV. rewrite L4, (proj2 (Nat.ltb_lt _ _) Hs). f_equal. apply sumR_ext. intros i Hi. specialize (HV i Hi). destruct Rlt_dec; lra. }
  fold (kinetic g k) in L3. subst aT.
  destruct (String.eqb_spec (o_int (k_opt k)) "ni") as [EI|EI].
  - injection H as <-. eexists. exists n, ve. split; [reflexivity|]. cbn [E_Ts E_Eks E_Vks E_evals E_Enuc E_Vext E_Vnn E_E].
    repeat (split; [solve [auto | apply pair_integral_sum]|]). left. split; auto.
  - destruct (need (k_vhxc k)) as [vhxc|] eqn:VX; [|discriminate]. cbn [bind] in H. apply need_some in VX.
    destruct (v_hartree g (e_spL w) (e_spU w) (A2 (k_pol k) n)) as [vh|] eqn:VH; [|discriminate]. cbn [bind] in H.
    destruct (get_xc g (e_lib w) (o_fam (k_opt k)) (o_xid (k_opt k)) (k_pol k) n) as [[[Ex ex] vx]|] eqn:X; [|discriminate]. cbn [bind] in H.
    destruct (get_xc g (e_lib w) (o_fam (k_opt k)) (o_cid (k_opt k)) (k_pol k) n) as [[[Ec ec] vc]|] eqn:C; [|discriminate]. cbn [bind] in H.
    injection H as <-. eexists. exists n, ve. split; [reflexivity|].
    cbn [E_Ts E_Eks E_Vks E_evals E_Enuc E_Vext E_Vnn E_E E_Vhxc E_Eh E_Ex E_Ec k_V set_EV V_vx V_vc V_ex V_ec].
    repeat (split; [solve [auto | apply pair_integral_sum]|]). right. split; auto.
    exists vhxc, vh, Ex, ex, vx, Ec, ec, vc. eexists. split; auto. split; [f_equal; apply pair_integral_sum|].
    split; [exact VH|]. split; auto. split; auto. split; [reflexivity|]. split.
    + rewrite <- integrate1_scal. apply integrate1_ext. intros x Hx. unfold sum_cols. destruct vh; simpl; ring.
    + split; [|repeat split]. simpl. f_equal.
Qed.

(** Band energy minus double counting. *)
Lemma double_counting : forall g k n ve vhxc, k_pol k = k_cols k ->
  (forall i j, place k i j -> forall x, (x < Nelem g)%nat -> s_veff (k_sol k i j) x = k_vnuc k x j + ve x j + vhxc x j) ->
  sum_dens g k (k_sol k) = Ok n ->
  kinetic g k + interaction g (k_pol k) n (k_vnuc k) =
  sumR (k_lv k) (fun i => sumR (k_cols k) (fun j => eks_of (k_sol k i j))) - interaction g (k_pol k) n ve - interaction g (k_pol k) n vhxc.
Proof.
  intros g k n ve vhxc HP HV S. apply sum_dens_spec in S. destruct S as (S1 & S2).
  assert (X : sumR (k_lv k) (fun i => sumR (k_cols k) (fun j => pot_of g (k_sol k i j))) =
     interaction g (k_pol k) n (k_vnuc k) + interaction g (k_pol k) n ve + interaction g (k_pol k) n vhxc).
  { rewrite sumR_swap. unfold interaction. rewrite HP, <- !sumR_plus. apply sumR_ext. intros j Hj.
    rewrite <- !integrate1_plus.
    rewrite (integrate1_ext g _ (fun x => sumR (k_lv k) (fun i => s_veff (k_sol k i j) x * dens g (k_sol k i j) x))).
    - rewrite integrate1_sum. reflexivity.
    - intros x Hx. rewrite S2, (proj2 (Nat.ltb_lt _ _) Hj).
      rewrite (sumR_ext (k_lv k) (fun i => s_veff (k_sol k i j) x * dens g (k_sol k i j) x) (fun i => (k_vnuc k x j + ve x j + vhxc x j) * dens g (k_sol k i j) x)).
      + rewrite sumR_scal. ring.
      + intros i Hi. rewrite HV; auto. split; auto. }
  unfold kinetic.
  rewrite (sumR_ext (k_lv k) _ (fun i => sumR (k_cols k) (fun j => eks_of (k_sol k i j)) - sumR (k_cols k) (fun j => pot_of g (k_sol k i j)))).
  - rewrite sumR_minus, X. ring.
  - intros. apply sumR_minus.
Qed.

(** * chemical potential *)
Lemma fold_max : forall l a, let m := fold_left (fun x y => if Rlt_dec x y then y else x) l a in
  In m (a :: l) /\ forall x, In x (a :: l) -> x <= m.
Proof.
  induction l as [|b l IH]; intros a m; subst m; simpl.
  - split; auto. intros x [->|[]]; lra.
  - destruct (IH (if Rlt_dec a b then b else a)) as (A1 & A2). cbv zeta in A1, A2. split.
    + destruct A1 as [A1|A1]; [|right; right; exact A1]. destruct Rlt_dec; auto.
    + assert (M := A2 _ (or_introl eq_refl)). intros x [<-|[<-|H]].
      * eapply Rle_trans; [|exact M]. destruct Rlt_dec; lra.
      * eapply Rle_trans; [|exact M]. destruct Rlt_dec; lra.
      * apply A2. right. exact H.
Qed.
Lemma pymaxR_spec : forall l u, pymaxR l = Ok u -> In u l /\ forall x, In x l -> x <= u.
Proof. intros [|a l] u H; [discriminate|]. simpl in H. injection H as <-. apply (fold_max l a). Qed.
Lemma chempot_spec : forall k k', calc_chempot k = Ok k' ->
  exists u, k' = set_u k (Some u) /\ (exists i j, place k i j /\ get_homo (k_sol k i j) = Ok u) /\
  forall i j, place k i j -> exists h, get_homo (k_sol k i j) = Ok h /\ h <= u.
Proof.
  intros k k' H. unfold calc_chempot in H. destruct (forN _ _ _) as [l|] eqn:L; [|discriminate]. cbn [bind] in H.
  destruct (pymaxR l) as [u|] eqn:U; [|discriminate]. cbn [bind] in H. injection H as <-. exists u. split; auto.
  set (P := fun i (l : list R) => (forall x, In x l -> exists i j, place k i j /\ get_homo (k_sol k i j) = Ok x) /\
     forall i' j, (i' < i)%nat -> (j < k_cols k)%nat -> exists h, get_homo (k_sol k i' j) = Ok h /\ In h l).
  assert (Q : P (k_lv k) l).
  { apply (forN_inv _ P _ _ _ _ L); [split; [intros x []|lia]|].
    intros i a b Hi (P1 & P2) E.
    set (I := fun j (l : list R) => (forall x, In x l -> exists i j, place k i j /\ get_homo (k_sol k i j) = Ok x) /\
       (forall x, In x a -> In x l) /\ forall j', (j' < j)%nat -> exists h, get_homo (k_sol k i j') = Ok h /\ In h l).
    assert (J : I (k_cols k) b).
    { apply (forN_inv _ I _ _ _ _ E); [split; [auto|split; [auto|lia]]|].
      intros j c d Hj (I1 & I2 & I3) Ec. destruct (get_homo (k_sol k i j)) as [h|] eqn:D; [|discriminate]. cbn [bind] in Ec. injection Ec as <-.
      split; [|split].
      - intros x Hx. apply in_app_iff in Hx. destruct Hx as [Hx|[->|[]]]; auto. exists i, j. split; [split; auto|auto].
      - intros x Hx. apply in_app_iff. auto.
      - intros j' Hj'. destruct (Nat.eq_dec j' j) as [->|].
        + exists h. split; auto. apply in_app_iff. right. left. auto.
        + destruct (I3 j') as (h' & A1 & A2); [lia|]. exists h'. split; auto. apply in_app_iff. auto. }
    destruct J as (J1 & J2 & J3). split; auto. intros i' j Hi' Hj. destruct (Nat.eq_dec i' i) as [->|]; auto.
    destruct (P2 i' j) as (h & A1 & A2); [lia|auto|]. exists h. auto. }
  destruct Q as (Q1 & Q2). destruct (pymaxR_spec l u U) as (M1 & M2). split; auto.
  intros i j (Hi & Hj). destruct (Q2 i j Hi Hj) as (h & A1 & A2). exists h. split; auto.
Qed.
Lemma chempot_empty : forall k, (k_lv k = 0 \/ k_cols k = 0)%nat -> calc_chempot k = Err ValueError.
Proof.
  intros k H. unfold calc_chempot.
  assert (E : forN (k_lv k) (fun i l => forN (k_cols k) (fun j l => do h <- get_homo (k_sol k i j); Ok (l ++ [h])%list) l) [] = Ok []).
  { destruct H as [->| ->]; [reflexivity|]. simpl. induction (k_lv k); simpl; auto. rewrite IHn. reflexivity. }
  rewrite E. reflexivity.
Qed.

(** * residual *)
Lemma npmax2_nan_l : forall l, fold_left npmax2 l NaN = NaN.
Proof. induction l; simpl; auto. Qed.
Lemma npmax_nan : forall l, In NaN l -> npmax l = Ok NaN.
Proof.
  intros [|a l] H; [contradiction|]. simpl. f_equal. revert a H. induction l as [|b l IH]; intros a H; simpl.
  - destruct H as [H|[]]; auto.
  - apply IH. destruct H as [->|[->|H]]; simpl; auto. left. destruct a; reflexivity.
Qed.
Lemma npmax2_fin : forall a b, npmax2 (Fin a) (Fin b) = Fin (if Rlt_dec a b then b else a).
Proof. intros. unfold npmax2, pymax, gtb. destruct (Rlt_dec a b); reflexivity. Qed.
Lemma npmax_fin : forall (l : list R), l <> [] -> exists m, npmax (map Fin l) = Ok (Fin m) /\ In m l /\ forall x, In x l -> x <= m.
Proof.
  intros [|a l] H; [congruence|]. clear H. exists (fold_left (fun x y => if Rlt_dec x y then y else x) l a). split; [|apply (fold_max l a)].
  cbn [map npmax]. f_equal. revert a. induction l as [|b l IH]; intros a; cbn [map fold_left]; auto. rewrite npmax2_fin. apply IH.
Qed.
Lemma pymax_nan : forall x, pymax x NaN = x.
Proof. intros []; reflexivity. Qed.
Lemma integrate1_nonneg_abs : forall g f, (forall k, (k < Nelem g)%nat -> f k = 0) -> integrate1 g (fun k => Rabs (f k)) = 0.
Proof.
  intros. rewrite (integrate1_ext g _ (fun _ => 0)); [apply integrate1_zero|]. intros. rewrite H by auto. apply Rabs_R0.
Qed.
Lemma residual_empty_spin : forall g E oldE n old s, (0 < Nelem g)%nat -> (s < 2)%nat ->
  (forall k, (k < Nelem g)%nat -> n k s = 0) -> (forall k, (k < Nelem g)%nat -> old k s = 0) ->
  dens_residual g 2 n old = Ok NaN /\ residual g 2 E oldE n old = Ok (energy_residual E oldE).
Proof.
  intros g E oldE n old s HN Hs Hn Ho.
  assert (D : dens_residual g 2 n old = Ok NaN).
  { unfold dens_residual, integrate. cbn [Nat.eqb]. apply npmax_nan. apply in_flat_map. exists 0%nat. split; [apply in_seq; lia|].
    apply in_map_iff. exists s. split; [|apply in_seq; lia].
    rewrite (integrate1_nonneg_abs g (fun k => n k s - old k s)), (integrate1_nonneg_abs g (fun k => n k s)); auto.
    - unfold ndiv. destruct (Req_EM_T 0 0); congruence.
    - intros k Hk. rewrite Hn, Ho by auto. ring. }
  split; auto. unfold residual. rewrite D. cbn [bind]. rewrite pymax_nan. reflexivity.
Qed.
Definition abs_int (g : grid) (f : mat) (s : nat) : R := integrate1 g (fun k => Rabs (f k s)).
Lemma residual_two : forall g E oldE n old, (0 < Nelem g)%nat -> E <> 0 ->
  (forall s, (s < 2)%nat -> 0 < abs_int g n s) ->
  exists r, residual g 2 (Fin E) (Fin oldE) n old = Ok (Fin r) /\
    forall t, r <= t <-> (Rabs (E - oldE) <= t * Rabs E /\ forall s, (s < 2)%nat -> abs_int g (fun k s => n k s - old k s) s <= t * abs_int g n s).
Proof.
  intros g E oldE n old HN HE HP. set (q := fun s => abs_int g (fun k s => n k s - old k s) s / abs_int g n s).
  assert (D : exists m, dens_residual g 2 n old = Ok (Fin m) /\ forall t, m <= t <-> forall s, (s < 2)%nat -> q s <= t).
  { unfold dens_residual, integrate. cbn [Nat.eqb].
    assert (L : flat_map (fun k : nat => map (fun s => ndiv (integrate1 g (fun k0 => Rabs (n k0 s - old k0 s))) (integrate1 g (fun k0 => Rabs (n k0 s)))) (seq 0 2)) (seq 0 (Nelem g))
      = map Fin (flat_map (fun _ : nat => map q (seq 0 2)) (seq 0 (Nelem g)))).
    { generalize (seq 0 (Nelem g)). induction l as [|x l IH]; auto. cbn [flat_map]. rewrite map_app, IH. f_equal.
      rewrite map_map. apply map_ext_in. intros s Hs. apply in_seq in Hs. unfold ndiv. specialize (HP s ltac:(lia)). unfold abs_int in HP.
      destruct Req_EM_T; [lra|]. reflexivity. }
    rewrite L. destruct (npmax_fin (flat_map (fun _ : nat => map q (seq 0 2)) (seq 0 (Nelem g)))) as (m & EM & I & M).
    { destruct (Nelem g); [lia|]. discriminate. }
    exists m. split; auto. intros t. split.
    - intros Ht s Hs. eapply Rle_trans; [|exact Ht]. apply M. apply in_flat_map. exists 0%nat. split; [apply in_seq; lia|]. apply in_map, in_seq. lia.
    - intros H. apply in_flat_map in I. destruct I as (_ & _ & I). apply in_map_iff in I. destruct I as (s & <- & Hs). apply in_seq in Hs. apply H. lia. }
  destruct D as (m & D & DM).
  assert (HD : forall t s, (s < 2)%nat -> (q s <= t <-> abs_int g (fun k s => n k s - old k s) s <= t * abs_int g n s)).
  { intros t s Hs. specialize (HP s Hs). unfold q. split; intros H.
    - apply Rmult_le_compat_r with (r := abs_int g n s) in H; [|lra]. unfold Rdiv in H. rewrite Rmult_assoc, Rinv_l in H by lra. lra.
    - apply Rmult_le_reg_r with (abs_int g n s); auto. unfold Rdiv. rewrite Rmult_assoc, Rinv_l by lra. lra. }
  assert (ER : energy_residual (Fin E) (Fin oldE) = Fin (Rabs ((E - oldE) / E))).
  { unfold energy_residual, nsub, nneg, nadd, ndivn, ndiv. destruct (Req_EM_T E 0); [contradiction|]. reflexivity. }
  assert (EE : forall t, Rabs ((E - oldE) / E) <= t <-> Rabs (E - oldE) <= t * Rabs E).
  { intros t. pose proof (Rabs_pos_lt E HE). unfold Rdiv. rewrite Rabs_mult, Rabs_inv. split; intros H0.
    - apply Rmult_le_compat_r with (r := Rabs E) in H0; [|lra]. rewrite Rmult_assoc, Rinv_l in H0 by lra. lra.
    - apply Rmult_le_reg_r with (Rabs E); auto. rewrite Rmult_assoc, Rinv_l by lra. lra. }
  unfold residual. rewrite D. cbn [bind]. rewrite ER. unfold pymax, gtb.
  destruct (Rlt_dec (Rabs ((E - oldE) / E)) m).
  - exists m. split; auto. intros t. split.
    + intros H. split; [apply EE; lra|]. intros s Hs. apply HD; auto. apply DM; auto.
    + intros (_ & H). apply DM. intros s Hs. apply HD; auto.
  - eexists. split; [reflexivity|]. intros t. split.
    + intros H. split; [apply EE; lra|]. intros s Hs. apply HD; auto. apply DM; auto. lra.
    + intros (H & _). apply EE. auto.
Qed.
(** One column: every point counts alike, the quadrature weights cancel. *)
Lemma residual_one : forall g n old, sumR (Nelem g) (fun k => gwi g k * gw g k) <> 0 -> iprefac g <> 0 ->
  sumR (Nelem g) (fun k => Rabs (n k 0%nat)) <> 0 ->
  dens_residual g 1 n old = Ok (Fin (sumR (Nelem g) (fun k => Rabs (n k 0%nat - old k 0%nat)) / sumR (Nelem g) (fun k => Rabs (n k 0%nat)))).
Proof.
  intros g n old HW HI HN. unfold dens_residual, integrate. cbn [Nat.eqb].
  assert (C : forall f, integrate_col g f = iprefac g * sumR (Nelem g) (fun k => gwi g k * gw g k) * sumR (Nelem g) f).
  { intros f. unfold integrate_col. rewrite (sumR_ext _ _ (fun i => sumR (Nelem g) (fun k => gwi g k * gw g k) * f i)).
    - rewrite sumR_scal. ring.
    - intros. apply sumR_scal_r. }
  rewrite !C. unfold ndiv. destruct Req_EM_T as [E|E].
  - exfalso. apply HN. apply Rmult_integral in E. destruct E as [E|E]; auto. apply Rmult_integral in E. tauto.
  - f_equal. f_equal. field. auto.
Qed.

(** * symmetry *)
Lemma sym_avg_mirror : forall (A : Type) (add : A -> A -> A) (half : A -> A) g f k s, (forall x y, add x y = add y x) -> (k < Nelem g)%nat ->
  mirror2 g (sym_avg add half g f) k s = sym_avg add half g f k s.
Proof.
  intros A add half g f k s HC Hk. rewrite mirror2_mirror1 by auto. unfold sym_avg.
  destruct (pos_surj g k Hk) as (ia & ir & Hp & ->). rewrite mirror1_pos by auto.
  assert (Hp' := mirror_point g ia ir Hp). rewrite !mirror2_mirror1 by (apply pos_lt; auto).
  rewrite !mirror1_pos by auto. replace (Na g - 1 - (Na g - 1 - ia))%nat with ia by (destruct Hp; lia). rewrite HC. reflexivity.
Qed.
Lemma sym_avgR_sym : forall g c f, symmetric g c (sym_avgR g f).
Proof.
  intros g c f k s Hk Hs. rewrite <- (mirror2_mirror1 _ g (sym_avgR g f)) by auto. apply sym_avg_mirror; auto. intros; ring.
Qed.
Lemma symmetric_add : forall g c a b d, symmetric g c a -> symmetric g c b -> symmetric g c d -> symmetric g c (add3 a b d).
Proof.
  intros g c a b d Ha Hb Hd k s Hk Hs. unfold add3.
  rewrite (mirror1_map2 _ _ _ g Rplus (fun x => a x s + b x s) (fun x => d x s)) by auto.
  rewrite (mirror1_map2 _ _ _ g Rplus (fun x => a x s) (fun x => b x s)) by auto. rewrite Ha, Hb, Hd by auto. reflexivity.
Qed.

(** * construction *)
Lemma init_solver : forall Nmo N m pol o s, i_solver_init Nmo N m pol o = Ok s ->
  exists c, configure SolverOptions o = Ok c /\ N <> -1 /\
  s_m s = Z.of_nat m /\ s_pol s = pol /\ s_N s = N /\ s_Nmo s = Nmo /\ s_frac s = getB c "fractional" /\ s_sym s = getB c "sym" /\ s_phi s = None /\ s_eig s = None.
Proof.
  intros Nmo N m pol o s H. unfold i_solver_init in H. destruct (configure SolverOptions o) as [c|]; [|discriminate]. cbn [bind] in H.
  destruct (Req_EM_T N (-1)); [discriminate|]. injection H as <-. exists c. repeat split; auto.
Qed.
Lemma solver_config : forall f s, exists c, configure SolverOptions [("fractional"%string, VB f); ("sym"%string, VB s)] = Ok c /\
  getB c "fractional" = f /\ getB c "sym" = s.
Proof. intros. eexists. split; [reflexivity|]. split; reflexivity. Qed.
Lemma Pssolver_fill : forall lv cols Nmo N opt, Pssolver lv cols Nmo N opt =
  fillI cols lv (fun i j _ => i_solver_init (Nmo i j) (N i j) i cols opt) (fun _ _ => dummy_solver).
Proof. reflexivity. Qed.
