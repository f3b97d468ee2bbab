(** Runs of Kohnsham.scf on two objects that are images of each other under a map of the grid points and a permutation of the spins. *)
From Coq Require Import Reals List Arith Lia Lra ZArith Bool String Permutation.
From Verif Require Import Base BaseLemmas GridModel GridSpec GridProofs HartreeModel SolverModel SolverSpec SolverProofs LibxcModel OptionsModel KSModel KSSpec KSProofs KSThms KSLoop KSEnergy KSTotal
  SelfConsistent NonInteracting Isolated.
Import ListNotations.
Local Open Scope R_scope.

(** * Specification *)
(** n' is n at the point tau x for spin sigma j. *)
Definition image (g : grid) (tau sigma : nat -> nat) (pol : nat) (n n' : mat) : Prop := forall x j, (x < Nelem g)%nat -> (j < pol)%nat -> n' x j = n (tau x) (sigma j).
(** Answers of a worker: equal eigenvalues, orbitals that are images of each other up to sign. *)
Definition same_answer (g : grid) (tau : nat -> nat) (r r' : wres) : Prop := fst (fst r') = fst (fst r) /\ (forall i, (i < fst (fst r))%nat -> snd (fst r') i = snd (fst r) i) /\
  match snd r, snd r' with
  | None, None => True
  | Some (c, p), Some (c', p') => c' = c /\ forall i, (i < c)%nat -> (forall x, (x < Nelem g)%nat -> p' i x = p i (tau x)) \/ (forall x, (x < Nelem g)%nat -> p' i x = - p i (tau x))
  | _, _ => False
  end.
(** Workers that answer an image of a problem with the image of the answer. *)
Definition equivariant (g : grid) (w : env) (tau : nat -> nat) : Prop := forall it it' s s' r r', same_static s s' -> (forall x, (x < Nelem g)%nat -> s_veff s' x = s_veff s (tau x)) ->
  e_worker w it s = Some r -> e_worker w it' s' = Some r' -> same_answer g tau r r'.
(** Points and spins permuted, the quadrature unchanged. *)
Definition point_map (g : grid) (tau : nat -> nat) : Prop := (forall x, (x < Nelem g)%nat -> (tau x < Nelem g)%nat) /\
  (forall f, sumR (Nelem g) (fun x => f (tau x)) = sumR (Nelem g) f) /\ forall f, integrate1 g (fun x => f (tau x)) = integrate1 g f.
Definition spin_map (pol cols : nat) (sigma : nat -> nat) : Prop := Permutation (map sigma (seq 0 pol)) (seq 0 pol) /\ Permutation (map sigma (seq 0 cols)) (seq 0 cols) /\
  forall j, (j < pol)%nat -> ((sigma j < cols)%nat <-> (j < cols)%nat).
(** Two molecules that are images of each other. *)
Definition image_object (g : grid) (tau sigma : nat -> nat) (k k' : ks) : Prop := k_opt k' = k_opt k /\ k_Za k' * k_Zb k' = k_Za k * k_Zb k /\ k_pol k' = k_pol k /\ k_lv k' = k_lv k /\ k_cols k' = k_cols k /\
  image g tau sigma (k_pol k) (k_vnuc k) (k_vnuc k') /\ forall i j, place k i j -> same_static (k_sol k i (sigma j)) (k_sol k' i j).
(** The functionals of the environment and the averaging over the mirror plane respect the map. *)
Definition hxc_equivariant (g : grid) (w : env) (o : ksopt) (pol : nat) (tau sigma : nat -> nat) : Prop :=
  (forall id n n' e eps v e' eps' v', id = o_xid o \/ id = o_cid o -> image g tau sigma pol n n' -> get_xc g (e_lib w) (o_fam o) id pol n = Ok (e, eps, v) -> get_xc g (e_lib w) (o_fam o) id pol n' = Ok (e', eps', v') ->
     e' = e /\ image g tau sigma pol v v') /\
  (forall n n' v v', image g tau sigma pol n n' -> v_hartree g (e_spL w) (e_spU w) (A2 pol n) = Ok v -> v_hartree g (e_spL w) (e_spU w) (A2 pol n') = Ok v' ->
     image g tau sigma pol (entry v) (entry v') /\ forall x, (x < Nelem g)%nat -> entry v' x 0%nat = entry v (tau x) 0%nat).
Definition sym_equivariant (g : grid) (pol : nat) (tau sigma : nat -> nat) : Prop := forall n n', image g tau sigma pol n n' -> image g tau sigma pol (sym_avgR g n) (sym_avgR g n').

(** * Permuted sums and maxima *)
Lemma sumR_perm : forall l l' (f : nat -> R), Permutation l l' -> fold_right (fun x a => f x + a) 0 l = fold_right (fun x a => f x + a) 0 l'.
Proof. intros l l' f H. induction H; simpl; try lra. Qed.
Lemma sumR_fold : forall n f, sumR n f = fold_right (fun x a => f x + a) 0 (seq 0 n).
Proof.
  induction n as [|n IH]; intros f; [reflexivity|]. rewrite seq_S, fold_right_app. simpl. rewrite IH. generalize (seq 0 n). intros l. induction l as [|a l IHl]; simpl; lra.
Qed.
Lemma sumR_permute : forall n s f, Permutation (map s (seq 0 n)) (seq 0 n) -> sumR n (fun i => f (s i)) = sumR n f.
Proof.
  intros n s f H. rewrite !sumR_fold. rewrite <- (sumR_perm _ _ f H). generalize (seq 0 n). intros l. induction l as [|a l IHl]; simpl; lra.
Qed.
Lemma perm_lt : forall n s j, Permutation (map s (seq 0 n)) (seq 0 n) -> (j < n)%nat -> (s j < n)%nat.
Proof.
  intros n s j H Hj. assert (I : In (s j) (seq 0 n)). { eapply Permutation_in; [exact H|]. apply in_map, in_seq. lia. } apply in_seq in I. lia.
Qed.
Lemma npmax2_cases : forall a b, npmax2 a b = match a, b with NaN, _ | _, NaN => NaN | Fin x, Fin y => Fin (Rmax x y) | PInf, _ | _, PInf => PInf | NInf, z => z | z, NInf => z end.
Proof.
  intros [x| | |] [y| | |]; try reflexivity. rewrite npmax2_fin. f_equal. unfold Rmax. destruct (Rlt_dec x y), (Rle_dec x y); lra.
Qed.
Lemma npmax2_comm : forall a b, npmax2 a b = npmax2 b a.
Proof. intros a b. rewrite !npmax2_cases. destruct a, b; try reflexivity. f_equal. apply Rmax_comm. Qed.
Lemma npmax2_assoc : forall a b c, npmax2 (npmax2 a b) c = npmax2 a (npmax2 b c).
Proof. intros a b c. rewrite !npmax2_cases. destruct a, b, c; try reflexivity. f_equal. symmetry. apply Rmax_assoc. Qed.
Lemma npmax_perm : forall l l', Permutation l l' -> npmax l = npmax l'.
Proof.
  assert (S : forall l a b, fold_left npmax2 l (npmax2 a b) = npmax2 a (fold_left npmax2 l b)).
  { induction l as [|c l IH]; intros a b; simpl; [reflexivity|]. rewrite npmax2_assoc, IH. reflexivity. }
  assert (K : forall l l', Permutation l l' -> forall a, fold_left npmax2 l a = fold_left npmax2 l' a).
  { intros l l' H. induction H; intros b; simpl; auto.
    - f_equal. rewrite !npmax2_assoc. f_equal. apply npmax2_comm.
    - rewrite IHPermutation1. apply IHPermutation2. }
  intros l l' H. induction H as [|x l l' H IH|x y l|l l' l'' H1 IH1 H2 IH2]; simpl; auto.
  - f_equal. apply K, H.
  - f_equal. rewrite (npmax2_comm y x). reflexivity.
  - congruence.
Qed.

(** * One solver *)
Section Solver.
  Variables (g : grid) (tau : nat -> nat).
  Hypothesis PM : point_map g tau.
  Definition same_dens (a b : res vec) : Prop := match a, b with Ok d, Ok d' => forall x, (x < Nelem g)%nat -> d' x = d (tau x) | Err _, Err _ => True | _, _ => False end.
  Lemma pyidx_lt : forall c i j, pyidx c i = Ok j -> (j < c)%nat.
  Proof.
    intros c i j H. unfold pyidx in H. destruct (((0 <=? i) && (i <? Z.of_nat c))%Z)%bool eqn:A.
    - apply andb_prop in A. destruct A as (A & B). apply Z.leb_le in A. apply Z.ltb_lt in B. injection H as <-. lia.
    - destruct (((i <? 0) && (- Z.of_nat c <=? i))%Z)%bool eqn:C; [|discriminate]. apply andb_prop in C. destruct C as (B & C). apply Z.ltb_lt in B. apply Z.leb_le in C. injection H as <-. lia.
  Qed.
  Lemma answer_phi : forall s s' r r' i, same_answer g tau r r' ->
    match phi_col (set_result s r) i, phi_col (set_result s' r') i with
    | Ok p, Ok p' => norm2 g p' = norm2 g p /\ forall x, (x < Nelem g)%nat -> p' x ^ 2 = p (tau x) ^ 2
    | Err _, Err _ => True | _, _ => False end.
  Proof.
    intros s s' [[ce e] ph] [[ce' e'] ph'] i (_ & _ & A). unfold phi_col. cbn [set_result s_phi snd] in *. destruct ph as [[c p]|], ph' as [[c' p']|]; try contradiction; auto.
    destruct A as (-> & A). destruct (pyidx c i) as [j|] eqn:E; cbn [bind]; auto. apply pyidx_lt in E.
    assert (Q : forall x, (x < Nelem g)%nat -> p' j x ^ 2 = p j (tau x) ^ 2) by (intros x Hx; destruct (A j E) as [B|B]; rewrite B by exact Hx; ring).
    split; auto. unfold norm2. rewrite <- (proj2 (proj2 PM) (fun x => p j x ^ 2)). apply integrate1_ext. exact Q.
  Qed.
  Lemma answer_dens : forall s s' r r', same_static s s' -> same_answer g tau r r' -> same_dens (calc_density g (set_result s r)) (calc_density g (set_result s' r')).
  Proof.
    intros s s' r r' (S1 & S2 & S3 & S4 & S5 & S6) A.
    assert (N : nocc (set_result s' r') = nocc (set_result s r)) by (unfold nocc; cbn [set_result s_m s_pol s_N]; rewrite S1, S2, S3; reflexivity).
    assert (SC : forall x, shell_scale (set_result s' r') x = shell_scale (set_result s r) x) by (intros; unfold shell_scale; cbn [set_result s_m s_pol]; rewrite S1, S2; reflexivity).
    assert (L : forall m, same_dens (dens_loop g (set_result s r) m) (dens_loop g (set_result s' r') m)).
    { induction m as [|m IH]; [intros x Hx; reflexivity|]. cbn [dens_loop]. unfold same_dens in *. pose proof (answer_phi s s' r r' (Z.of_nat m) A) as B.
      destruct (dens_loop g (set_result s r) m) as [d|], (dens_loop g (set_result s' r') m) as [d'|]; try contradiction; cbn [bind]; auto.
      destruct (phi_col (set_result s r) (Z.of_nat m)) as [p|], (phi_col (set_result s' r') (Z.of_nat m)) as [p'|]; try contradiction; cbn [bind]; auto.
      destruct B as (B1 & B2). intros x Hx. rewrite IH, B1, B2 by exact Hx. reflexivity. }
    unfold calc_density. rewrite N. destruct (nocc (set_result s r)) as [No nu]. specialize (L (Z.to_nat No)). unfold same_dens in *. cbn [set_result s_frac] in *.
    destruct (dens_loop g (set_result s r) (Z.to_nat No)) as [d|], (dens_loop g (set_result s' r') (Z.to_nat No)) as [d'|]; try contradiction; cbn [bind]; auto.
    rewrite S5. destruct (s_frac s && nonzero nu).
    - pose proof (answer_phi s s' r r' No A) as B. destruct (phi_col (set_result s r) No) as [p|], (phi_col (set_result s' r') No) as [p'|]; try contradiction; cbn [bind]; auto.
      destruct B as (B1 & B2). intros x Hx. rewrite SC, L, B1, B2 by exact Hx. reflexivity.
    - cbn [bind]. intros x Hx. rewrite SC, L by exact Hx. reflexivity.
  Qed.
  Lemma dens_image : forall s s' r r', same_static s s' -> same_answer g tau r r' -> forall x, (x < Nelem g)%nat -> dens g (set_result s' r') x = dens g (set_result s r) (tau x).
  Proof.
    intros s s' r r' S A x Hx. pose proof (answer_dens s s' r r' S A) as D. unfold dens, same_dens in *. destruct (calc_density g (set_result s r)), (calc_density g (set_result s' r')); try contradiction; auto.
  Qed.
  Lemma answer_eig : forall s s' r r' i, same_answer g tau r r' -> eig_at (set_result s' r') i = eig_at (set_result s r) i.
  Proof.
    intros s s' [[c e] ph] [[c' e'] ph'] i (A & B & _). unfold eig_at. cbn [set_result s_eig fst snd] in *. subst c'. destruct (pyidx c i) as [j|] eqn:E; cbn [bind]; auto. apply pyidx_lt in E. rewrite B by exact E. reflexivity.
  Qed.
  Lemma eks_image : forall s s' r r', same_static s s' -> same_answer g tau r r' -> eks_of (set_result s' r') = eks_of (set_result s r).
  Proof.
    intros s s' r r' (S1 & S2 & S3 & S4 & S5 & S6) A. unfold eks_of.
    assert (N : nocc (set_result s' r') = nocc (set_result s r)) by (unfold nocc; cbn [set_result s_m s_pol s_N]; rewrite S1, S2, S3; reflexivity).
    assert (SC : forall x, shell_scale (set_result s' r') x = shell_scale (set_result s r) x) by (intros; unfold shell_scale; cbn [set_result s_m s_pol]; rewrite S1, S2; reflexivity).
    assert (L : forall m, eks_loop (set_result s' r') m = eks_loop (set_result s r) m).
    { induction m as [|m IH]; [reflexivity|]. cbn [eks_loop]. rewrite IH, (answer_eig s s' r r' _ A). reflexivity. }
    assert (E : calc_eks (set_result s' r') = calc_eks (set_result s r)).
    { unfold calc_eks. rewrite N. destruct (nocc (set_result s r)) as [No nu]. cbn [set_result s_frac] in *. rewrite L, S5, (answer_eig s s' r r' No A).
      destruct (eks_loop (set_result s r) (Z.to_nat No)) as [a|]; cbn [bind]; auto. destruct (if s_frac s && nonzero nu then _ else _); cbn [bind]; auto. rewrite SC. reflexivity. }
    rewrite E. reflexivity.
  Qed.
  Lemma pot_image : forall s s' r r', same_static s s' -> (forall x, (x < Nelem g)%nat -> s_veff s' x = s_veff s (tau x)) -> same_answer g tau r r' -> pot_of g (set_result s' r') = pot_of g (set_result s r).
  Proof.
    intros s s' r r' S V A. unfold pot_of. rewrite <- (proj2 (proj2 PM) (fun x => s_veff (set_result s r) x * dens g (set_result s r) x)). apply integrate1_ext. intros x Hx. cbn [set_result s_veff].
    rewrite V by exact Hx. f_equal. apply dens_image; auto.
  Qed.
End Solver.

(** * One pass *)
Section Pass.
  Variables (g : grid) (w : env) (tau sigma : nat -> nat) (k k' : ks).
  Hypotheses (PM : point_map g tau) (SM : spin_map (k_pol k) (k_cols k) sigma) (EQ : equivariant g w tau) (OB : image_object g tau sigma k k').
  Hypotheses (HX : hxc_equivariant g w (k_opt k) (k_pol k) tau sigma) (SY : sym_equivariant g (k_pol k) tau sigma).
  Notation img := (image g tau sigma (k_pol k)).

  Definition twin_orbitals (k2 k2' : ks) : Prop := forall i j, place k i j -> exists s s' r r', k_sol k2 i (sigma j) = set_result s r /\ k_sol k2' i j = set_result s' r' /\
    same_static s s' /\ (forall x, (x < Nelem g)%nat -> s_veff s' x = s_veff s (tau x)) /\ same_answer g tau r r'.

  Lemma place_sigma : forall i j, place k i j -> place k i (sigma j).
  Proof. intros i j (A & B). split; auto. apply (perm_lt _ _ _ (proj1 (proj2 SM)) B). Qed.
  Lemma shot_image : forall v v' k2 k2' n n', img v v' -> shot g w k v k2 n -> shot g w k' v' k2' n' -> img n n' /\ twin_orbitals k2 k2'.
  Proof.
    intros v v' k2 k2' n n' HV (it & dif & l & k1 & A1 & A2 & A3) (it' & dif' & l' & k1' & B1 & B2 & B3).
    destruct OB as (O1 & O2 & O3 & O4 & O5 & O6 & O7). pose proof A1 as (F1 & _ & _ & F4 & F5 & F6 & _ & F8). pose proof B1 as (G1 & _ & _ & G4 & G5 & G6 & _ & G8).
    apply density_inv in A3. destruct A3 as (sol & n0 & -> & W & _ & S & ->). apply density_inv in B3. destruct B3 as (sol' & n0' & -> & W' & _ & S' & ->). cbn [set_sol k_sol].
    apply sum_dens_spec in S. destruct S as (S1 & S2). apply sum_dens_spec in S'. destruct S' as (S1' & S2').
    assert (P1 : forall i j, place k1 i j <-> place k i j) by (intros; unfold place; rewrite F5, F6; tauto).
    assert (P2 : forall i j, place k1' i j <-> place k i j) by (intros; unfold place; rewrite G5, G6, O4, O5; tauto).
    assert (P3 : forall i j, place k' i j <-> place k i j) by (intros; unfold place; rewrite O4, O5; tauto).
    assert (T : twin_orbitals (set_sol k1 sol) (set_sol k1' sol')).
    { intros i j Hp. cbn [set_sol k_sol]. destruct (W i (sigma j)) as (r & R1 & R2); [apply P1, place_sigma, Hp|]. destruct (W' i j) as (r' & R1' & R2'); [apply P2, Hp|].
      assert (ST : same_static (k_sol k1 i (sigma j)) (k_sol k1' i j)). { specialize (O7 i j Hp). specialize (F8 i (sigma j)). specialize (G8 i j). unfold same_static in *. intuition congruence. }
      assert (VV : forall x, (x < Nelem g)%nat -> s_veff (k_sol k1' i j) x = s_veff (k_sol k1 i (sigma j)) (tau x)).
      { intros x Hx. rewrite B2 by (apply P3, Hp). rewrite A2 by (apply place_sigma, Hp). apply HV; auto. destruct (S1' i j) as (L & _); [apply P2, Hp|]. rewrite G4, O3 in L. exact L. }
      exists (k_sol k1 i (sigma j)), (k_sol k1' i j), r, r'. repeat (split; [assumption|]). eapply EQ; eauto. }
    split; [|exact T]. assert (I0 : img n0 n0').
    { intros x j Hx Hj. rewrite S2, S2', F6, G6, O5. pose proof (proj2 (proj2 SM) j Hj) as IFF. destruct (Nat.ltb_spec j (k_cols k)) as [L|L], (Nat.ltb_spec (sigma j) (k_cols k)) as [L'|L']; try lia; [|reflexivity].
      rewrite F5, G5, O4. apply sumR_ext. intros i Hi. destruct (T i j ltac:(split; auto)) as (s & s' & r & r' & E1 & E2 & E3 & E4 & E5). cbn [set_sol k_sol] in E1, E2. rewrite E1, E2. apply dens_image; auto. }
    rewrite F1, G1, O1. destruct (o_sym (k_opt k)); auto.
  Qed.
  Lemma repulsion_image : forall n n' vh vh', img n n' -> repulsion g w k n vh -> repulsion g w k' n' vh' -> img vh vh'.
  Proof.
    intros n n' vh vh' HN (k1 & k1' & A1 & A2 & A3 & A4) (k2 & k2' & B1 & B2 & B3 & B4). destruct OB as (O1 & O2 & O3 & O4 & O5 & O6 & O7).
    pose proof A1 as (F1 & _ & _ & F4 & _). pose proof B1 as (G1 & _ & _ & G4 & _).
    apply hxc_inv in A3. destruct A3 as (V & v & -> & CA). apply hxc_inv in B3. destruct B3 as (V' & v' & -> & CB). cbn [set_vhxc k_vhxc] in A4, B4. injection A4 as <-. injection B4 as <-.
    rewrite F1, F4 in *. rewrite G1, G4, O1, O3 in *. assert (I0 : img v v').
    { destruct CA as [(N1 & _ & Z1 & _)|(N1 & m & xx & cc & hh & E1 & E2 & E3 & E4 & E5)]; destruct CB as [(N2 & _ & Z2 & _)|(N2 & m' & xx' & cc' & hh' & D1 & D2 & D3 & D4 & D5)]; try (exfalso; congruence).
      - intros x j Hx Hj. rewrite Z1, Z2. reflexivity.
      - rewrite A2 in E1. injection E1 as <-. rewrite B2 in D1. injection D1 as <-. destruct xx as [[e1 p1] v1], xx' as [[e1' p1'] v1'], cc as [[e2 p2] v2], cc' as [[e2' p2'] v2']. cbn [snd] in *. destruct HX as (X1 & X2).
        destruct (X1 _ _ _ _ _ _ _ _ _ (or_introl eq_refl) HN E2 D2) as (_ & Y1). destruct (X1 _ _ _ _ _ _ _ _ _ (or_intror eq_refl) HN E3 D3) as (_ & Y2). destruct (X2 _ _ _ _ HN E4 D4) as (Y3 & _).
        intros x j Hx Hj. rewrite E5, D5, Y1, Y2, Y3 by assumption. reflexivity. }
    destruct (o_sym (k_opt k)); auto.
  Qed.
  Lemma interaction_image : forall n n' v v', img n n' -> img v v' -> interaction g (k_pol k) n' v' = interaction g (k_pol k) n v.
  Proof.
    intros n n' v v' A B. unfold interaction. rewrite <- (sumR_permute _ sigma (fun s => integrate1 g (fun x => n x s * v x s)) (proj1 SM)). apply sumR_ext. intros j Hj.
    rewrite <- (proj2 (proj2 PM) (fun x => n x (sigma j) * v x (sigma j))). apply integrate1_ext. intros x Hx. rewrite A, B by assumption. reflexivity.
  Qed.
  Lemma energy_image : forall k2 k2' m m' e e', twin_orbitals k2 k2' -> img m m' -> energy_of g w k k2 m e -> energy_of g w k' k2' m' e' -> e' = e.
  Proof.
    intros k2 k2' m m' e e' Q IM (k3 & k4 & E & A1 & A2 & A3 & A4 & A5 & A6) (k3' & k4' & E' & B1 & B2 & B3 & B4 & B5 & B6). destruct OB as (O1 & O2 & O3 & O4 & O5 & O6 & O7).
    pose proof A1 as (F1 & F2 & F3 & F4 & F5 & F6 & F7 & _). pose proof B1 as (G1 & G2 & G3 & G4 & G5 & G6 & G7 & _).
    assert (K : kinetic g k3' = kinetic g k3).
    { unfold kinetic. rewrite F5, F6, G5, G6, O4, O5. apply sumR_ext. intros i Hi. rewrite <- (sumR_permute _ sigma (fun j => eks_of (k_sol k3 i j) - pot_of g (k_sol k3 i j)) (proj1 (proj2 SM))). apply sumR_ext. intros j Hj.
      destruct (Q i j ltac:(split; auto)) as (s & s' & r & r' & Q1 & Q2 & Q3 & Q4 & Q5). rewrite A2, B2, Q1, Q2, (eks_image g tau s s' r r' Q3 Q5), (pot_image g tau PM s s' r r' Q3 Q4 Q5). reflexivity. }
    apply energy_inv in A4. destruct A4 as (E1 & n1 & v1 & C1 & C2 & C3 & _ & _ & _ & _ & _ & C4 & _ & C5 & C6). apply energy_inv in B4. destruct B4 as (E2 & n2 & v2 & D1 & D2 & D3 & _ & _ & _ & _ & _ & D4 & _ & D5 & D6).
    rewrite A5 in C1. injection C1 as <-. rewrite B5 in D1. injection D1 as <-. rewrite A3 in C2. injection C2 as <-. rewrite B3 in D2. injection D2 as <-. rewrite F4, F7 in C4. rewrite G4, G7, O3 in D4. rewrite F2, F3 in C5. rewrite G2, G3, O2 in D5.
    assert (EN : E_Enuc E' = E_Enuc E) by (rewrite C4, D4; apply interaction_image; assumption). rewrite <- A6, <- B6.
    destruct C6 as [(N1 & ->)|(N1 & vh & h & Ex & ex & vx & Ec & ec & vc & Eh & X1 & X2 & X3 & X4 & X5 & X6 & X7 & -> & _)]; destruct D6 as [(N2 & ->)|(N2 & vh' & h' & Ex' & ex' & vx' & Ec' & ec' & vc' & Eh' & Y1 & Y2 & Y3 & Y4 & Y5 & Y6 & Y7 & -> & _)]; try (exfalso; congruence).
    - rewrite K, EN, C5, D5. reflexivity.
    - rewrite F1, F4 in *. rewrite G1, G4, O1, O3 in *. destruct HX as (H1 & H2). destruct (H1 _ _ _ _ _ _ _ _ _ (or_introl eq_refl) IM X4 Y4) as (-> & _). destruct (H1 _ _ _ _ _ _ _ _ _ (or_intror eq_refl) IM X5 Y5) as (-> & _).
      destruct (H2 _ _ _ _ IM X3 Y3) as (_ & H3). rewrite K, EN, C5, D5. assert (EH : Eh' = Eh); [|rewrite EH; reflexivity]. rewrite X7, Y7. f_equal.
      rewrite <- (proj2 (proj2 PM) (fun x => sumR (k_pol k) (fun s => m x s) * entry h x 0%nat)). apply integrate1_ext. intros x Hx. rewrite H3 by exact Hx. f_equal.
      rewrite <- (sumR_permute _ sigma (fun s => m (tau x) s) (proj1 SM)). apply sumR_ext. intros j Hj. apply IM; assumption.
  Qed.

  Lemma iterate_image : forall ve ve' a i n e n' e', img ve ve' -> iterate g w k ve a i n e -> iterate g w k' ve' a i n' e' -> img n n' /\ e' = e.
  Proof.
    intros ve ve' a i n e n' e' HV H. revert n' e'. pose proof OB as (O1 & O2 & O3 & O4 & O5 & O6 & O7).
    induction H as [k2 n S|i n e vh k2 nout e1 H IH R S E]; intros n' e' H'.
    - inversion H' as [k2' n2 S'|]; subst. split; [|reflexivity]. refine (proj1 (shot_image _ _ _ _ _ _ _ S S')). intros x j Hx Hj. cbv beta. rewrite O6, HV by assumption. reflexivity.
    - inversion H' as [|i2 m f vh' k2' nout' e2 H2 R' S' E']; subst. destruct (IH _ _ H2) as (I1 & _). pose proof (repulsion_image _ _ _ _ I1 R R') as I2.
      edestruct (fun HH => shot_image _ _ _ _ _ _ HH S S') as (I3 & T); [intros x j Hx Hj; cbv beta; rewrite O6, HV, I2 by assumption; reflexivity|].
      assert (I4 : img (fun x j => (1 - a) * n x j + a * nout x j) (fun x j => (1 - a) * m x j + a * nout' x j)) by (intros x j Hx Hj; cbv beta; rewrite I1, I3 by assumption; reflexivity).
      split; [exact I4|]. eapply energy_image; eauto.
  Qed.

  (** * Whole runs *)
  Lemma dens_residual_image : forall n n' m m', img n n' -> img m m' -> dens_residual g (k_pol k) n' m' = dens_residual g (k_pol k) n m.
  Proof.
    intros n n' m m' A B. unfold dens_residual, integrate. destruct (Nat.eqb_spec (k_pol k) 1) as [P1|P1].
    - assert (S0 : sigma 0%nat = 0%nat). { pose proof (perm_lt _ _ 0%nat (proj1 SM)) as L. rewrite P1 in L. specialize (L ltac:(lia)). lia. }
      assert (Q : forall f f' : mat, (forall x, (x < Nelem g)%nat -> f' x 0%nat = f (tau x) 0%nat) -> integrate_col g (fun x => f' x 0%nat) = integrate_col g (fun x => f x 0%nat)).
      { intros f f' H. unfold integrate_col. f_equal. rewrite <- (proj1 (proj2 PM) (fun i => sumR (Nelem g) (fun j => gwi g j * gw g j * f i 0%nat))). apply sumR_ext. intros x Hx. apply sumR_ext. intros y Hy. rewrite H by exact Hx. reflexivity. }
      rewrite (Q (fun x s => Rabs (n x s - m x s)) (fun x s => Rabs (n' x s - m' x s))), (Q (fun x s => Rabs (n x s)) (fun x s => Rabs (n' x s))); [reflexivity| |]; intros x Hx; rewrite A by lia; try rewrite B by lia; rewrite S0; reflexivity.
    - set (q := fun s => ndiv (integrate1 g (fun x => Rabs (n x s - m x s))) (integrate1 g (fun x => Rabs (n x s)))).
      assert (L : forall l, flat_map (fun _ : nat => map (fun s => ndiv (integrate1 g (fun x => Rabs (n' x s - m' x s))) (integrate1 g (fun x => Rabs (n' x s)))) (seq 0 (k_pol k))) l = flat_map (fun _ => map q (map sigma (seq 0 (k_pol k)))) l).
      { intros l. induction l as [|y l IH]; simpl; [reflexivity|]. rewrite IH. f_equal. rewrite map_map. apply map_ext_in. intros s Hs. apply in_seq in Hs. unfold q.
        rewrite <- (proj2 (proj2 PM) (fun x => Rabs (n x (sigma s) - m x (sigma s)))), <- (proj2 (proj2 PM) (fun x => Rabs (n x (sigma s)))).
        f_equal; apply integrate1_ext; intros x Hx; rewrite A by (auto; lia); try rewrite B by (auto; lia); reflexivity. }
      rewrite L. apply npmax_perm. generalize (seq 0 (Nelem g)). intros l. induction l as [|y l IH]; simpl; [constructor|]. apply Permutation_app; [|exact IH]. apply Permutation_map, SM.
  Qed.
  Lemma residual_image : forall E oE n n' m m', img n n' -> img m m' -> residual g (k_pol k) E oE n' m' = residual g (k_pol k) E oE n m.
  Proof. intros E oE n n' m m' A B. unfold residual. rewrite (dens_residual_image n n' m m' A B). reflexivity. Qed.
  Lemma homo_image : forall s s' r r', same_static s s' -> same_answer g tau r r' -> get_homo (set_result s' r') = get_homo (set_result s r).
  Proof.
    intros s s' r r' (S1 & S2 & S3 & _) A. unfold get_homo. assert (N : nocc (set_result s' r') = nocc (set_result s r)) by (unfold nocc; cbn [set_result s_m s_pol s_N]; rewrite S1, S2, S3; reflexivity).
    rewrite N. destruct (nocc (set_result s r)) as [No nu]. cbv zeta. destruct (_ =? 0)%Z; [reflexivity|]. apply (answer_eig g tau). exact A.
  Qed.
  Lemma chempot_image : forall k2 k2' k3 k3' k4 k4', twin_orbitals k2 k2' -> frame k k3 -> frame k' k3' -> k_sol k3 = k_sol k2 -> k_sol k3' = k_sol k2' -> calc_chempot k3 = Ok k4 -> calc_chempot k3' = Ok k4' -> k_u k4' = k_u k4.
  Proof.
    intros k2 k2' k3 k3' k4 k4' T F F' S S' H H'. apply chempot_spec in H. destruct H as (u & -> & (i & j & P & U) & M). apply chempot_spec in H'. destruct H' as (u' & -> & (i' & j' & P' & U') & M').
    cbn [set_u k_u]. f_equal. destruct OB as (O1 & O2 & O3 & O4 & O5 & O6 & O7). destruct F as (_ & _ & _ & _ & F5 & F6 & _). destruct F' as (_ & _ & _ & _ & G5 & G6 & _).
    unfold place in *. rewrite F5, F6 in *. rewrite G5, G6, O4, O5 in *. rewrite S, S' in *. apply Rle_antisym.
    - destruct (T i' j' P') as (s & s' & r & r' & T1 & T2 & T3 & _ & T5). destruct (M i' (sigma j')) as (h & H1 & H2). { destruct P' as (P1 & P2). split; auto. apply (perm_lt _ _ _ (proj1 (proj2 SM)) P2). }
      rewrite T1 in H1. rewrite T2, (homo_image _ _ _ _ T3 T5), H1 in U'. injection U' as <-. exact H2.
    - destruct P as (P1 & P2). assert (I : In j (map sigma (seq 0 (k_cols k)))). { eapply Permutation_in; [apply Permutation_sym, SM|]. apply in_seq. lia. }
      apply in_map_iff in I. destruct I as (j0 & E & I). apply in_seq in I. assert (J : (j0 < k_cols k)%nat) by lia. destruct (T i j0 (conj P1 J)) as (s & s' & r & r' & T1 & T2 & T3 & _ & T5). destruct (M' i j0 (conj P1 J)) as (h & H1 & H2).
      rewrite T2, (homo_image _ _ _ _ T3 T5), <- T1, E, U in H1. injection H1 as <-. exact H2.
  Qed.
End Pass.

(** What one pass does, in the words of the specification of [iterate]. *)
Lemma step_shot : forall g w o l k st st' n ve, so_flip o = false -> frame k (c_ks st) -> k_n (c_ks st) = Some n -> k_vext (c_ks st) = Some ve -> scf_body g w o l st = Ok st' ->
  exists vh k3 k4 nout, repulsion g w k n vh /\ shot g w k (fun x j => k_vnuc k x j + ve x j + vh x j) k3 nout /\ k_sol (c_ks st') = k_sol k3 /\ frame k k4 /\ k_sol k4 = k_sol k3 /\ calc_chempot k4 = Ok (c_ks st').
Proof.
  intros g w o l k st st' n ve HF FT N V B. apply KSLoop.body_inv in B. destruct B as (_ & k1 & ve' & vh & sol & k3 & nout & n1 & k4 & k5 & E & r & X & E1 & E2 & D & DD & N1 & EN & C & KE & RR & ->). rewrite HF in *. cbn [c_ks] in *.
  destruct (hxc_frame _ _ _ _ X) as (Fa & Na & Va & Sa). assert (VE : ve' = ve) by congruence. subst ve'.
  set (kk := set_sol (set_veffs k1 (Some (add3 (k_vnuc k1) ve vh))) sol) in *.
  assert (Fk : frame k kk). { eapply frame_trans; [exact FT|]. eapply frame_trans; [exact Fa|]. repeat (split; [reflexivity|]). apply (distribute_scf_static _ _ _ D). }
  exists vh, k3, k4, nout. pose proof C as C'. apply energy_keep in EN. destruct EN as (E' & VV & K4). apply chempot_keep in C'. destruct C' as (u & K5).
  split; [exists (c_ks st), k1; repeat (split; [assumption|]); assumption|]. split; [|split; [|split; [|split; [|exact C]]]].
  - exists (so_iter o), (if so_iter o && so_cont o then Fin 0 else c_diff st), l, kk. split; [exact Fk|]. split; [|exact DD]. intros i j Hp x. unfold kk. cbn [set_sol k_sol].
    apply distribute_scf_ok in D. destruct D as (D1 & _). assert (Hp' : place k1 i j) by (destruct (frame_trans _ _ _ FT Fa) as (_ & _ & _ & _ & I5 & I6 & _); unfold place; rewrite I5, I6; exact Hp). destruct (D1 i j Hp') as (_ & ->).
    cbn [set_veff s_veff]. unfold add3. destruct (frame_trans _ _ _ FT Fa) as (_ & _ & _ & _ & _ & _ & -> & _). reflexivity.
  - rewrite K5, K4. reflexivity.
  - eapply frame_trans; [exact Fk|]. pose proof (density_frame _ _ _ _ _ _ _ _ DD) as (J1 & J2 & J3 & J4 & J5 & J6 & J7 & J8). rewrite K4. repeat (split; [assumption|]). exact J8.
  - rewrite K4. reflexivity.
Qed.
Lemma trace_earlier : forall g w o sched k st m, scf_trace g w o sched k st -> (1 <= m < c_iter st)%Z -> exists st0, scf_trace g w o sched k st0 /\ c_iter st0 = m /\ scf_test o st0 = Ok true.
Proof.
  intros g w o sched k st m T. induction T as [k0 S|st st' T IH X B]; intros H; [cbn [c_iter] in H; lia|].
  pose proof (body_frame _ _ _ _ _ _ B) as (_ & E & _). destruct (Z.eq_dec (c_iter st) m) as [Q|Q]; [exists st; auto|]. apply IH. lia.
Qed.

(** * Runs *)
Section Runs.
  Variables (g : grid) (w : env) (tau sigma : nat -> nat) (k k' : ks).
  Hypotheses (PM : point_map g tau) (SM : spin_map (k_pol k) (k_cols k) sigma) (EQ : equivariant g w tau) (OB : image_object g tau sigma k k').
  Hypotheses (HX : hxc_equivariant g w (k_opt k) (k_pol k) tau sigma) (SY : sym_equivariant g (k_pol k) tau sigma).
  Hypothesis OV : image g tau sigma (k_pol k) (outer k) (outer k').
  Notation img := (image g tau sigma (k_pol k)).

  (** Every pass of one run mirrors the same pass of the other. *)
  Definition lockstep (st st' : scst) : Prop := c_oldE st' = c_oldE st /\ c_diff st' = c_diff st /\ img (c_oldn st) (c_oldn st') /\
    exists n n', k_n (c_ks st) = Some n /\ k_n (c_ks st') = Some n' /\ img n n'.
  Theorem run_lockstep : forall o sched sched' st st', so_cont o = false -> so_flip o = false -> scf_trace g w o sched k st -> scf_trace g w o sched' k' st' -> c_iter st' = c_iter st ->
    lockstep st st' /\ ((1 < c_iter st)%Z -> k_u (c_ks st') = k_u (c_ks st) /\ forall i j m, place k i j -> eig_at (k_sol (c_ks st') i j) m = eig_at (k_sol (c_ks st) i (sigma j)) m).
  Proof.
    intros o sched sched' st st' HC HF T. revert st'.
    assert (B : forall st st', scf_trace g w o sched k st -> scf_trace g w o sched' k' st' -> c_iter st' = c_iter st -> c_oldE st' = c_oldE st /\ exists n n', k_n (c_ks st) = Some n /\ k_n (c_ks st') = Some n' /\ img n n').
    { clear st T. intros st st' T T' I. destruct (ks_iterates _ _ _ _ _ _ HC HF T) as (n & N & _ & IT). destruct (ks_iterates _ _ _ _ _ _ HC HF T') as (n' & N' & _ & IT'). rewrite I in IT'.
      destruct (iterate_image g w tau sigma k k' PM SM EQ OB HX SY _ _ _ _ _ _ _ _ OV IT IT') as (Q1 & Q2). split; auto. exists n, n'. auto. }
    induction T as [k0 S|st st1 T IH X BB]; intros st' T' I.
    - destruct T' as [k0' S'|st0 st1 T0 X0 B0].
      + split; [|cbn [c_iter]; lia]. destruct (B _ _ (trace_start _ _ _ _ _ _ S) (trace_start _ _ _ _ _ _ S') eq_refl) as (B1 & B2). split; [exact B1|]. split; [reflexivity|]. split; [intros x j _ _; reflexivity|exact B2].
      + exfalso. cbn [c_iter] in I. pose proof (trace_bound _ _ _ _ _ _ T0). apply body_frame in B0. lia.
    - pose proof (trace_bound _ _ _ _ _ _ T) as L. pose proof (body_frame _ _ _ _ _ _ BB) as (_ & I1 & _).
      pose proof T' as TT'. destruct T' as [k0' S'|st0 st2 T0 X0 B0]; [exfalso; cbn [c_iter] in I; lia|].
      pose proof (body_frame _ _ _ _ _ _ B0) as (_ & I2 & _). destruct (IH st0 T0 ltac:(lia)) as ((L1 & L2 & L3 & n & n' & N & N' & L4) & _).
      destruct (B st1 st2 (trace_step _ _ _ _ _ _ _ T X BB) TT' I) as (B1 & m & m' & M & M' & B2).
      destruct (ks_pass _ _ _ _ _ _ HF BB) as (_ & _ & m0 & _ & _ & _ & _ & A2 & A3 & _ & _ & _ & _ & _ & A9). destruct (ks_pass _ _ _ _ _ _ HF B0) as (_ & _ & m0' & _ & _ & _ & _ & A2' & A3' & _ & _ & _ & _ & _ & A9').
      assert (Q0 : m0 = m) by congruence. assert (Q0' : m0' = m') by congruence. rewrite Q0 in *. rewrite Q0' in *.
      pose proof (trace_frame _ _ _ _ _ _ T) as (FT & _). pose proof (trace_frame _ _ _ _ _ _ T0) as (FT0 & _). pose proof OB as (O1 & O2 & O3 & O4 & O5 & O6 & O7).
      assert (P : k_pol (c_ks st) = k_pol k) by apply FT. assert (P' : k_pol (c_ks st0) = k_pol k) by (transitivity (k_pol k'); [apply FT0|exact O3]). rewrite P in A9. rewrite P' in A9'.
      split.
      + split; [exact B1|]. split; [|split; [rewrite A3, A3'; exact B2|exists m, m'; auto]].
        rewrite B1, L1, (residual_image g tau sigma k PM SM _ _ m m' (c_oldn st) (c_oldn st0) B2 L3), A9 in A9'. congruence.
      + intros _. destruct (ks_iterates _ _ _ _ _ _ HC HF T) as (_ & _ & V & _). destruct (ks_iterates _ _ _ _ _ _ HC HF T0) as (_ & _ & V' & _).
        destruct (step_shot _ _ _ _ _ _ _ _ _ HF FT N V BB) as (vh & k3 & k4 & nout & S1 & S2 & S3 & S4 & S5 & S6). destruct (step_shot _ _ _ _ _ _ _ _ _ HF FT0 N' V' B0) as (vh' & k3' & k4' & nout' & S1' & S2' & S3' & S4' & S5' & S6').
        pose proof (repulsion_image g w tau sigma k k' OB HX SY _ _ _ _ L4 S1 S1') as R.
        edestruct (fun HH => shot_image g w tau sigma k k' PM SM EQ OB SY _ _ _ _ _ _ HH S2 S2') as (_ & TW); [intros x j Hx Hj; cbv beta; rewrite O6, OV, R by assumption; reflexivity|]. split.
        * eapply (chempot_image g tau sigma k k' SM OB); eauto.
        * intros i j e Hp. destruct (TW i j Hp) as (s & s' & r & r' & W1 & W2 & W3 & W4 & W5). rewrite S3, S3', W1, W2. apply (answer_eig g tau). exact W5.
  Qed.
  (** Complete runs end after the same number of passes with the same energy and residual. *)
  Theorem run_image : forall sched sched' d o st st', ks_scf g w sched d k = Ok st -> ks_scf g w sched' d k' = Ok st' -> scf_options d = Ok o -> so_cont o = false -> so_flip o = false ->
    c_iter st' = c_iter st /\ lockstep st st' /\ ((1 < c_iter st)%Z -> k_u (c_ks st') = k_u (c_ks st) /\ forall i j m, place k i j -> eig_at (k_sol (c_ks st') i j) m = eig_at (k_sol (c_ks st) i (sigma j)) m).
  Proof.
    intros sched sched' d o st st' H H' O HC HF. destruct (scf_inv _ _ _ _ _ _ H) as (o1 & O1 & T & X). destruct (scf_inv _ _ _ _ _ _ H') as (o2 & O2 & T' & X'). rewrite O in O1, O2. injection O1 as <-. injection O2 as <-.
    pose proof (trace_bound _ _ _ _ _ _ T) as L. pose proof (trace_bound _ _ _ _ _ _ T') as L'. assert (I : c_iter st' = c_iter st).
    { destruct (Z.lt_total (c_iter st') (c_iter st)) as [Q|[Q|Q]]; auto; exfalso.
      - destruct (trace_earlier _ _ _ _ _ _ (c_iter st') T ltac:(lia)) as (s0 & T0 & I0 & X0). destruct (run_lockstep o sched sched' s0 st' HC HF T0 T' ltac:(lia)) as ((_ & D & _) & _).
        unfold scf_test in *. rewrite D, <- I0, X0 in X'. discriminate.
      - destruct (trace_earlier _ _ _ _ _ _ (c_iter st) T' ltac:(lia)) as (s0 & T0 & I0 & X0). destruct (run_lockstep o sched sched' st s0 HC HF T T0 ltac:(lia)) as ((_ & D & _) & _).
        unfold scf_test in *. rewrite <- D, <- I0, X0 in X. discriminate. }
    split; [exact I|]. apply (run_lockstep o sched sched'); auto.
  Qed.
End Runs.
