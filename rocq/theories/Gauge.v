(** Kohnsham.scf in an external potential that is raised by a constant. *)
From Coq Require Import Reals List Arith Lia Lra ZArith Bool String FunctionalExtensionality.
From Verif Require Import Base BaseLemmas GridModel GridSpec GridProofs HartreeModel SolverModel SolverSpec SolverProofs LibxcModel OptionsModel KSModel KSSpec KSProofs KSThms KSLoop KSEnergy KSTotal SelfConsistent NonInteracting Transport KSMemory.
Import ListNotations.
Local Open Scope R_scope.

(** * Specification *)
(** Answers of a worker: eigenvalues higher by c, orbitals equal up to a factor. Orbitals are functions here, the arrays of the code end at Nelem. *)
Definition raised_answer (c : R) (r r' : wres) : Prop := fst (fst r') = fst (fst r) /\ (forall i, (i < fst (fst r))%nat -> snd (fst r') i = snd (fst r) i + c) /\
  match snd r, snd r' with
  | None, None => True
  | Some (m, p), Some (m', p') => m' = m /\ forall i, (i < m)%nat -> exists q, q <> 0 /\ forall x, p' i x = q * p i x
  | _, _ => False
  end.
(** Workers find the same levels, counted from the raised potential. *)
Definition raised_workers (g : grid) (w : env) (c : nat -> R) : Prop := forall j it it' s s' r r', same_static s s' -> (forall x, (x < Nelem g)%nat -> s_veff s' x = s_veff s x + c j) ->
  e_worker w it s = Some r -> e_worker w it' s' = Some r' -> raised_answer (c j) r r'.
(** Orbitals can be normalised. *)
Definition normed_workers (g : grid) (w : env) : Prop := forall it s r m p, e_worker w it s = Some r -> snd r = Some (m, p) -> forall i, (i < m)%nat -> norm2 g (p i) <> 0.
(** Electrons a solver places. *)
Definition carried (s : solver) : R := let '(No, nu) := nocc s in shell_scale s (INR (Z.to_nat No) + if s_frac s && nonzero nu then nu else 0).

(** * One solver *)
Section Solver.
  Variables (g : grid) (c : R) (s s' : solver) (r r' : wres).
  Hypotheses (SS : same_static s s') (RA : raised_answer c r r').
  Lemma raised_nocc : nocc (set_result s' r') = nocc (set_result s r).
  Proof. destruct SS as (S1 & S2 & S3 & _). unfold nocc; cbn [set_result s_m s_pol s_N]; rewrite S1, S2, S3; reflexivity. Qed.
  Lemma raised_scale : forall x, shell_scale (set_result s' r') x = shell_scale (set_result s r) x.
  Proof. destruct SS as (S1 & S2 & _). intros; unfold shell_scale; cbn [set_result s_m s_pol]; rewrite S1, S2; reflexivity. Qed.
  Lemma raised_frac : s_frac (set_result s' r') = s_frac (set_result s r).
  Proof. destruct SS as (_ & _ & _ & _ & S5 & _). exact S5. Qed.
  Lemma raised_phi : forall i, match phi_col (set_result s r) i, phi_col (set_result s' r') i with
    | Ok p, Ok p' => exists q, q <> 0 /\ forall x, p' x = q * p x | Err e, Err e' => e = e' | _, _ => False end.
  Proof.
    intros i. destruct RA as (_ & _ & A). destruct r as [[ce e] ph], r' as [[ce' e'] ph']. unfold phi_col. cbn [set_result s_phi snd] in *. destruct ph as [[m p]|], ph' as [[m' p']|]; try contradiction; auto.
    destruct A as (-> & A). destruct (pyidx m i) as [j|] eqn:E; cbn [bind]; auto. apply pyidx_lt in E. exact (A j E).
  Qed.
  Lemma raised_term : forall (p p' : vec) q nu x, q <> 0 -> (forall x, p' x = q * p x) -> nu * p' x ^ 2 / norm2 g p' = nu * p x ^ 2 / norm2 g p.
  Proof.
    intros p p' q nu x Q B. assert (N : norm2 g p' = q ^ 2 * norm2 g p) by (unfold norm2; rewrite <- integrate1_scal; apply integrate1_ext; intros; rewrite B; ring).
    rewrite N, B. unfold Rdiv. rewrite Rinv_mult. set (y := / norm2 g p). field. exact Q.
  Qed.
  Lemma raised_dens : calc_density g (set_result s' r') = calc_density g (set_result s r).
  Proof.
    assert (L : forall m, dens_loop g (set_result s' r') m = dens_loop g (set_result s r) m).
    { induction m as [|m IH]; [reflexivity|]. cbn [dens_loop]. rewrite IH. destruct (dens_loop g (set_result s r) m) as [d|]; cbn [bind]; auto. pose proof (raised_phi (Z.of_nat m)) as B.
      destruct (phi_col (set_result s r) (Z.of_nat m)) as [p|], (phi_col (set_result s' r') (Z.of_nat m)) as [p'|]; try contradiction; cbn [bind]; [|congruence].
      destruct B as (q & Q & B). f_equal. apply functional_extensionality. intros x. f_equal. pose proof (raised_term p p' q 1 x Q B) as T. rewrite !Rmult_1_l in T. exact T. }
    unfold calc_density. rewrite raised_nocc, raised_frac. destruct (nocc (set_result s r)) as [No nu]. rewrite L. destruct (dens_loop g (set_result s r) (Z.to_nat No)) as [d|]; cbn [bind]; auto.
    destruct (s_frac (set_result s r) && nonzero nu).
    - pose proof (raised_phi No) as B. destruct (phi_col (set_result s r) No) as [p|], (phi_col (set_result s' r') No) as [p'|]; try contradiction; cbn [bind]; [|congruence].
      destruct B as (q & Q & B). f_equal. apply functional_extensionality. intros x. rewrite raised_scale, (raised_term p p' q nu x Q B). reflexivity.
    - cbn [bind]. f_equal. apply functional_extensionality. intros x. apply raised_scale.
  Qed.
  Lemma raised_eig : forall i, match eig_at (set_result s r) i, eig_at (set_result s' r') i with Ok e, Ok e' => e' = e + c | Err e, Err e' => e = e' | _, _ => False end.
  Proof.
    intros i. destruct RA as (A & B & _). destruct r as [[n e] ph], r' as [[n' e'] ph']. unfold eig_at. cbn [set_result s_eig fst snd] in *. subst n'. destruct (pyidx n i) as [j|] eqn:E; cbn [bind]; [|reflexivity]. apply pyidx_lt in E. apply B, E.
  Qed.
  Lemma raised_eks : forall e e', calc_eks (set_result s r) = Ok e -> calc_eks (set_result s' r') = Ok e' -> e' = e + c * carried (set_result s r).
  Proof.
    assert (L : forall m a a', eks_loop (set_result s r) m = Ok a -> eks_loop (set_result s' r') m = Ok a' -> a' = a + c * INR m).
    { induction m as [|m IH]; intros a a' H H'; [injection H as <-; injection H' as <-; simpl; ring|]. cbn [eks_loop] in *.
      destruct (eks_loop (set_result s r) m) as [b|]; [|discriminate]. destruct (eks_loop (set_result s' r') m) as [b'|]; [|discriminate]. cbn [bind] in *. rewrite (IH b b' eq_refl eq_refl) in H'.
      pose proof (raised_eig (Z.of_nat m)) as B. destruct (eig_at (set_result s r) (Z.of_nat m)) as [x|]; [|discriminate]. destruct (eig_at (set_result s' r') (Z.of_nat m)) as [x'|]; [|discriminate]. cbn [bind] in *. injection H as <-. injection H' as <-.
      rewrite B, S_INR. ring. }
    assert (SL : forall a b, shell_scale (set_result s r) (a + c * b) = shell_scale (set_result s r) a + c * shell_scale (set_result s r) b).
    { intros. unfold shell_scale. destruct (s_m _ =? 0)%Z, (s_pol _ =? 1)%nat; ring. }
    intros e e' H H'. unfold calc_eks in *. unfold carried. rewrite raised_nocc, raised_frac in H'. destruct (nocc (set_result s r)) as [No nu].
    destruct (eks_loop (set_result s r) (Z.to_nat No)) as [a|] eqn:Ha; [|discriminate]. destruct (eks_loop (set_result s' r') (Z.to_nat No)) as [a'|] eqn:Ha'; [|discriminate]. cbn [bind] in *. rewrite (L _ _ _ Ha Ha') in H'.
    destruct (s_frac (set_result s r) && nonzero nu).
    - pose proof (raised_eig No) as B. destruct (eig_at (set_result s r) No) as [x|]; [|discriminate]. destruct (eig_at (set_result s' r') No) as [x'|]; [|discriminate]. cbn [bind] in *. injection H as <-. injection H' as <-.
      rewrite raised_scale, B, <- SL. f_equal. ring.
    - cbn [bind] in *. injection H as <-. injection H' as <-. rewrite raised_scale, <- SL. f_equal. ring.
  Qed.
  Hypothesis NO : forall m p, snd r = Some (m, p) -> forall i, (i < m)%nat -> norm2 g (p i) <> 0.
  Lemma carried_integral : forall d, calc_density g (set_result s r) = Ok d -> integrate1 g d = carried (set_result s r).
  Proof.
    assert (PN : forall i p, phi_col (set_result s r) i = Ok p -> norm2 g p <> 0).
    { intros i p H. destruct r as [[ce e] ph]. unfold phi_col in H. cbn [set_result s_phi snd] in *. destruct ph as [[m q]|]; [|discriminate]. destruct (pyidx m i) as [j|] eqn:E; [|discriminate]. apply pyidx_lt in E. injection H as <-. exact (NO m q eq_refl j E). }
    assert (TI : forall p nu, norm2 g p <> 0 -> integrate1 g (fun x => nu * p x ^ 2 / norm2 g p) = nu).
    { intros p nu H. rewrite (integrate1_ext g _ (fun x => nu / norm2 g p * p x ^ 2)) by (intros; unfold Rdiv; ring). rewrite integrate1_scal. fold (norm2 g p). field. exact H. }
    assert (L : forall m d, dens_loop g (set_result s r) m = Ok d -> integrate1 g d = INR m).
    { induction m as [|m IH]; intros d H; cbn [dens_loop] in H; [injection H as <-; simpl; apply integrate1_zero|]. destruct (dens_loop g (set_result s r) m) as [a|]; [|discriminate]. cbn [bind] in H.
      destruct (phi_col (set_result s r) (Z.of_nat m)) as [p|] eqn:E; [|discriminate]. cbn [bind] in H. injection H as <-. rewrite integrate1_plus, (IH a eq_refl), S_INR. f_equal.
      etransitivity; [|exact (TI p 1 (PN _ _ E))]. apply integrate1_ext. intros. unfold Rdiv. ring. }
    assert (SI : forall f, integrate1 g (fun x => shell_scale (set_result s r) (f x)) = shell_scale (set_result s r) (integrate1 g f)).
    { intros f. unfold shell_scale. destruct (s_m _ =? 0)%Z, (s_pol _ =? 1)%nat; try apply integrate1_scal; reflexivity. }
    intros d H. unfold calc_density in H. unfold carried. destruct (nocc (set_result s r)) as [No nu]. destruct (dens_loop g (set_result s r) (Z.to_nat No)) as [a|] eqn:E; [|discriminate]. cbn [bind] in H. apply L in E.
    destruct (s_frac (set_result s r) && nonzero nu).
    - destruct (phi_col (set_result s r) No) as [p|] eqn:P; [|discriminate]. cbn [bind] in H. injection H as <-. rewrite SI. f_equal. change (integrate1 g (fun x => a x + nu * p x ^ 2 / norm2 g p) = INR (Z.to_nat No) + nu). rewrite (integrate1_plus g a (fun x => nu * p x ^ 2 / norm2 g p)), E, (TI p nu (PN _ _ P)). reflexivity.
    - cbn [bind] in H. injection H as <-. rewrite SI, E. f_equal. ring.
  Qed.
  (** The kinetic energy of a solver does not notice. *)
  Hypothesis VV : forall x, (x < Nelem g)%nat -> s_veff s' x = s_veff s x + c.
  Lemma raised_kinetic : forall e e' d, calc_eks (set_result s r) = Ok e -> calc_eks (set_result s' r') = Ok e' -> calc_density g (set_result s r) = Ok d ->
    eks_of (set_result s' r') - pot_of g (set_result s' r') = eks_of (set_result s r) - pot_of g (set_result s r) /\ eks_of (set_result s' r') = eks_of (set_result s r) + c * integrate1 g d.
  Proof.
    intros e e' d H H' D. unfold eks_of, pot_of, dens. rewrite H, H', raised_dens, D, (raised_eks e e' H H'), <- (carried_integral d D). split; [|reflexivity].
    rewrite (integrate1_ext g (fun k => s_veff (set_result s' r') k * d k) (fun k => s_veff (set_result s r) k * d k + c * d k)) by (intros x Hx; cbn [set_result s_veff]; rewrite VV by exact Hx; ring).
    rewrite integrate1_plus, integrate1_scal. ring.
  Qed.
  Lemma raised_homo : forall h h', get_homo (set_result s r) = Ok h -> get_homo (set_result s' r') = Ok h' -> h' = h + c \/ (h = - 1 / feps /\ h' = - 1 / feps).
  Proof.
    intros h h' H H'. unfold get_homo in *. rewrite raised_nocc in H'. destruct (nocc (set_result s r)) as [No nu]. cbv zeta in *. destruct (_ =? 0)%Z; [injection H as <-; injection H' as <-; auto|]. left.
    set (z := (_ - 1)%Z) in *. pose proof (raised_eig z) as B. rewrite H, H' in B. exact B.
  Qed.
End Solver.

(** * All solvers *)
Lemma energy_solved : forall g w k k', ks_energy g w k = Ok k' -> forall i j, place k i j -> exists e d, calc_eks (k_sol k i j) = Ok e /\ calc_density g (k_sol k i j) = Ok d.
Proof.
  intros g w k k' H. unfold ks_energy in H. destruct (energy_loop g k) as [a|] eqn:L; [|discriminate]. clear H. unfold energy_loop in L.
  assert (Q : forall i', (i' < k_lv k)%nat -> forall j, (j < k_cols k)%nat -> exists e d, calc_eks (k_sol k i' j) = Ok e /\ calc_density g (k_sol k i' j) = Ok d).
  { apply (forN_inv _ (fun n _ => forall i', (i' < n)%nat -> forall j, (j < k_cols k)%nat -> exists e d, calc_eks (k_sol k i' j) = Ok e /\ calc_density g (k_sol k i' j) = Ok d) _ _ _ _ L); [intros; lia|].
    intros i b b' Hi P E i' Hi' j Hj. destruct (Nat.eq_dec i' i) as [->|]; [|apply P; auto; lia]. revert j Hj.
    apply (forN_inv _ (fun n _ => forall j, (j < n)%nat -> exists e d, calc_eks (k_sol k i j) = Ok e /\ calc_density g (k_sol k i j) = Ok d) _ _ _ _ E); [intros; lia|].
    intros j0 x x' Hj0 P' E' j Hj. destruct (Nat.eq_dec j j0) as [->|]; [|apply P'; lia]. unfold calc_energy in E'.
    destruct (calc_eks (k_sol k i j0)) as [e|]; [|discriminate]. cbn [bind] in E'. destruct (calc_density g (k_sol k i j0)) as [d|]; [|discriminate]. eauto. }
  intros i j (Hi & Hj). auto.
Qed.
(** Solvers of two objects after a diagonalisation. *)
Definition raised_orbitals (g : grid) (c : nat -> R) (k k' : ks) : Prop := forall i j, place k i j -> exists s s' r r', k_sol k i j = set_result s r /\ k_sol k' i j = set_result s' r' /\
  same_static s s' /\ raised_answer (c j) r r' /\ (forall x, (x < Nelem g)%nat -> s_veff s' x = s_veff s x + c j) /\ forall m p, snd r = Some (m, p) -> forall i, (i < m)%nat -> norm2 g (p i) <> 0.
Lemma density_raised : forall g w c it dif l it' dif' l' k k' k1 k1' n n', raised_workers g w c -> normed_workers g w -> frame k k' ->
  (forall i j, place k i j -> forall x, (x < Nelem g)%nat -> s_veff (k_sol k' i j) x = s_veff (k_sol k i j) x + c j) ->
  ks_density g w it dif l k = Ok (k1, n) -> ks_density g w it' dif' l' k' = Ok (k1', n') -> n' = n /\ raised_orbitals g c k1 k1'.
Proof.
  intros g w c it dif l it' dif' l' k k' k1 k1' n n' RW NW F HV H H'. apply density_inv in H. apply density_inv in H'.
  destruct H as (sol & n0 & -> & W & _ & S & ->). destruct H' as (sol' & n0' & -> & W' & _ & S' & ->). pose proof F as (F1 & _ & _ & F2 & F3 & F4 & _ & F5).
  assert (Q : raised_orbitals g c (set_sol k sol) (set_sol k' sol')).
  { intros i j Hp. cbn [set_sol k_sol]. destruct (W i j Hp) as (r & A & B). assert (Hp' : place k' i j) by (unfold place in *; rewrite F3, F4; exact Hp). destruct (W' i j Hp') as (r' & A' & B').
    exists (k_sol k i j), (k_sol k' i j), r, r'. split; [exact B|]. split; [exact B'|]. split; [apply F5|]. split; [exact (RW j _ _ _ _ r r' (F5 i j) (HV i j Hp) A A')|]. split; [exact (HV i j Hp)|]. exact (fun m p => NW _ _ r m p A). }
  assert (E : n0' = n0).
  { assert (X : sum_dens g k' sol' = sum_dens g k sol).
    { unfold sum_dens. rewrite F2, F3, F4. apply forN_ext. intros j m Hj. apply forN_ext. intros i m' Hi. destruct (Q i j) as (s & s' & r & r' & Q1 & Q2 & Q3 & Q4 & _); [split; auto|].
      cbn [set_sol k_sol] in Q1, Q2. rewrite Q1, Q2, (raised_dens g (c j) s s' r r' Q3 Q4). reflexivity. }
    rewrite X, S in S'. congruence. }
  rewrite E, F1. auto.
Qed.
Lemma energy_raised : forall g w c k k' k1 k1', frame k k' -> k_n k' = k_n k -> raised_orbitals g c k k' -> ks_energy g w k = Ok k1 -> ks_energy g w k' = Ok k1' ->
  exists E E', k_E k1 = Some E /\ k_E k1' = Some E' /\ E_E E' = E_E E /\ E_Ts E' = E_Ts E /\ E_Enuc E' = E_Enuc E /\
    (forall s, (s < k_cols k)%nat -> E_Eks E' s = E_Eks E s + c s * sumR (k_lv k) (fun i => integrate1 g (dens g (k_sol k i s)))) /\
    (forall n ve ve', k_n k = Some n -> k_vext k = Some ve -> k_vext k' = Some ve' -> (forall x s, (s < k_pol k)%nat -> ve' x s = ve x s + c s) -> E_Vext E' = E_Vext E + sumR (k_pol k) (fun s => c s * integrate1 g (fun x => n x s))).
Proof.
  intros g w c k k' k1 k1' (F1 & F2 & F3 & F4 & F5 & F6 & F7 & _) N S H H'. pose proof (energy_solved _ _ _ _ H) as OK. pose proof (energy_solved _ _ _ _ H') as OK'. apply energy_inv in H. apply energy_inv in H'.
  destruct H as (E & n & ve & A1 & A2 & A3 & _ & AT & AE & _ & _ & A4 & AV & A5 & A6). destruct H' as (E' & n' & ve' & B1 & B2 & B3 & _ & BT & BE & _ & _ & B4 & BV & B5 & B6).
  exists E, E'. split; [exact A1|]. split; [exact B1|]. assert (n' = n) by congruence. subst n'.
  assert (KS : forall i j, place k i j -> eks_of (k_sol k' i j) - pot_of g (k_sol k' i j) = eks_of (k_sol k i j) - pot_of g (k_sol k i j) /\ eks_of (k_sol k' i j) = eks_of (k_sol k i j) + c j * integrate1 g (dens g (k_sol k i j))).
  { intros i j Hp. assert (Hp' : place k' i j) by (unfold place in *; rewrite F5, F6; exact Hp). destruct (OK i j Hp) as (e & d & O1 & O2). destruct (OK' i j Hp') as (e' & d' & O1' & _). destruct (S i j Hp) as (s & s' & r & r' & Q1 & Q2 & Q3 & Q4 & Q5 & Q6).
    rewrite Q1 in *. rewrite Q2 in *. unfold dens. rewrite O2. exact (raised_kinetic g (c j) s s' r r' Q3 Q4 Q6 Q5 e e' d O1 O1' O2). }
  assert (K : kinetic g k' = kinetic g k). { unfold kinetic. rewrite F5, F6. apply sumR_ext. intros i Hi. apply sumR_ext. intros j Hj. apply KS. split; auto. }
  rewrite F4, F7 in B4. rewrite F2, F3 in B5. rewrite F1, F4 in B6. split; [|split; [congruence|split; [congruence|split]]].
  - destruct A6 as [(A6 & A7)|(A6 & vx & vh & Ex & ex & vex & Ec & ec & vc & Eh & _ & _ & C3 & C4 & C5 & _ & C7 & C8 & _)]; destruct B6 as [(B6 & B7)|(B6 & vx' & vh' & Ex' & ex' & vex' & Ec' & ec' & vc' & Eh' & _ & _ & D3 & D4 & D5 & _ & D7 & D8 & _)]; try contradiction.
    + rewrite A7, B7, K. congruence.
    + rewrite C3 in D3. rewrite C4 in D4. rewrite C5 in D5. injection D3 as <-. injection D4 as <- <- <-. injection D5 as <- <- <-. rewrite C8, D8, K. congruence.
  - intros s Hs. rewrite AE, BE by (rewrite ?F6; exact Hs). rewrite F5, <- sumR_scal, <- sumR_plus. apply sumR_ext. intros i Hi. apply KS. split; auto.
  - intros m u u' M U U' HU. assert (m = n) by congruence. assert (u = ve) by congruence. assert (u' = ve') by congruence. subst. rewrite AV, BV, F4. unfold interaction. rewrite <- sumR_plus. apply sumR_ext. intros s Hs.
    rewrite <- integrate1_scal, <- integrate1_plus. apply integrate1_ext. intros x Hx. rewrite HU by exact Hs. ring.
Qed.
Lemma chempot_raised : forall g c k k' k1 k1' u u', frame k k' -> raised_orbitals g c k k' -> calc_chempot k = Ok k1 -> calc_chempot k' = Ok k1' -> k_u k1 = Some u -> k_u k1' = Some u' ->
  (forall j, (j < k_cols k)%nat -> c j = c 0%nat) -> - 1 / feps < u -> - 1 / feps < u' -> u' = u + c 0%nat.
Proof.
  intros g c k k' k1 k1' u u' (_ & _ & _ & _ & F5 & F6 & _) S H H' U U' C0 HU HU'. apply chempot_spec in H. destruct H as (v & -> & (i & j & P & V) & M). apply chempot_spec in H'. destruct H' as (v' & -> & (i' & j' & P' & V') & M').
  cbn [set_u k_u] in U, U'. injection U as ->. injection U' as ->.
  assert (PL : forall i j, place k' i j <-> place k i j) by (intros; unfold place; rewrite F5, F6; tauto).
  assert (HH : forall i j h h', place k i j -> get_homo (k_sol k i j) = Ok h -> get_homo (k_sol k' i j) = Ok h' -> h' = h + c 0%nat \/ (h = - 1 / feps /\ h' = - 1 / feps)).
  { intros a b h h' Hp X X'. destruct (S a b Hp) as (s & s' & r & r' & Q1 & Q2 & Q3 & Q4 & _). rewrite Q1 in X. rewrite Q2 in X'. rewrite <- (C0 b) by apply Hp. exact (raised_homo (c b) s s' r r' Q3 Q4 h h' X X'). }
  destruct (M' i j (proj2 (PL i j) P)) as (h' & X' & L'). destruct (M i' j' (proj1 (PL i' j') P')) as (h & X & L).
  destruct (HH i j u h' P V X') as [A|(A & _)]; [|lra]. destruct (HH i' j' h u' (proj1 (PL i' j') P') X V') as [B|(_ & B)]; lra.
Qed.

(** * Passes and runs *)
(** Two states of the loop: the same density in external potentials that differ by the constants c. *)
Definition raised_state (c : nat -> R) (k k' : ks) : Prop := frame k k' /\ k_n k' = k_n k /\ exists ve ve', k_vext k = Some ve /\ k_vext k' = Some ve' /\ forall x j, (j < k_pol k)%nat -> ve' x j = ve x j + c j.
(** What a pass leaves behind. *)
Definition raised_result (g : grid) (c : nat -> R) (k k' : ks) : Prop := raised_orbitals g c k k' /\
  (exists n ve E E', k_n k = Some n /\ k_vext k = Some ve /\ k_E k = Some E /\ k_E k' = Some E' /\ E_E E' = E_E E /\ E_Ts E' = E_Ts E /\ E_Enuc E' = E_Enuc E /\
    (forall s, (s < k_cols k)%nat -> E_Eks E' s = E_Eks E s + c s * sumR (k_lv k) (fun i => integrate1 g (dens g (k_sol k i s)))) /\
    E_Vext E' = E_Vext E + sumR (k_pol k) (fun s => c s * integrate1 g (fun x => n x s))) /\
  forall u u', k_u k = Some u -> k_u k' = Some u' -> (forall j, (j < k_cols k)%nat -> c j = c 0%nat) -> - 1 / feps < u -> - 1 / feps < u' -> u' = u + c 0%nat.
Lemma frame_between : forall a b a' b', frame a b -> frame a a' -> frame b b' -> frame a' b'.
Proof.
  intros a b a' b' F A B. destruct A as (I1 & I2 & I3 & I4 & I5 & I6 & I7 & I8). destruct (frame_trans _ _ _ F B) as (J1 & J2 & J3 & J4 & J5 & J6 & J7 & J8).
  repeat (split; [congruence|]). intros i j. specialize (I8 i j). specialize (J8 i j). unfold same_static in *. intuition congruence.
Qed.
Theorem pass_raised : forall g w c o o' l l' a b a' b', raised_workers g w c -> normed_workers g w -> so_alpha o' = so_alpha o -> so_flip o' = so_flip o ->
  raised_state c (c_ks a) (c_ks b) -> c_oldE b = c_oldE a -> c_oldn b = c_oldn a -> scf_body g w o l a = Ok a' -> scf_body g w o' l' b = Ok b' ->
  raised_state c (c_ks a') (c_ks b') /\ c_oldE b' = c_oldE a' /\ c_oldn b' = c_oldn a' /\ c_diff b' = c_diff a' /\ raised_result g c (c_ks a') (c_ks b').
Proof.
  intros g w c o o' l l' a b a' b' RW NW OA OF (F & N & ve & ve' & V & V' & HV) OE ON A B.
  assert (FF : frame (c_ks a') (c_ks b')) by (exact (frame_between _ _ _ _ F (proj1 (body_frame _ _ _ _ _ _ A)) (proj1 (body_frame _ _ _ _ _ _ B)))).
  pose proof (body_vext _ _ _ _ _ _ A) as KV. pose proof (body_vext _ _ _ _ _ _ B) as KV'.
  assert (PP : k_pol (c_ks a') = k_pol (c_ks a)) by (destruct (body_frame _ _ _ _ _ _ A) as ((_ & _ & _ & Q & _) & _); exact Q).
  apply KSLoop.body_inv in A. apply KSLoop.body_inv in B.
  destruct A as (_ & k1 & v1 & vh & sol & k3 & nout & n & k4 & k5 & E & r & A1 & A2 & A3 & A4 & A5 & A6 & A7 & A8 & A9 & A10 & ->).
  destruct B as (_ & k1' & v1' & vh' & sol' & k3' & nout' & n' & k4' & k5' & E' & r' & B1 & B2 & B3 & B4 & B5 & B6 & B7 & B8 & B9 & B10 & ->).
  cbn [c_ks c_oldE c_oldn c_diff] in *. rewrite OF in *.
  pose proof (hxc_same _ _ _ _ _ _ F N A1 B1) as VH. destruct (hxc_frame _ _ _ _ A1) as (Fa & Na & Va & Sa). destruct (hxc_frame _ _ _ _ B1) as (Fb & Nb & Vb & Sb).
  assert (vh' = vh) by congruence. assert (v1 = ve) by congruence. assert (v1' = ve') by congruence. subst vh' v1 v1'.
  pose proof (frame_between _ _ _ _ F Fa Fb) as F1. pose proof F1 as (E1 & E2 & E3 & E4 & E5 & E6 & E7 & E8). rewrite E7, E4 in *.
  set (q := set_sol (set_veffs k1 _) sol) in *. set (q' := set_sol (set_veffs k1' _) sol') in *.
  pose proof (distribute_scf_static _ _ _ A4) as DA. pose proof (distribute_scf_static _ _ _ B4) as DB.
  assert (FQ : frame q q').
  { repeat (split; [assumption|]). intros i j. specialize (DA i j). specialize (DB i j). specialize (E8 i j). unfold q, q'. cbn [set_sol k_sol]. unfold same_static in *. intuition congruence. }
  apply distribute_scf_ok in A4. apply distribute_scf_ok in B4. destruct A4 as (A4 & _). destruct B4 as (B4 & _).
  assert (PL : forall i j, place k1' i j <-> place k1 i j) by (intros; unfold place; rewrite E5, E6; tauto).
  assert (P1 : k_pol k1 = k_pol (c_ks a)) by (destruct Fa as (_ & _ & _ & Q & _); exact Q).
  assert (VQ : forall i j, place q i j -> forall x, (x < Nelem g)%nat -> s_veff (k_sol q' i j) x = s_veff (k_sol q i j) x + c j).
  { intros i j Hp x Hx. unfold q, q'. cbn [set_sol k_sol]. destruct (A4 i j Hp) as (J & ->). destruct (B4 i j (proj2 (PL i j) Hp)) as (_ & ->). cbn [set_veff s_veff]. unfold add3. rewrite HV by congruence. ring. }
  destruct (density_raised _ _ _ _ _ _ _ _ _ _ _ _ _ _ _ RW NW FQ VQ A5 B5) as (-> & QQ).
  pose proof (density_frame _ _ _ _ _ _ _ _ A5) as FA3. pose proof (density_frame _ _ _ _ _ _ _ _ B5) as FB3.
  pose proof (frame_between _ _ _ _ FQ FA3 FB3) as F3.
  apply density_inv in A5. destruct A5 as (s3 & m3 & -> & _). apply density_inv in B5. destruct B5 as (s3' & m3' & -> & _).
  unfold q, q' in A6, B6. cbn [set_sol set_veffs k_n] in A6, B6. assert (n' = n) by congruence. subst n'.
  assert (MX : mixed o' n nout = mixed o n nout) by (unfold mixed; rewrite OA; reflexivity). rewrite MX in *.
  set (n2 := if so_flip o then flip_avg g (k_pol k1) (mixed o n nout) else mixed o n nout) in *.
  destruct (energy_raised g w c _ _ _ _ (F3 : frame (set_n (set_sol q s3) (Some n2)) (set_n (set_sol q' s3') (Some n2))) eq_refl QQ A7 B7) as (X & X' & X1 & X2 & X3 & X4 & X5 & X6 & X7).
  apply energy_keep in A7. destruct A7 as (Ea & Vaa & ->). apply energy_keep in B7. destruct B7 as (Eb & Vbb & ->).
  assert (CU : forall u u', k_u k5 = Some u -> k_u k5' = Some u' -> (forall j, (j < k_cols k1)%nat -> c j = c 0%nat) -> - 1 / feps < u -> - 1 / feps < u' -> u' = u + c 0%nat).
  { intros u u'. exact (chempot_raised g c _ _ _ _ u u' (F3 : frame (set_EV (set_n (set_sol q s3) (Some n2)) (Some Ea) Vaa) (set_EV (set_n (set_sol q' s3') (Some n2)) (Some Eb) Vbb)) QQ A8 B8). }
  apply chempot_keep in A8. destruct A8 as (ua & ->). apply chempot_keep in B8. destruct B8 as (ub & ->).
  cbn [set_u set_EV k_E] in X1, X2, A9, B9. assert (X = E) by congruence. assert (X' = E') by congruence. subst X X'.
  split; [|split; [exact X3|split; [reflexivity|split]]].
  - split; [exact FF|]. split; [reflexivity|]. exists ve, ve'. split; [congruence|]. split; [congruence|]. intros x j Hj. apply HV. congruence.
  - rewrite X3, OE, ON in B10. congruence.
  - split; [exact QQ|]. split; [|exact CU]. exists n2, ve, E, E'. split; [reflexivity|]. split; [congruence|]. split; [exact A9|]. split; [exact B9|]. split; [exact X3|]. split; [exact X4|]. split; [exact X5|]. split; [exact X6|].
    exact (X7 n2 ve ve' eq_refl (A2 : k_vext (set_n (set_sol q s3) (Some n2)) = Some ve) (B2 : k_vext (set_n (set_sol q' s3') (Some n2)) = Some ve') (fun x s Hs => HV x s (eq_rect _ (fun z => (s < z)%nat) Hs _ P1))).
Qed.
(** The first density. *)
Lemma start_raised : forall g w c o o' l l' k k' k0 k0', raised_workers g w c -> normed_workers g w -> so_cont o' = so_cont o -> frame k k' -> (so_cont o = true -> k_n k' = k_n k) ->
  (forall x j, (j < k_pol k)%nat -> outer k' x j = outer k x j + c j) -> scf_start g w o l k = Ok k0 -> scf_start g w o' l' k' = Ok k0' -> raised_state c k0 k0'.
Proof.
  intros g w c o o' l l' k k' k0 k0' RW NW OC F N HV S S'. pose proof (start_vext _ _ _ _ _ _ S) as V. pose proof (start_vext _ _ _ _ _ _ S') as V'.
  pose proof (proj1 (start_inv _ _ _ _ _ _ S)) as Fa. pose proof (proj1 (start_inv _ _ _ _ _ _ S')) as Fb.
  split; [exact (frame_between _ _ _ _ F Fa Fb)|]. split.
  - unfold scf_start in *. rewrite OC in S'. cbv zeta in *. destruct (so_cont o).
    + destruct (need (k_n k)); [|discriminate]. destruct (need (k_n k')); [|discriminate]. injection S as <-. injection S' as <-. exact (N eq_refl).
    + destruct (set_effective_potential (set_vhxc (set_vext k _) _)) as [k1|] eqn:E1; [|discriminate]. destruct (set_effective_potential (set_vhxc (set_vext k' _) _)) as [k1'|] eqn:E1'; [|discriminate]. cbn [bind] in *.
      destruct (ks_density g w false (Fin 0) l k1) as [[k2 n]|] eqn:D; [|discriminate]. destruct (ks_density g w false (Fin 0) l' k1') as [[k2' n']|] eqn:D'; [|discriminate]. cbn [bind] in *. injection S as <-. injection S' as <-. cbn [set_n k_n]. f_equal.
      assert (F1 : frame k1 k1') by (exact (frame_between _ _ _ _ F (eff_frame _ _ E1) (eff_frame _ _ E1'))).
      pose proof (eff_frame _ _ E1) as (_ & _ & _ & _ & L1 & L2 & _). pose proof F as (_ & _ & _ & _ & F5 & F6 & F7 & _).
      apply eff_pot in E1. destruct E1 as (ve & vh & X1 & X2 & _ & X3 & _). apply eff_pot in E1'. destruct E1' as (ve' & vh' & Y1 & Y2 & _ & Y3 & _).
      cbn [set_vhxc set_vext k_vext k_vhxc k_vnuc k_pol] in *. injection X1 as <-. injection X2 as <-. injection Y1 as <-. injection Y2 as <-.
      assert (VQ : forall i j, place k1 i j -> forall x, (x < Nelem g)%nat -> s_veff (k_sol k1' i j) x = s_veff (k_sol k1 i j) x + c j).
      { intros i j Hp x Hx. assert (H1 : place k i j) by (unfold place in *; rewrite L1, L2 in Hp; exact Hp). assert (H2 : place k' i j) by (unfold place in *; rewrite F5, F6; exact H1).
        destruct (X3 i j H1) as (J & ->). destruct (Y3 i j H2) as (_ & ->). cbn [set_veff s_veff]. unfold add3. rewrite F7. specialize (HV x j J). unfold outer in HV. rewrite HV. ring. }
      exact (proj1 (density_raised _ _ _ _ _ _ _ _ _ _ _ _ _ _ _ RW NW F1 VQ D D')).
  - exists (outer k), (outer k'). split; [exact V|]. split; [exact V'|]. intros x j Hj. apply HV. destruct Fa as (_ & _ & _ & Q & _). congruence.
Qed.
(** All passes. *)
Theorem raised_iterates : forall g w c o o' sched sched' k k' s t, raised_workers g w c -> normed_workers g w -> same_rule o o' -> so_cont o' = so_cont o -> frame k k' -> (so_cont o = true -> k_n k' = k_n k) ->
  (forall x j, (j < k_pol k)%nat -> outer k' x j = outer k x j + c j) -> scf_trace g w o sched k s -> scf_trace g w o' sched' k' t -> c_iter t = c_iter s ->
  raised_state c (c_ks s) (c_ks t) /\ c_oldE t = c_oldE s /\ c_oldn t = c_oldn s /\ c_diff t = c_diff s /\ ((2 <= c_iter s)%Z -> raised_result g c (c_ks s) (c_ks t)).
Proof.
  intros g w c o o' sched sched' k k' s t RW NW (OA & OF) OC F N HV Ts Tt. revert s Ts. induction Tt as [t0 S|t t' Tt IH TE B]; intros s Ts I0.
  - destruct Ts as [s0 S0|s s' Ts TE' B']; [|exfalso; apply body_frame in B'; pose proof (trace_bound _ _ _ _ _ _ Ts); cbn [c_iter] in I0; lia].
    cbn [c_ks c_oldE c_oldn c_diff c_iter]. split; [exact (start_raised g w c o o' _ _ k k' s0 t0 RW NW OC F N HV S0 S)|]. repeat (split; [reflexivity|]). intros; lia.
  - pose proof (body_frame _ _ _ _ _ _ B) as (_ & J & _). pose proof (trace_bound _ _ _ _ _ _ Tt). destruct Ts as [s0 S0|s s' Ts TE' B']; [cbn [c_iter] in *; lia|].
    pose proof (body_frame _ _ _ _ _ _ B') as (_ & J' & _). destruct (IH s Ts) as (I1 & I2 & I3 & _); [lia|].
    destruct (pass_raised g w c o o' _ _ _ _ _ _ RW NW OA OF I1 I2 I3 B' B) as (K1 & K2 & K3 & K4 & K5). auto.
Qed.
(** Complete runs. *)
Lemma test_agree : forall o o' s t, so_tol o' = so_tol o -> so_maxiter o' = so_maxiter o -> so_auto o' = so_auto o -> c_diff t = c_diff s -> c_iter t = c_iter s -> scf_test o' t = scf_test o s.
Proof. intros o o' s t H1 H2 H3 H4 H5. unfold scf_test. rewrite H1, H2, H3, H4, H5. reflexivity. Qed.
Theorem raised_run : forall g w c sched sched' d k k' s t, raised_workers g w c -> normed_workers g w -> frame k k' -> k_n k' = k_n k -> (forall x j, (j < k_pol k)%nat -> outer k' x j = outer k x j + c j) ->
  ks_scf g w sched d k = Ok s -> ks_scf g w sched' d k' = Ok t ->
  c_iter t = c_iter s /\ k_n (c_ks t) = k_n (c_ks s) /\ c_oldE t = c_oldE s /\ c_diff t = c_diff s /\ ((2 <= c_iter s)%Z -> raised_result g c (c_ks s) (c_ks t)).
Proof.
  intros g w c sched sched' d k k' s t RW NW F N HV H H'. destruct (scf_inv _ _ _ _ _ _ H) as (o & O & T & X). destruct (scf_inv _ _ _ _ _ _ H') as (o' & O' & T' & X'). rewrite O in O'. injection O' as <-.
  assert (R : forall a b, scf_trace g w o sched k a -> scf_trace g w o sched' k' b -> c_iter b = c_iter a -> raised_state c (c_ks a) (c_ks b) /\ c_oldE b = c_oldE a /\ c_oldn b = c_oldn a /\ c_diff b = c_diff a /\ ((2 <= c_iter a)%Z -> raised_result g c (c_ks a) (c_ks b))).
  { intros a b Ta Tb. exact (raised_iterates g w c o o sched sched' k k' a b RW NW (conj eq_refl eq_refl) eq_refl F (fun _ => N) HV Ta Tb). }
  assert (I0 : c_iter t = c_iter s).
  { pose proof (trace_bound _ _ _ _ _ _ T). pose proof (trace_bound _ _ _ _ _ _ T'). destruct (Z.lt_trichotomy (c_iter t) (c_iter s)) as [L|[L|L]]; [exfalso|exact L|exfalso].
    - destruct (trace_earlier _ _ _ _ _ _ (c_iter t) T ltac:(lia)) as (a & Ta & Ia & Xa). destruct (R a t Ta T' (eq_sym Ia)) as (_ & _ & _ & D & _). rewrite (test_agree o o a t eq_refl eq_refl eq_refl D (eq_sym Ia)), Xa in X'. discriminate.
    - destruct (trace_earlier _ _ _ _ _ _ (c_iter s) T' ltac:(lia)) as (b & Tb & Ib & Xb). destruct (R s b T Tb Ib) as (_ & _ & _ & D & _). rewrite (test_agree o o s b eq_refl eq_refl eq_refl D Ib), X in Xb. discriminate. }
  destruct (R s t T T' I0) as ((_ & R1 & _) & R2 & _ & R3 & R4). auto.
Qed.
