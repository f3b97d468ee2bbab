(** A closed-shell molecule computed with one column (pol = 1) and with two equal spin columns (pol = 2). *)
From Coq Require Import Reals List Arith Lia Lra ZArith Bool String.
From Verif Require Import Base BaseLemmas GridModel GridSpec GridProofs GridMore OpProofs FDProofs HartreeModel HartreeSpec HartreeProofs LinAlg HartreeThms SolverModel SolverSpec SolverProofs LibxcModel LibxcSpec LibxcProofs OptionsModel KSModel KSSpec KSProofs KSThms KSLoop KSEnergy KSTotal
  SelfConsistent NonInteracting Isolated Transport MirrorRun.
Import ListNotations.
Local Open Scope R_scope.
Notation here := (fun x : nat => x).

(** * Specification *)
(** Both spin columns of n' hold half of the only column of n. *)
Definition halves (g : grid) (n n' : mat) : Prop := forall x j, (x < Nelem g)%nat -> (j < 2)%nat -> n' x j = n x 0%nat / 2.
(** Both spin columns of v' hold the only column of v. *)
Definition copies (g : grid) (v v' : mat) : Prop := forall x j, (x < Nelem g)%nat -> (j < 2)%nat -> v' x j = v x 0%nat.
(** A solver for one spin of the closed shell treated by s. *)
Definition half_solver (s s' : solver) : Prop := s_m s' = s_m s /\ s_pol s = 1%nat /\ s_pol s' = 2%nat /\ s_N s' = s_N s / 2 /\ s_Nmo s' = s_Nmo s /\ s_frac s' = s_frac s /\ s_sym s' = s_sym s.
(** The same molecule with one column and with two. *)
Definition closed_pair (g : grid) (k k' : ks) : Prop := k_opt k' = k_opt k /\ k_Za k' * k_Zb k' = k_Za k * k_Zb k /\ k_pol k = 1%nat /\ k_pol k' = 2%nat /\ k_cols k = 1%nat /\ k_cols k' = 2%nat /\ k_lv k' = k_lv k /\
  copies g (k_vnuc k) (k_vnuc k') /\ forall i j, (i < k_lv k)%nat -> (j < 2)%nat -> half_solver (k_sol k i 0%nat) (k_sol k' i j).
(** The eigensolver looks at the potential, the angular momentum and the number of orbitals, not at the occupation. *)
Definition spin_blind (g : grid) (w : env) : Prop := forall it it' s s' r r', half_solver s s' -> (forall x, (x < Nelem g)%nat -> s_veff s' x = s_veff s x) ->
  e_worker w it s = Some r -> e_worker w it' s' = Some r' -> same_answer g here r r'.
(** The functionals give a closed shell the same energy and potential in both treatments. *)
Definition closed_xc (g : grid) (w : env) (o : ksopt) : Prop := forall id n n' e eps v e' eps' v', id = o_xid o \/ id = o_cid o -> halves g n n' -> get_xc g (e_lib w) (o_fam o) id 1 n = Ok (e, eps, v) -> get_xc g (e_lib w) (o_fam o) id 2 n' = Ok (e', eps', v') ->
  e' = e /\ copies g v v'.

(** * One solver *)
Lemma here_map : forall g, point_map g here.
Proof. intros g. split; [auto|]. split; intros; reflexivity. Qed.
Lemma half_nocc : forall s s' r r', half_solver s s' -> nocc (set_result s' r') = nocc (set_result s r).
Proof.
  intros s s' r r' (S1 & S2 & S3 & S4 & _). unfold nocc. cbn [set_result s_m s_pol s_N]. rewrite S1, S2, S3, S4. cbn [Nat.eqb]. destruct (s_m s =? 0)%Z; [reflexivity|]. replace (s_N s / 2 / 2) with (s_N s / 4) by field. reflexivity.
Qed.
Lemma half_scale : forall s s' r r' x, half_solver s s' -> shell_scale (set_result s' r') x = shell_scale (set_result s r) x / 2.
Proof. intros s s' r r' x (S1 & S2 & S3 & _). unfold shell_scale. cbn [set_result s_m s_pol]. rewrite S1, S2, S3. cbn [Nat.eqb]. destruct (s_m s =? 0)%Z; field. Qed.
Lemma half_density : forall g s s' r r', half_solver s s' -> same_answer g here r r' ->
  match calc_density g (set_result s r), calc_density g (set_result s' r') with Ok d, Ok d' => forall x, (x < Nelem g)%nat -> d' x = d x / 2 | Err _, Err _ => True | _, _ => False end.
Proof.
  intros g s s' r r' H A. pose proof H as (S1 & S2 & S3 & S4 & S5 & S6 & S7).
  assert (L : forall m, match dens_loop g (set_result s r) m, dens_loop g (set_result s' r') m with Ok d, Ok d' => forall x, (x < Nelem g)%nat -> d' x = d x | Err _, Err _ => True | _, _ => False end).
  { induction m as [|m IH]; [intros x Hx; reflexivity|]. cbn [dens_loop]. pose proof (answer_phi g here (here_map g) s s' r r' (Z.of_nat m) A) as B.
    destruct (dens_loop g (set_result s r) m) as [d|], (dens_loop g (set_result s' r') m) as [d'|]; try contradiction; cbn [bind]; auto.
    destruct (phi_col (set_result s r) (Z.of_nat m)) as [p|], (phi_col (set_result s' r') (Z.of_nat m)) as [p'|]; try contradiction; cbn [bind]; auto.
    destruct B as (B1 & B2). intros x Hx. rewrite IH, B1, B2 by exact Hx. reflexivity. }
  unfold calc_density. rewrite (half_nocc s s' r r' H). destruct (nocc (set_result s r)) as [No nu]. specialize (L (Z.to_nat No)). cbn [set_result s_frac] in *.
  destruct (dens_loop g (set_result s r) (Z.to_nat No)) as [d|], (dens_loop g (set_result s' r') (Z.to_nat No)) as [d'|]; try contradiction; cbn [bind]; auto.
  rewrite S6. destruct (s_frac s && nonzero nu).
  - pose proof (answer_phi g here (here_map g) s s' r r' No A) as B. destruct (phi_col (set_result s r) No) as [p|], (phi_col (set_result s' r') No) as [p'|]; try contradiction; cbn [bind]; auto.
    destruct B as (B1 & B2). intros x Hx. rewrite (half_scale s s' r r') by exact H. rewrite L, B1, B2 by exact Hx. reflexivity.
  - cbn [bind]. intros x Hx. rewrite (half_scale s s' r r') by exact H. rewrite L by exact Hx. reflexivity.
Qed.
Lemma half_dens : forall g s s' r r', half_solver s s' -> same_answer g here r r' -> forall x, (x < Nelem g)%nat -> dens g (set_result s' r') x = dens g (set_result s r) x / 2.
Proof.
  intros g s s' r r' S A x Hx. pose proof (half_density g s s' r r' S A) as D. unfold dens. destruct (calc_density g (set_result s r)), (calc_density g (set_result s' r')); try contradiction; auto. field.
Qed.
Lemma half_eks : forall g s s' r r', half_solver s s' -> same_answer g here r r' -> eks_of (set_result s' r') = eks_of (set_result s r) / 2.
Proof.
  intros g s s' r r' H A. pose proof H as (S1 & S2 & S3 & S4 & S5 & S6 & S7).
  assert (L : forall m, eks_loop (set_result s' r') m = eks_loop (set_result s r) m).
  { induction m as [|m IH]; [reflexivity|]. cbn [eks_loop]. rewrite IH, (answer_eig g here s s' r r' _ A). reflexivity. }
  unfold eks_of, calc_eks. rewrite (half_nocc s s' r r' H). destruct (nocc (set_result s r)) as [No nu]. cbn [set_result s_frac] in *. rewrite L, S6, (answer_eig g here s s' r r' No A).
  destruct (eks_loop (set_result s r) (Z.to_nat No)) as [a|]; cbn [bind]; [|field]. destruct (if s_frac s && nonzero nu then _ else _); cbn [bind]; [|field]. apply half_scale, H.
Qed.
Lemma half_pot : forall g s s' r r', half_solver s s' -> (forall x, (x < Nelem g)%nat -> s_veff s' x = s_veff s x) -> same_answer g here r r' -> pot_of g (set_result s' r') = pot_of g (set_result s r) / 2.
Proof.
  intros g s s' r r' S V A. unfold pot_of. transitivity (1 / 2 * integrate1 g (fun x => s_veff (set_result s r) x * dens g (set_result s r) x)); [|field]. rewrite <- integrate1_scal. apply integrate1_ext. intros x Hx. cbn [set_result s_veff].
  rewrite V by exact Hx. rewrite (half_dens g s s' r r' S A x Hx). field.
Qed.
Lemma half_homo : forall g s s' r r', half_solver s s' -> same_answer g here r r' -> get_homo (set_result s' r') = get_homo (set_result s r).
Proof.
  intros g s s' r r' S A. unfold get_homo. rewrite (half_nocc s s' r r' S). destruct (nocc (set_result s r)) as [No nu]. cbv zeta. destruct (_ =? 0)%Z; [reflexivity|]. apply (answer_eig g here). exact A.
Qed.

(** * One pass *)
Lemma halves_mirror : forall g n n', halves g n n' -> halves g (sym_avgR g n) (sym_avgR g n').
Proof.
  intros g n n' H x j Hx Hj. unfold sym_avgR, sym_avg. rewrite !mirror2_mirror1 by assumption. destruct (mirror1_at g x Hx) as (y & Hy & Q). rewrite !Q, !H by assumption. field.
Qed.
Lemma copies_mirror : forall g n n', copies g n n' -> copies g (sym_avgR g n) (sym_avgR g n').
Proof.
  intros g n n' H x j Hx Hj. unfold sym_avgR, sym_avg. rewrite !mirror2_mirror1 by assumption. destruct (mirror1_at g x Hx) as (y & Hy & Q). rewrite !Q, !H by assumption. reflexivity.
Qed.
Section Pair.
  Variables (g : grid) (w : env) (k k' : ks).
  Hypotheses (OB : closed_pair g k k') (SB : spin_blind g w) (XC : closed_xc g w (k_opt k)) (FA : hartree_setting g w).

  Definition both_orbitals (k2 k2' : ks) : Prop := forall i j, (i < k_lv k)%nat -> (j < 2)%nat -> exists s s' r r', k_sol k2 i 0%nat = set_result s r /\ k_sol k2' i j = set_result s' r' /\
    half_solver s s' /\ (forall x, (x < Nelem g)%nat -> s_veff s' x = s_veff s x) /\ same_answer g here r r'.
  Lemma closed_shot : forall v v' k2 k2' n n', copies g v v' -> shot g w k v k2 n -> shot g w k' v' k2' n' -> halves g n n' /\ both_orbitals k2 k2'.
  Proof.
    intros v v' k2 k2' n n' HV (it & dif & l & k1 & A1 & A2 & A3) (it' & dif' & l' & k1' & B1 & B2 & B3).
    destruct OB as (O1 & O2 & O3 & O3' & O5 & O5' & O4 & O6 & O7). pose proof A1 as (F1 & _ & _ & F4 & F5 & F6 & _ & F8). pose proof B1 as (G1 & _ & _ & G4 & G5 & G6 & _ & G8).
    apply density_inv in A3. destruct A3 as (sol & n0 & -> & W & _ & S & ->). apply density_inv in B3. destruct B3 as (sol' & n0' & -> & W' & _ & S' & ->). cbn [set_sol k_sol].
    apply sum_dens_spec in S. destruct S as (S1 & S2). apply sum_dens_spec in S'. destruct S' as (S1' & S2').
    assert (T : both_orbitals (set_sol k1 sol) (set_sol k1' sol')).
    { intros i j Hi Hj. cbn [set_sol k_sol]. assert (P : place k i 0) by (split; [exact Hi|lia]). assert (P' : place k' i j) by (split; [congruence|lia]).
      destruct (W i 0%nat) as (r & R1 & R2); [unfold place; rewrite F5, F6; exact P|]. destruct (W' i j) as (r' & R1' & R2'); [unfold place; rewrite G5, G6; exact P'|].
      assert (ST : half_solver (k_sol k1 i 0%nat) (k_sol k1' i j)).
      { specialize (O7 i j Hi Hj). specialize (F8 i 0%nat). specialize (G8 i j). destruct O7 as (a1 & a2 & a3 & a4 & a5 & a6 & a7). destruct F8 as (b1 & b2 & b3 & b4 & b5 & b6). destruct G8 as (c1 & c2 & c3 & c4 & c5 & c6). repeat (split; [congruence|]). congruence. }
      assert (VV : forall x, (x < Nelem g)%nat -> s_veff (k_sol k1' i j) x = s_veff (k_sol k1 i 0%nat) x) by (intros x Hx; rewrite B2 by exact P'; rewrite A2 by exact P; apply HV; auto).
      exists (k_sol k1 i 0%nat), (k_sol k1' i j), r, r'. repeat (split; [assumption|]). eapply SB; eauto. }
    split; [|exact T]. assert (I0 : halves g n0 n0').
    { intros x j Hx Hj. rewrite S2, S2', F6, G6, O5, O5'. destruct (Nat.ltb_spec j 2) as [L|L]; [|lia]. cbn [Nat.ltb Nat.leb].
      rewrite F5, G5, O4. transitivity (/ 2 * sumR (k_lv k) (fun i => dens g (sol i 0%nat) x)); [|field]. rewrite <- sumR_scal. apply sumR_ext. intros i Hi. destruct (T i j Hi Hj) as (s & s' & r & r' & E1 & E2 & E3 & E4 & E5). cbn [set_sol k_sol] in E1, E2. rewrite E1, E2. rewrite (half_dens g s s' r r' E3 E5 x Hx). field. }
    rewrite F1, G1, O1. destruct (o_sym (k_opt k)); auto using halves_mirror.
  Qed.
  Lemma closed_hartree : forall n n' v v', halves g n n' -> v_hartree g (e_spL w) (e_spU w) (A2 1 n) = Ok v -> v_hartree g (e_spL w) (e_spU w) (A2 2 n') = Ok v' -> copies g (entry v) (entry v').
  Proof.
    intros n n' v v' H E E' x j Hx Hj. destruct FA as (L & U & F1 & F2 & F3 & F4).
    assert (OK1 : exists v1, v_hartree g (e_spL w) (e_spU w) (A1 (fun k => n k 0%nat)) = Ok v1). { unfold v_hartree in *. destruct (_ || _); [discriminate|]. cbn [Nat.eqb]. eauto. }
    destruct OK1 as (v1 & E1). destruct (hartree_total g _ _ L U 1 n (fun k => n k 0%nat) F1 F2 F3 F4 ltac:(intros; cbn; ring) v v1 E E1 x Hx) as (A & _).
    destruct (hartree_total g _ _ L U 2 n' (fun k => n k 0%nat) F1 F2 F3 F4 ltac:(intros y Hy; cbn [sumR]; rewrite !H by (auto; lia); field) v' v1 E' E1 x Hx) as (B & _).
    destruct j as [|[|]]; [rewrite A, B; reflexivity| |lia]. rewrite (hartree_columns _ _ _ _ _ E'), A, B. reflexivity.
  Qed.
  Lemma closed_repulsion : forall n n' vh vh', halves g n n' -> repulsion g w k n vh -> repulsion g w k' n' vh' -> copies g vh vh'.
  Proof.
    intros n n' vh vh' HN (k1 & k1' & A1 & A2 & A3 & A4) (k2 & k2' & B1 & B2 & B3 & B4). destruct OB as (O1 & O2 & O3 & O3' & O5 & O5' & O4 & O6 & O7).
    pose proof A1 as (F1 & _ & _ & F4 & _). pose proof B1 as (G1 & _ & _ & G4 & _).
    apply hxc_inv in A3. destruct A3 as (V & v & -> & CA). apply hxc_inv in B3. destruct B3 as (V' & v' & -> & CB). cbn [set_vhxc k_vhxc] in A4, B4. injection A4 as <-. injection B4 as <-.
    rewrite F1, F4, O3 in *. rewrite G1, G4, O1, O3' in *. assert (I0 : copies g v v').
    { destruct CA as [(N1 & _ & Z1 & _)|(N1 & m & xx & cc & hh & E1 & E2 & E3 & E4 & E5)]; destruct CB as [(N2 & _ & Z2 & _)|(N2 & m' & xx' & cc' & hh' & D1 & D2 & D3 & D4 & D5)]; try (exfalso; congruence).
      - intros x j Hx Hj. rewrite Z1, Z2. reflexivity.
      - rewrite A2 in E1. injection E1 as <-. rewrite B2 in D1. injection D1 as <-. destruct xx as [[e1 p1] v1], xx' as [[e1' p1'] v1'], cc as [[e2 p2] v2], cc' as [[e2' p2'] v2']. cbn [snd] in *.
        destruct (XC _ _ _ _ _ _ _ _ _ (or_introl eq_refl) HN E2 D2) as (_ & Y1). destruct (XC _ _ _ _ _ _ _ _ _ (or_intror eq_refl) HN E3 D3) as (_ & Y2). pose proof (closed_hartree _ _ _ _ HN E4 D4) as Y3.
        intros x j Hx Hj. rewrite E5, D5, Y1, Y2, Y3 by assumption. reflexivity. }
    destruct (o_sym (k_opt k)); auto using copies_mirror.
  Qed.
  Lemma closed_interaction : forall n n' v v', halves g n n' -> copies g v v' -> interaction g 2 n' v' = interaction g 1 n v.
  Proof.
    intros n n' v v' A B. unfold interaction. cbn [sumR]. rewrite !Rplus_0_l. transitivity (1 / 2 * integrate1 g (fun x => n x 0%nat * v x 0%nat) + 1 / 2 * integrate1 g (fun x => n x 0%nat * v x 0%nat)); [|field].
    f_equal; rewrite <- integrate1_scal; apply integrate1_ext; intros x Hx; rewrite A, B by (auto; lia); field.
  Qed.
  Lemma closed_energy : forall k2 k2' m m' e e', both_orbitals k2 k2' -> halves g m m' -> energy_of g w k k2 m e -> energy_of g w k' k2' m' e' -> e' = e.
  Proof.
    intros k2 k2' m m' e e' Q IM (k3 & k4 & E & A1 & A2 & A3 & A4 & A5 & A6) (k3' & k4' & E' & B1 & B2 & B3 & B4 & B5 & B6). destruct OB as (O1 & O2 & O3 & O3' & O5 & O5' & O4 & O6 & O7).
    pose proof A1 as (F1 & F2 & F3 & F4 & F5 & F6 & F7 & _). pose proof B1 as (G1 & G2 & G3 & G4 & G5 & G6 & G7 & _).
    assert (K : kinetic g k3' = kinetic g k3).
    { unfold kinetic. rewrite F5, F6, G5, G6, O4, O5, O5'. apply sumR_ext. intros i Hi. cbn [sumR]. rewrite A2, !B2.
      destruct (Q i 0%nat Hi ltac:(lia)) as (s & s' & r & r' & Q1 & Q2 & Q3 & Q4 & Q5). destruct (Q i 1%nat Hi ltac:(lia)) as (t & t' & q & q' & T1 & T2 & T3 & T4 & T5).
      rewrite Q2, T2, (half_eks g s s' r r' Q3 Q5), (half_pot g s s' r r' Q3 Q4 Q5), (half_eks g t t' q q' T3 T5), (half_pot g t t' q q' T3 T4 T5), <- Q1, <- T1. field. }
    apply energy_inv in A4. destruct A4 as (E1 & n1 & v1 & C1 & C2 & C3 & _ & _ & _ & _ & _ & C4 & _ & C5 & C6). apply energy_inv in B4. destruct B4 as (E2 & n2 & v2 & D1 & D2 & D3 & _ & _ & _ & _ & _ & D4 & _ & D5 & D6).
    rewrite A5 in C1. injection C1 as <-. rewrite B5 in D1. injection D1 as <-. rewrite A3 in C2. injection C2 as <-. rewrite B3 in D2. injection D2 as <-. rewrite F4, F7, O3 in C4. rewrite G4, G7, O3' in D4. rewrite F2, F3 in C5. rewrite G2, G3, O2 in D5.
    assert (EN : E_Enuc E' = E_Enuc E) by (rewrite C4, D4; apply closed_interaction; assumption). rewrite <- A6, <- B6.
    destruct C6 as [(N1 & ->)|(N1 & vh & h & Ex & ex & vx & Ec & ec & vc & Eh & X1 & X2 & X3 & X4 & X5 & X6 & X7 & -> & _)]; destruct D6 as [(N2 & ->)|(N2 & vh' & h' & Ex' & ex' & vx' & Ec' & ec' & vc' & Eh' & Y1 & Y2 & Y3 & Y4 & Y5 & Y6 & Y7 & -> & _)]; try (exfalso; congruence).
    - rewrite K, EN, C5, D5. reflexivity.
    - rewrite F1, F4, O3 in *. rewrite G1, G4, O1, O3' in *. destruct (XC _ _ _ _ _ _ _ _ _ (or_introl eq_refl) IM X4 Y4) as (-> & _). destruct (XC _ _ _ _ _ _ _ _ _ (or_intror eq_refl) IM X5 Y5) as (-> & _).
      pose proof (closed_hartree _ _ _ _ IM X3 Y3) as H3. rewrite K, EN, C5, D5. assert (EH : Eh' = Eh); [|rewrite EH; reflexivity]. rewrite X7, Y7. f_equal.
      apply integrate1_ext. intros x Hx. rewrite H3 by (auto; lia). f_equal. cbn [sumR]. rewrite !IM by (auto; lia). field.
  Qed.
  Lemma closed_iterate : forall ve ve' a i n e n' e', copies g ve ve' -> iterate g w k ve a i n e -> iterate g w k' ve' a i n' e' -> halves g n n' /\ e' = e.
  Proof.
    intros ve ve' a i n e n' e' HV H. revert n' e'. pose proof OB as (O1 & O2 & O3 & O3' & O5 & O5' & O4 & O6 & O7).
    induction H as [k2 n S|i n e vh k2 nout e1 H IH R S E]; intros n' e' H'.
    - inversion H' as [k2' n2 S'|]; subst. split; [|reflexivity]. refine (proj1 (closed_shot _ _ _ _ _ _ _ S S')). intros x j Hx Hj. cbv beta. rewrite O6, HV by assumption. reflexivity.
    - inversion H' as [|i2 m f vh' k2' nout' e2 H2 R' S' E']; subst. destruct (IH _ _ H2) as (I1 & _). pose proof (closed_repulsion _ _ _ _ I1 R R') as I2.
      edestruct (fun HH => closed_shot _ _ _ _ _ _ HH S S') as (I3 & T); [intros x j Hx Hj; cbv beta; rewrite O6, HV, I2 by assumption; reflexivity|].
      assert (I4 : halves g (fun x j => (1 - a) * n x j + a * nout x j) (fun x j => (1 - a) * m x j + a * nout' x j)) by (intros x j Hx Hj; cbv beta; rewrite I1, I3 by assumption; field).
      split; [exact I4|]. eapply closed_energy; eauto.
  Qed.
  Lemma closed_chempot : forall k2 k2' k3 k3' k4 k4', both_orbitals k2 k2' -> frame k k3 -> frame k' k3' -> k_sol k3 = k_sol k2 -> k_sol k3' = k_sol k2' -> calc_chempot k3 = Ok k4 -> calc_chempot k3' = Ok k4' -> k_u k4' = k_u k4.
  Proof.
    intros k2 k2' k3 k3' k4 k4' T F F' S S' H H'. apply chempot_spec in H. destruct H as (u & -> & (i & j & P & U) & M). apply chempot_spec in H'. destruct H' as (u' & -> & (i' & j' & P' & U') & M').
    cbn [set_u k_u]. f_equal. destruct OB as (O1 & O2 & O3 & O3' & O5 & O5' & O4 & O6 & O7). destruct F as (_ & _ & _ & _ & F5 & F6 & _). destruct F' as (_ & _ & _ & _ & G5 & G6 & _).
    unfold place in *. rewrite F5, F6, O5 in *. rewrite G5, G6, O4, O5' in *. rewrite S, S' in *. apply Rle_antisym.
    - destruct P' as (P1 & P2). destruct (T i' j' P1 P2) as (s & s' & r & r' & T1 & T2 & T3 & _ & T5). destruct (M i' 0%nat (conj P1 Nat.lt_0_1)) as (h & H1 & H2).
      rewrite T1 in H1. rewrite T2, (half_homo g _ _ _ _ T3 T5), H1 in U'. injection U' as <-. exact H2.
    - destruct P as (P1 & P2). assert (j = 0%nat) by lia. subst j. destruct (T i 0%nat P1 Nat.lt_0_2) as (s & s' & r & r' & T1 & T2 & T3 & _ & T5). destruct (M' i 0%nat (conj P1 Nat.lt_0_2)) as (h & H1 & H2).
      rewrite T2, (half_homo g _ _ _ _ T3 T5), <- T1, U in H1. injection H1 as <-. exact H2.
  Qed.

  (** * Runs *)
  Theorem closed_runs : forall o sched sched' st st', so_cont o = false -> so_flip o = false -> copies g (outer k) (outer k') -> scf_trace g w o sched k st -> scf_trace g w o sched' k' st' -> c_iter st' = c_iter st ->
    c_oldE st' = c_oldE st /\ (exists n n', k_n (c_ks st) = Some n /\ k_n (c_ks st') = Some n' /\ halves g n n') /\
    ((1 < c_iter st)%Z -> k_u (c_ks st') = k_u (c_ks st) /\ forall i j m, (i < k_lv k)%nat -> (j < 2)%nat -> eig_at (k_sol (c_ks st') i j) m = eig_at (k_sol (c_ks st) i 0) m).
  Proof.
    intros o sched sched' st st' HC HF OV T T' I.
    assert (B : forall st st', scf_trace g w o sched k st -> scf_trace g w o sched' k' st' -> c_iter st' = c_iter st -> c_oldE st' = c_oldE st /\ exists n n', k_n (c_ks st) = Some n /\ k_n (c_ks st') = Some n' /\ halves g n n').
    { clear st st' T T' I. intros st st' T T' I. destruct (ks_iterates _ _ _ _ _ _ HC HF T) as (n & N & _ & IT). destruct (ks_iterates _ _ _ _ _ _ HC HF T') as (n' & N' & _ & IT'). rewrite I in IT'.
      destruct (closed_iterate _ _ _ _ _ _ _ _ OV IT IT') as (Q1 & Q2). split; auto. exists n, n'. auto. }
    destruct (B st st' T T' I) as (B1 & B2). split; [exact B1|]. split; [exact B2|]. intros L1.
    destruct T as [k0 S|st st1 T X BB]; [cbn [c_iter] in L1; lia|]. destruct T' as [k0' S'|st0 st2 T0 X0 B0]; [exfalso; cbn [c_iter] in I; lia|].
    pose proof (body_frame _ _ _ _ _ _ BB) as (_ & I1 & _). pose proof (body_frame _ _ _ _ _ _ B0) as (_ & I2 & _). destruct (B st st0 T T0 ltac:(lia)) as (_ & n & n' & N & N' & L4).
    pose proof (trace_frame _ _ _ _ _ _ T) as (FT & _). pose proof (trace_frame _ _ _ _ _ _ T0) as (FT0 & _). pose proof OB as (O1 & O2 & O3 & O3' & O5 & O5' & O4 & O6 & O7).
    destruct (ks_iterates _ _ _ _ _ _ HC HF T) as (_ & _ & V & _). destruct (ks_iterates _ _ _ _ _ _ HC HF T0) as (_ & _ & V' & _).
    destruct (step_shot _ _ _ _ _ _ _ _ _ HF FT N V BB) as (vh & k3 & k4 & nout & S1 & S2 & S3 & S4 & S5 & S6). destruct (step_shot _ _ _ _ _ _ _ _ _ HF FT0 N' V' B0) as (vh' & k3' & k4' & nout' & S1' & S2' & S3' & S4' & S5' & S6').
    pose proof (closed_repulsion _ _ _ _ L4 S1 S1') as R.
    edestruct (fun HH => closed_shot _ _ _ _ _ _ HH S2 S2') as (_ & TW); [intros x j Hx Hj; cbv beta; rewrite O6, OV, R by assumption; reflexivity|]. split.
    - eapply closed_chempot; eauto.
    - intros i j e Hi Hj. destruct (TW i j Hi Hj) as (s & s' & r & r' & W1 & W2 & W3 & W4 & W5). rewrite S3, S3', W1, W2. apply (answer_eig g here). exact W5.
  Qed.
End Pair.
