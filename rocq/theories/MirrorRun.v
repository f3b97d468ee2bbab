(** Mirror images and spin exchange of complete Kohnsham.scf runs. *)
From Coq Require Import Reals List Arith Lia Lra ZArith Bool String Permutation.
From Verif Require Import Base BaseLemmas GridModel GridSpec GridProofs GridMore NCProofs FDProofs OpProofs HartreeModel HartreeSpec HartreeProofs LinAlg HartreeThms SolverModel SolverSpec SolverProofs LibxcModel LibxcSpec LibxcProofs LibxcThms OptionsModel KSModel KSSpec KSProofs KSThms KSLoop KSEnergy KSTotal
  SelfConsistent NonInteracting Isolated Transport.
Import ListNotations.
Local Open Scope R_scope.
Local Opaque sinh cosh.

(** * Functionals and grid values *)
Lemma sigma_grid : forall g pol n n' q sg q' sg', (forall x s, (x < Nelem g)%nat -> (s < pol)%nat -> n' x s = n x s) -> sigma g pol n = Ok (q, sg) -> sigma g pol n' = Ok (q', sg') -> q' = q /\ forall x j, sg' x j = sg x j.
Proof.
  intros g pol n n' q sg q' sg' H E E'. unfold sigma in *. destruct (Nat.eqb_spec pol 1) as [P1|P1]; [|destruct (Nat.eqb_spec pol 2) as [P2|P2]; [|discriminate]]; subst pol.
  - injection E as <- <-. injection E' as <- <-. split; auto. intros x _. rewrite (gapply_ext g (grada g) (fun k => n' k 0%nat) (fun k => n k 0%nat)), (gapply_ext g (gradr g) (fun k => n' k 0%nat) (fun k => n k 0%nat)) by auto. reflexivity.
  - injection E as <- <-. injection E' as <- <-. split; auto. intros x j.
    assert (Q : forall A s k, (s < 2)%nat -> gapply g A (fun y => n' y s) k = gapply g A (fun y => n y s) k) by (intros; apply gapply_ext; intros; apply H; auto).
    rewrite !Q by lia. destruct (Nat.eqb j 2); [reflexivity|]. destruct (Nat.eqb j 0); [reflexivity|]. rewrite !rowtimes_dot. unfold gdot. f_equal; apply sumR_ext; intros; rewrite !Q by lia; reflexivity.
Qed.
Lemma get_xc_grid : forall g lib fam id pol F n n' e eps v e' eps' v', lib id pol = Ok F -> pointwise pol (2 * pol - 1) F -> (forall x s, (x < Nelem g)%nat -> (s < pol)%nat -> n' x s = n x s) ->
  get_xc g lib fam id pol n = Ok (e, eps, v) -> get_xc g lib fam id pol n' = Ok (e', eps', v') -> e' = e /\ forall x s, (x < Nelem g)%nat -> (s < pol)%nat -> v' x s = v x s.
Proof.
  intros g lib fam id pol F n n' e eps v e' eps' v' HF PW HN E E'. unfold get_xc, get_xc_dictionary in *. rewrite HF in *. cbn [bind] in *.
  assert (INT : forall z z' : vec, (forall x, (x < Nelem g)%nat -> z' x = z x) -> integrate1 g (sum_cols pol (fun x s => z' x * n' x s)) = integrate1 g (sum_cols pol (fun x s => z x * n x s))).
  { intros z z' Hz. apply integrate1_ext. intros x Hx. unfold sum_cols. apply sumR_ext. intros s Hs. rewrite Hz, HN by auto. reflexivity. }
  destruct (String.eqb_spec fam "lda") as [->|NL].
  - cbn [bind String.eqb Ascii.eqb Bool.eqb Nat.eqb] in *. injection E as <- <- <-. injection E' as <- <- <-.
    assert (K : forall x, (x < Nelem g)%nat -> xc_zk (F n' None) x = xc_zk (F n None) x /\ forall s, (s < pol)%nat -> xc_vrho (F n' None) x s = xc_vrho (F n None) x s).
    { intros x Hx. destruct (PW n' n None None x x) as (P1 & P2 & _); [intros; auto|exact Logic.I|]. auto. }
    split; [apply INT; intros; apply K; auto|]. intros. apply K; auto.
  - destruct (String.eqb_spec fam "gga") as [->|NG]; [|discriminate].
    destruct (sigma g pol n) as [(q & sg)|] eqn:S; [|discriminate]. destruct (sigma g pol n') as [(q' & sg')|] eqn:S'; [|discriminate]. cbn [bind snd] in *.
    destruct (sigma_grid _ _ _ _ _ _ _ _ HN S S') as (-> & SG). injection E as <- <- <-. injection E' as <- <- <-.
    assert (K : forall x, (x < Nelem g)%nat -> xc_zk (F n' (Some sg')) x = xc_zk (F n (Some sg)) x /\ (forall s, (s < pol)%nat -> xc_vrho (F n' (Some sg')) x s = xc_vrho (F n (Some sg)) x s) /\
      forall s, (s < 2 * pol - 1)%nat -> xc_vsigma (F n' (Some sg')) x s = xc_vsigma (F n (Some sg)) x s).
    { intros x Hx. apply PW; [intros; auto|]. intros j _. apply SG. }
    split; [apply INT; intros; apply K; auto|]. intros x s Hx Hs.
    assert (DG : forall t u, (t < pol)%nat -> (u < 2 * pol - 1)%nat -> div_s_grad g (fun k => xc_vsigma (F n' (Some sg')) k u) (fun k => n' k t) x = div_s_grad g (fun k => xc_vsigma (F n (Some sg)) k u) (fun k => n k t) x).
    { intros t u Ht Hu. unfold div_s_grad. f_equal; apply gapply_ext; intros i Hi; rewrite (proj2 (proj2 (K i Hi)) u Hu); f_equal; apply gapply_ext; intros; apply HN; auto. }
    assert (PP : pol = 1%nat \/ pol = 2%nat). { unfold sigma in S. destruct (Nat.eqb_spec pol 1); auto. destruct (Nat.eqb_spec pol 2); auto. discriminate. }
    destruct PP as [-> | ->]; cbn [Nat.eqb].
    + rewrite DG by lia. rewrite (proj1 (proj2 (K x Hx)) s Hs). reflexivity.
    + destruct s as [|[|]]; try lia; cbn [Nat.eqb]; rewrite !DG by lia; rewrite (proj1 (proj2 (K x Hx))) by lia; reflexivity.
Qed.
Lemma hartree_grid : forall g spL spU L U cols n n' v v', solver_for (Nelem g) L spL -> solver_for (Nelem g) U spU -> nonsing (Nelem g) L -> nonsing (Nelem g) U -> (cols = 1 \/ cols = 2)%nat ->
  (forall x, (x < Nelem g)%nat -> sumR cols (fun s => n' x s) = sumR cols (fun s => n x s)) -> v_hartree g spL spU (A2 cols n) = Ok v -> v_hartree g spL spU (A2 cols n') = Ok v' ->
  forall x s, (x < Nelem g)%nat -> (s < cols)%nat -> entry v' x s = entry v x 0%nat /\ entry v x s = entry v x 0%nat.
Proof.
  intros g spL spU L U cols n n' v v' H1 H2 H3 H4 C HS E E' x s Hx Hs.
  assert (OK1 : exists v1, v_hartree g spL spU (A1 (fun k => sumR cols (fun s => n k s))) = Ok v1).
  { unfold v_hartree in *. destruct (_ || _); [discriminate|]. cbn [Nat.eqb]. eauto. }
  destruct OK1 as (v1 & E1). destruct (hartree_total g spL spU L U cols n _ H1 H2 H3 H4 (fun k _ => eq_refl) v v1 E E1 x Hx) as (A & _).
  destruct (hartree_total g spL spU L U cols n' _ H1 H2 H3 H4 HS v' v1 E' E1 x Hx) as (B & _). destruct C as [-> | ->].
  - assert (s = 0%nat) by lia. subst. rewrite B, A. auto.
  - destruct s as [|[|]]; try lia; [rewrite B, A; auto|]. rewrite (hartree_columns _ _ _ _ _ E), (hartree_columns _ _ _ _ _ E'), B, A. auto.
Qed.

(** * The mirror *)
Definition across (g : grid) : nat -> nat := mirror1 g (fun x => x).
Lemma across_at : forall g (f : vec) x, (x < Nelem g)%nat -> f (across g x) = mirror1 g f x.
Proof. intros g f x Hx. destruct (mirror1_at g x Hx) as (y & _ & Q). unfold across. rewrite !Q. reflexivity. Qed.
Lemma across_lt : forall g x, (x < Nelem g)%nat -> (across g x < Nelem g)%nat.
Proof. intros g x Hx. destruct (mirror1_at g x Hx) as (y & Hy & Q). unfold across. rewrite Q. exact Hy. Qed.
Lemma across_across : forall g x, (x < Nelem g)%nat -> across g (across g x) = x.
Proof. intros g x Hx. unfold across at 1. destruct (mirror1_at g x Hx) as (y & Hy & Q). pose proof (mirror1_invol _ g (fun z => z) x Hx) as M. rewrite Q in M. unfold across. rewrite Q. exact M. Qed.
Lemma sum_across : forall g f, sumR (Nelem g) (fun x => f (across g x)) = sumR (Nelem g) f.
Proof.
  intros g f. rewrite (sumR_ext _ _ (mirror1 g f)) by (intros; apply across_at; auto). rewrite !sum_points. apply sumR_ext. intros ir Hir. rewrite <- (sumR_rev (Na g)).
  apply sumR_ext. intros ia Hia. rewrite mirror1_pos by (split; [lia|auto]). f_equal. f_equal. lia.
Qed.
Lemma integrate_across : forall g f, grid_ok g -> lstsq_ok g -> gNMa g = gNMr g -> (2 <= gNMa g)%nat -> integrate1 g (fun x => f (across g x)) = integrate1 g f.
Proof.
  intros g f Hg Hl HN H2. rewrite (integrate1_ext g _ (mirror1 g f)) by (intros; apply across_at; auto). apply (integrate1_mirror g f HN).
  intros i Hi. unfold wa. apply (nc_palin (gNP g) (gNMa g)); auto; try apply Hg; try apply Hl. apply nc_NP_ge; auto. apply Hg.
Qed.
(** Grid, stencil and factorised Laplacian with which C70 and C76 hold. *)
Definition mirror_setting (g : grid) (w : env) : Prop := grid_ok g /\ lstsq_ok g /\ gNMa g = gNMr g /\ (2 <= gNMa g)%nat /\
  exists b L U, fd_ok g b /\ (b <= Na g)%nat /\ (b <= Nr g)%nat /\ solver_for (Nelem g) L (e_spL w) /\ solver_for (Nelem g) U (e_spU w) /\ nonsing (Nelem g) L /\ nonsing (Nelem g) U /\
    (forall i j, (i < Nelem g)%nat -> (j < Nelem g)%nat -> matmul (Nelem g) L U i j = elap g i j) /\ nonsing (Nelem g) (elap g).
(** The functionals of k work point by point. *)
Definition local_functionals (w : env) (k : ks) : Prop := forall id, id = o_xid (k_opt k) \/ id = o_cid (k_opt k) -> exists F, e_lib w id (k_pol k) = Ok F /\ pointwise (k_pol k) (2 * k_pol k - 1) F.
Notation same := (fun j : nat => j).

Lemma across_map : forall g w, mirror_setting g w -> point_map g (across g).
Proof. intros g w (A & B & C & D & _). split; [apply across_lt|]. split; [apply sum_across|]. intros f. apply integrate_across; auto. Qed.
Lemma same_map : forall p c, spin_map p c same.
Proof. intros p c. split; [rewrite map_id; apply Permutation_refl|]. split; [rewrite map_id; apply Permutation_refl|]. tauto. Qed.
Lemma sym_across : forall g pol, sym_equivariant g pol (across g) same.
Proof.
  intros g pol n n' H x j Hx Hj. unfold sym_avgR, sym_avg. rewrite !mirror2_mirror1 by (auto using across_lt). rewrite H by assumption.
  rewrite <- (across_at g (fun i => n' i j) x Hx), H by (auto using across_lt). rewrite <- (across_at g (fun i => n i j) (across g x)) by (auto using across_lt). reflexivity.
Qed.
Lemma hartree_across : forall g w pol n n' v v', mirror_setting g w -> (pol = 1 \/ pol = 2)%nat -> image g (across g) same pol n n' -> v_hartree g (e_spL w) (e_spU w) (A2 pol n) = Ok v -> v_hartree g (e_spL w) (e_spU w) (A2 pol n') = Ok v' ->
  image g (across g) same pol (entry v) (entry v') /\ forall x, (x < Nelem g)%nat -> entry v' x 0%nat = entry v (across g x) 0%nat.
Proof.
  intros g w pol n n' v v' (Hg & Hl & HN & H2 & b & L & U & B1 & B2 & B3 & SL & SU & NL & NU & LU & NE) HP I E E'.
    destruct (hartree_succeeds g (e_spL w) (e_spU w) b (mirror2 g n) B1 B3) as (S1 & S2).
    assert (OK : exists vm, v_hartree g (e_spL w) (e_spU w) (mirror g (A2 pol n)) = Ok vm). { change (mirror g (A2 pol n)) with (A2 pol (mirror2 g n)). destruct HP as [-> | ->]; [destruct S1 as (x & S1)|destruct S2 as (x & S2)]; eauto. }
    destruct OK as (vm & EM). pose proof (hartree_mirror_thm g b _ _ L U pol n v vm Hg Hl HN H2 B1 B2 B3 SL SU NL NU LU NE E EM) as MM. change (mirror g (A2 pol n)) with (A2 pol (mirror2 g n)) in EM.
    assert (P0 : (0 < pol)%nat) by lia.
    assert (Q : forall x s, (x < Nelem g)%nat -> (s < pol)%nat -> entry v' x s = entry vm x 0%nat /\ entry v (across g x) s = entry v (across g x) 0%nat /\ entry vm x 0%nat = entry v (across g x) 0%nat).
    { intros x s Hx Hs. split; [|split].
      - refine (proj1 (hartree_grid g _ _ L U pol (mirror2 g n) n' vm v' SL SU NL NU HP _ EM E' x s Hx Hs)). intros y Hy. apply sumR_ext. intros t Ht. rewrite I, mirror2_mirror1 by assumption. apply (across_at g (fun i => n i t)). exact Hy.
      - exact (proj2 (hartree_grid g _ _ L U pol n n v v SL SU NL NU HP (fun _ _ => eq_refl) E E (across g x) s (across_lt g x Hx) Hs)).
      - rewrite MM by exact Hx. assert (V : exists f, v = A2 pol f). { unfold v_hartree in E. destruct (_ || _); [discriminate|]. destruct (_ =? 0)%nat; [discriminate|]. injection E as <-. eauto. }
        destruct V as (f & ->). change (entry (mirror g (A2 pol f)) x 0%nat) with (mirror2 g f x 0%nat). rewrite mirror2_mirror1 by exact Hx. symmetry. apply (across_at g (fun i => f i 0%nat)). exact Hx. }
    split; [intros x s Hx Hs|intros x Hx]; [destruct (Q x s Hx Hs) as (-> & -> & ->)|destruct (Q x 0%nat Hx P0) as (-> & _ & ->)]; reflexivity.
Qed.
Lemma hxc_across : forall g w k, mirror_setting g w -> local_functionals w k -> (k_pol k = 1 \/ k_pol k = 2)%nat -> hxc_equivariant g w (k_opt k) (k_pol k) (across g) same.
Proof.
  intros g w k MS LF HP. pose proof MS as (Hg & Hl & HN & H2 & b & L & U & B1 & B2 & B3 & SL & SU & NL & NU & LU & NE). split.
  - intros id n n' e eps v e' eps' v' Hid I E E'. destruct (LF id Hid) as (F & HF & PW).
    destruct (xc_mirror g b (e_lib w) _ id _ n F e eps v Hg Hl HN ltac:(intros f; rewrite <- (integrate_across g f) by auto; apply integrate1_ext; intros; symmetry; apply across_at; auto) B1 B2 HF PW ltac:(auto) E) as (eps2 & v2 & E2 & _ & V2).
    assert (Q : forall x s, (x < Nelem g)%nat -> (s < k_pol k)%nat -> n' x s = mirror2 g n x s). { intros x s Hx Hs. rewrite I, mirror2_mirror1 by assumption. apply (across_at g (fun i => n i s)). exact Hx. }
    destruct (get_xc_grid g (e_lib w) _ id _ F _ _ _ _ _ _ _ _ HF PW Q E2 E') as (-> & V). split; [reflexivity|]. intros x s Hx Hs. rewrite V, V2 by assumption. symmetry. apply (across_at g (col v s)). exact Hx.
  - intros n n' v v' I E E'. exact (hartree_across g w (k_pol k) n n' v v' MS HP I E E').
Qed.

(** * Spin exchange *)
Definition other (j : nat) : nat := (1 - j)%nat.
Lemma id_map : forall g, point_map g same.
Proof. intros g. split; [auto|]. split; intros; reflexivity. Qed.
Lemma other_map : spin_map 2 2 other.
Proof. split; [apply perm_swap|]. split; [apply perm_swap|]. intros j Hj. unfold other. lia. Qed.
Lemma sym_other : forall g, sym_equivariant g 2 same other.
Proof.
  intros g n n' H x j Hx Hj. unfold sym_avgR, sym_avg. rewrite !mirror2_mirror1 by assumption. rewrite H by assumption.
  rewrite <- (across_at g (fun i => n' i j) x Hx), H by (auto using across_lt). rewrite <- (across_at g (fun i => n i (other j)) x Hx). reflexivity.
Qed.
(** Functionals that treat the two spins alike. *)
Definition spin_functionals (w : env) (k : ks) : Prop := forall id, id = o_xid (k_opt k) \/ id = o_cid (k_opt k) -> exists F, e_lib w id 2%nat = Ok F /\ pointwise 2 3 F /\ spin_symmetric F.
Definition hartree_setting (g : grid) (w : env) : Prop := exists L U, solver_for (Nelem g) L (e_spL w) /\ solver_for (Nelem g) U (e_spU w) /\ nonsing (Nelem g) L /\ nonsing (Nelem g) U.
Lemma hxc_other : forall g w k, hartree_setting g w -> spin_functionals w k -> hxc_equivariant g w (k_opt k) 2 same other.
Proof.
  intros g w k (L & U & SL & SU & NL & NU) LF. split.
  - intros id n n' e eps v e' eps' v' Hid I E E'. destruct (LF id Hid) as (F & HF & PW & SP). destruct (xc_spin_swap g (e_lib w) _ id n F e eps v HF SP E) as (eps2 & v2 & E2 & _ & V2).
    destruct (get_xc_grid g (e_lib w) _ id _ F _ n' _ _ _ _ _ _ HF PW I E2 E') as (-> & V). split; [reflexivity|]. intros x s Hx Hs. rewrite V, V2 by assumption. reflexivity.
  - intros n n' v v' I E E'. assert (Q : forall x s, (x < Nelem g)%nat -> (s < 2)%nat -> entry v' x s = entry v x 0%nat /\ entry v x s = entry v x 0%nat).
    { intros x s Hx Hs. apply (hartree_grid g _ _ L U 2 n n' v v' SL SU NL NU (or_intror eq_refl)); auto. intros y Hy. simpl. rewrite !I by auto. unfold other. simpl. ring. }
    split; [|intros x Hx; apply Q; auto]. intros x s Hx Hs. rewrite (proj1 (Q x s Hx Hs)). symmetry. apply Q; auto. unfold other. lia.
Qed.

(** * Objects *)
Lemma init_vnuc : forall g Za Zb pol lv cols Nmo lv' cols' N opt k, ks_init g Za Zb pol lv cols Nmo lv' cols' N opt = Ok k -> k_vnuc k = ks_vnuc g Za Zb pol (o_sym (k_opt k)).
Proof.
  intros g Za Zb pol lv cols Nmo lv' cols' N opt k H. unfold ks_init in H. destruct (configure KohnShamOptions opt) as [o|]; [|discriminate]. cbn [bind] in H.
  destruct (negb _); [discriminate|]. cbv zeta in H. destruct (Pssolver _ _ _ _ _); [|discriminate]. cbn [bind] in H. injection H as <-. reflexivity.
Qed.
Lemma init_opt : forall g Za Zb pol lv cols Nmo N Za' Zb' pol' lv1 cols1 Nmo1 N1 lv' cols' lv1' cols1' opt k k', ks_init g Za Zb pol lv cols Nmo lv' cols' N opt = Ok k -> ks_init g Za' Zb' pol' lv1 cols1 Nmo1 lv1' cols1' N1 opt = Ok k' -> k_opt k' = k_opt k.
Proof.
  intros until k'. intros H H'. unfold ks_init in *. destruct (configure KohnShamOptions opt) as [o|]; [|discriminate]. cbn [bind] in *.
  do 2 (destruct (negb _); [discriminate|]). cbv zeta in *. do 2 (destruct (Pssolver _ _ _ _ _); [|discriminate]). cbn [bind] in *. injection H as <-. injection H' as <-. reflexivity.
Qed.
Lemma vnuc_across : forall g Za Zb pol sym, image g (across g) same pol (ks_vnuc g Za Zb pol sym) (ks_vnuc g Zb Za pol sym).
Proof.
  intros g Za Zb pol sym. unfold ks_vnuc. cbv zeta. match goal with |- image _ _ _ _ (if sym then sym_avgR g ?a else _) (if sym then sym_avgR g ?b else _) => assert (I : image g (across g) same pol a b) end.
  { intros x j Hx Hj. cbv beta. assert (C : coulomb g Zb Za x = coulomb g Za Zb (across g x)) by (rewrite across_at by exact Hx; symmetry; apply coulomb_mirror, Hx). rewrite C. reflexivity. }
  destruct sym; [apply sym_across|]; exact I.
Qed.
Lemma vnuc_other : forall g Za Zb sym, image g same other 2 (ks_vnuc g Za Zb 2 sym) (ks_vnuc g Za Zb 2 sym).
Proof.
  intros g Za Zb sym. unfold ks_vnuc. cbv zeta. match goal with |- image _ _ _ _ (if sym then sym_avgR g ?a else _) _ => assert (I : image g same other 2 a a) end.
  { intros x j Hx Hj. cbv beta. destruct j as [|[|]]; try lia; reflexivity. }
  destruct sym; [apply sym_other|]; exact I.
Qed.
Lemma object_across : forall g Za Zb pol lv cols Nmo lv' cols' N opt k k', ks_init g Za Zb pol lv cols Nmo lv' cols' N opt = Ok k -> ks_init g Zb Za pol lv cols Nmo lv' cols' N opt = Ok k' -> image_object g (across g) same k k'.
Proof.
  intros g Za Zb pol lv cols Nmo lv' cols' N opt k k' H H'. pose proof (init_opt _ _ _ _ _ _ _ _ _ _ _ _ _ _ _ _ _ _ _ _ _ _ H H') as OO. pose proof (init_vnuc _ _ _ _ _ _ _ _ _ _ _ _ H) as V. pose proof (init_vnuc _ _ _ _ _ _ _ _ _ _ _ _ H') as V'.
  apply init_spec in H. destruct H as (o & C & _ & _ & A1 & A2 & A3 & A4 & A5 & _ & _ & _ & _ & _ & _ & _ & _ & _ & _ & _ & _ & P). apply init_spec in H'. destruct H' as (o' & C' & _ & _ & B1 & B2 & B3 & B4 & B5 & _ & _ & _ & _ & _ & _ & _ & _ & _ & _ & _ & _ & P').
  rewrite C in C'. injection C' as <-. split; [exact OO|]. split; [rewrite A1, A2, B1, B2; ring|]. split; [congruence|]. split; [congruence|]. split; [congruence|]. split; [rewrite V, V', OO, A3; apply vnuc_across|].
  intros i j Hp. destruct (P i j Hp) as (_ & Q1 & Q2 & Q3 & Q4 & Q5 & Q6 & _). assert (Hp' : place k' i j) by (unfold place in *; rewrite B4, B5, <- A4, <- A5; exact Hp). destruct (P' i j Hp') as (_ & R1 & R2 & R3 & R4 & R5 & R6 & _).
  unfold same_static. intuition congruence.
Qed.
Lemma object_other : forall g Za Zb lv Nmo Nmo' lv' cols' N N' opt k k', ks_init g Za Zb 2 lv 2 Nmo lv' cols' N opt = Ok k -> ks_init g Za Zb 2 lv 2 Nmo' lv' cols' N' opt = Ok k' ->
  (forall i j, (i < lv)%nat -> (j < 2)%nat -> Nmo' i j = Nmo i (other j) /\ N' i j = N i (other j)) -> image_object g same other k k'.
Proof.
  intros g Za Zb lv Nmo Nmo' lv' cols' N N' opt k k' H H' X. pose proof (init_opt _ _ _ _ _ _ _ _ _ _ _ _ _ _ _ _ _ _ _ _ _ _ H H') as OO. pose proof (init_vnuc _ _ _ _ _ _ _ _ _ _ _ _ H) as V. pose proof (init_vnuc _ _ _ _ _ _ _ _ _ _ _ _ H') as V'.
  apply init_spec in H. destruct H as (o & C & _ & _ & A1 & A2 & A3 & A4 & A5 & _ & _ & _ & _ & _ & _ & _ & _ & _ & _ & _ & _ & P). apply init_spec in H'. destruct H' as (o' & C' & _ & _ & B1 & B2 & B3 & B4 & B5 & _ & _ & _ & _ & _ & _ & _ & _ & _ & _ & _ & _ & P').
  rewrite C in C'. injection C' as <-. split; [exact OO|]. split; [rewrite A1, A2, B1, B2; ring|]. split; [congruence|]. split; [congruence|]. split; [congruence|]. split; [rewrite V, V', OO, A3; apply vnuc_other|].
  intros i j Hp. assert (Hp' : place k' i j) by (unfold place in *; rewrite B4, B5, <- A4, <- A5; exact Hp). unfold place in Hp. rewrite A4, A5 in Hp. destruct Hp as (Hi & Hj). destruct (X i j Hi Hj) as (X1 & X2).
  assert (Hq : place k i (other j)) by (unfold place, other; rewrite A4, A5; lia). destruct (P i _ Hq) as (_ & Q1 & Q2 & Q3 & Q4 & Q5 & Q6 & _). destruct (P' i j Hp') as (_ & R1 & R2 & R3 & R4 & R5 & R6 & _).
  unfold same_static. intuition congruence.
Qed.

(** * Runs *)
Definition alike (st st' : scst) : Prop := c_iter st' = c_iter st /\ c_oldE st' = c_oldE st /\ c_diff st' = c_diff st /\ ((1 < c_iter st)%Z -> k_u (c_ks st') = k_u (c_ks st)).
Theorem mirror_runs : forall g w Za Zb pol lv cols Nmo lv' cols' N opt k k' sched sched' d o st st', mirror_setting g w -> (pol = 1 \/ pol = 2)%nat ->
  ks_init g Za Zb pol lv cols Nmo lv' cols' N opt = Ok k -> ks_init g Zb Za pol lv cols Nmo lv' cols' N opt = Ok k' -> local_functionals w k -> equivariant g w (across g) ->
  ks_scf g w sched d k = Ok st -> ks_scf g w sched' d k' = Ok st' -> scf_options d = Ok o -> so_cont o = false -> so_flip o = false ->
  alike st st' /\ exists n n', k_n (c_ks st) = Some n /\ k_n (c_ks st') = Some n' /\ forall x s, (x < Nelem g)%nat -> (s < pol)%nat -> n' x s = mirror1 g (fun y => n y s) x.
Proof.
  intros g w Za Zb pol lv cols Nmo lv' cols' N opt k k' sched sched' d o st st' MS HP H H' LF EQ R R' O HC HF. pose proof (object_across _ _ _ _ _ _ _ _ _ _ _ _ _ H H') as OB.
  pose proof (init_spec _ _ _ _ _ _ _ _ _ _ _ _ H) as (o1 & _ & _ & _ & _ & _ & PP & _ & _ & _ & _ & _ & _ & _ & _ & VX & _). pose proof (init_spec _ _ _ _ _ _ _ _ _ _ _ _ H') as (o2 & _ & _ & _ & _ & _ & _ & _ & _ & _ & _ & _ & _ & _ & _ & VX' & _).
  assert (OV : image g (across g) same (k_pol k) (outer k) (outer k')) by (unfold outer; rewrite VX, VX'; intros x j _ _; reflexivity). assert (HP' : (k_pol k = 1 \/ k_pol k = 2)%nat) by (rewrite PP; exact HP).
  destruct (run_image g w (across g) same k k' (across_map g w MS) (same_map _ _) EQ OB (hxc_across g w k MS LF HP') (sym_across g _) OV sched sched' d o st st' R R' O HC HF) as (I & (L1 & L2 & _ & n & n' & N1 & N2 & L4) & U).
  split; [split; [exact I|split; [exact L1|split; [exact L2|apply U]]]|]. exists n, n'. split; auto. split; auto. intros x s Hx Hs. rewrite L4 by (rewrite ?PP; assumption). apply (across_at g (fun y => n y s)). exact Hx.
Qed.
Theorem mirror_symmetric : forall g w Z pol lv cols Nmo lv' cols' N opt k sched o st, mirror_setting g w -> (pol = 1 \/ pol = 2)%nat ->
  ks_init g Z Z pol lv cols Nmo lv' cols' N opt = Ok k -> local_functionals w k -> equivariant g w (across g) -> so_cont o = false -> so_flip o = false -> scf_trace g w o sched k st ->
  exists n, k_n (c_ks st) = Some n /\ forall x s, (x < Nelem g)%nat -> (s < pol)%nat -> mirror1 g (fun y => n y s) x = n x s.
Proof.
  intros g w Z pol lv cols Nmo lv' cols' N opt k sched o st MS HP H LF EQ HC HF T. pose proof (object_across _ _ _ _ _ _ _ _ _ _ _ _ _ H H) as OB.
  pose proof (init_spec _ _ _ _ _ _ _ _ _ _ _ _ H) as (o1 & _ & _ & _ & _ & _ & PP & _ & _ & _ & _ & _ & _ & _ & _ & VX & _).
  assert (OV : image g (across g) same (k_pol k) (outer k) (outer k)) by (unfold outer; rewrite VX; intros x j _ _; reflexivity). assert (HP' : (k_pol k = 1 \/ k_pol k = 2)%nat) by (rewrite PP; exact HP).
  destruct (run_lockstep g w (across g) same k k (across_map g w MS) (same_map _ _) EQ OB (hxc_across g w k MS LF HP') (sym_across g _) OV o sched sched st st HC HF T T eq_refl) as ((_ & _ & _ & n & n' & N1 & N2 & L4) & _).
  assert (n' = n) by congruence. subst n'. exists n. split; auto. intros x s Hx Hs. rewrite (L4 x s) by (rewrite ?PP; assumption). symmetry. apply (across_at g (fun y => n y s)). exact Hx.
Qed.
Theorem spin_runs : forall g w Za Zb lv Nmo Nmo' lv' cols' N N' opt k k' sched sched' d o st st', hartree_setting g w ->
  ks_init g Za Zb 2 lv 2 Nmo lv' cols' N opt = Ok k -> ks_init g Za Zb 2 lv 2 Nmo' lv' cols' N' opt = Ok k' -> (forall i j, (i < lv)%nat -> (j < 2)%nat -> Nmo' i j = Nmo i (1 - j)%nat /\ N' i j = N i (1 - j)%nat) ->
  spin_functionals w k -> equivariant g w same -> ks_scf g w sched d k = Ok st -> ks_scf g w sched' d k' = Ok st' -> scf_options d = Ok o -> so_cont o = false -> so_flip o = false ->
  alike st st' /\ exists n n', k_n (c_ks st) = Some n /\ k_n (c_ks st') = Some n' /\ forall x s, (x < Nelem g)%nat -> (s < 2)%nat -> n' x s = n x (1 - s)%nat.
Proof.
  intros g w Za Zb lv Nmo Nmo' lv' cols' N N' opt k k' sched sched' d o st st' HS H H' X LF EQ R R' O HC HF. pose proof (object_other _ _ _ _ _ _ _ _ _ _ _ _ _ H H' X) as OB.
  pose proof (init_spec _ _ _ _ _ _ _ _ _ _ _ _ H) as (o1 & _ & _ & _ & _ & _ & PP & _ & PC & _ & _ & _ & _ & _ & _ & VX & _). pose proof (init_spec _ _ _ _ _ _ _ _ _ _ _ _ H') as (o2 & _ & _ & _ & _ & _ & _ & _ & _ & _ & _ & _ & _ & _ & _ & VX' & _).
  assert (OV : image g same other (k_pol k) (outer k) (outer k')) by (unfold outer; rewrite VX, VX'; intros x j _ _; reflexivity).
  assert (SM : spin_map (k_pol k) (k_cols k) other) by (rewrite PP, PC; apply other_map). assert (HX : hxc_equivariant g w (k_opt k) (k_pol k) same other) by (rewrite PP; apply hxc_other; auto). assert (SY : sym_equivariant g (k_pol k) same other) by (rewrite PP; apply sym_other).
  destruct (run_image g w same other k k' (id_map g) SM EQ OB HX SY OV sched sched' d o st st' R R' O HC HF) as (I & (L1 & L2 & _ & n & n' & N1 & N2 & L4) & U).
  split; [split; [exact I|split; [exact L1|split; [exact L2|apply U]]]|]. exists n, n'. split; auto. split; auto. intros x s Hx Hs. apply L4; [|rewrite PP]; assumption.
Qed.
Theorem closed_shell : forall g w Za Zb lv Nmo lv' cols' N opt k sched o st, hartree_setting g w ->
  ks_init g Za Zb 2 lv 2 Nmo lv' cols' N opt = Ok k -> (forall i, (i < lv)%nat -> Nmo i 0%nat = Nmo i 1%nat /\ N i 0%nat = N i 1%nat) ->
  spin_functionals w k -> equivariant g w same -> so_cont o = false -> so_flip o = false -> scf_trace g w o sched k st ->
  (exists n, k_n (c_ks st) = Some n /\ forall x, (x < Nelem g)%nat -> n x 0%nat = n x 1%nat) /\
  ((1 < c_iter st)%Z -> forall i m, (i < lv)%nat -> eig_at (k_sol (c_ks st) i 0%nat) m = eig_at (k_sol (c_ks st) i 1%nat) m).
Proof.
  intros g w Za Zb lv Nmo lv' cols' N opt k sched o st HS H X LF EQ HC HF T.
  assert (X' : forall i j, (i < lv)%nat -> (j < 2)%nat -> Nmo i j = Nmo i (other j) /\ N i j = N i (other j)). { intros i j Hi Hj. destruct (X i Hi) as (X1 & X2). destruct j as [|[|]]; try lia; cbn [other Nat.sub]; auto. }
  pose proof (object_other _ _ _ _ _ _ _ _ _ _ _ _ _ H H X') as OB. pose proof (init_spec _ _ _ _ _ _ _ _ _ _ _ _ H) as (o1 & _ & _ & _ & _ & _ & PP & PL & PC & _ & _ & _ & _ & _ & _ & VX & _).
  assert (OV : image g same other (k_pol k) (outer k) (outer k)) by (unfold outer; rewrite VX; intros x j _ _; reflexivity).
  assert (SM : spin_map (k_pol k) (k_cols k) other) by (rewrite PP, PC; apply other_map). assert (HX : hxc_equivariant g w (k_opt k) (k_pol k) same other) by (rewrite PP; apply hxc_other; auto). assert (SY : sym_equivariant g (k_pol k) same other) by (rewrite PP; apply sym_other).
  destruct (run_lockstep g w same other k k (id_map g) SM EQ OB HX SY OV o sched sched st st HC HF T T eq_refl) as ((_ & _ & _ & n & n' & N1 & N2 & L4) & U).
  split.
  - assert (n' = n) by congruence. subst n'. exists n. split; auto. intros x Hx. apply (L4 x 0%nat); [|rewrite PP]; auto.
  - intros Hi i m Hl. destruct (U Hi) as (_ & E). apply (E i 0%nat m). split; [rewrite PL; exact Hl|rewrite PC; auto].
Qed.
