(** Properties C68, C74, C75, C76: exchange-correlation energy and potential. *)
From Coq Require Import Reals List Arith Lia Lra ZArith Bool String.
From Coquelicot Require Import Coquelicot.
From Verif Require Import Base BaseLemmas GridModel Poly GridSpec GridProofs NCProofs FDProofs OpProofs GridWitness GridMore
  HartreeModel LibxcModel LibxcSpec Green LibxcProofs LibxcThms.
Import ListNotations.
Local Open Scope R_scope.

(** * C68 *)
Theorem C68_lda : forall (g : grid) lib id pol n F, lib id pol = Ok F ->
  exists e eps v, get_xc g lib "lda" id pol n = Ok (e, eps, v) /\
    integrate g (A1 (fun k => eps k * sumR pol (fun s => n k s))) = IScal e /\
    (forall k, eps k = xc_zk (F n None) k) /\ forall k s, v k s = xc_vrho (F n None) k s.
Proof.
  intros g lib id pol n F H. rewrite (get_xc_lda _ _ _ _ _ F H). do 3 eexists. split; [reflexivity|]. split; auto.
  simpl. f_equal. apply integrate1_ext. intros. unfold sum_cols. rewrite <- sumR_scal. apply sumR_ext. intros; ring.
Qed.
Print Assumptions C68_lda.
Theorem C68_gga_one_spin : forall (g : grid) b lib id n F, grid_ok g -> fd_ok g b -> (b <= Na g)%nat -> lib id 1%nat = Ok F ->
  exists sg e eps v, sigma g 1 n = Ok (1%nat, sg) /\ get_xc g lib "gga" id 1 n = Ok (e, eps, v) /\
    e = integrate1 g (fun k => xc_zk (F n (Some sg)) k * n k 0%nat) /\ eps = xc_zk (F n (Some sg)) /\
    forall u, vdot g u (col v 0) = vdot g u (col (xc_vrho (F n (Some sg))) 0)
       + 2 * dirichlet g (col (xc_vsigma (F n (Some sg))) 0) u (col n 0).
Proof. exact get_xc_gga1. Qed.
Print Assumptions C68_gga_one_spin.
Theorem C68_gga_two_spins : forall (g : grid) b lib id n F, grid_ok g -> fd_ok g b -> (b <= Na g)%nat -> lib id 2%nat = Ok F ->
  exists sg e eps v, sigma g 2 n = Ok (3%nat, sg) /\ get_xc g lib "gga" id 2 n = Ok (e, eps, v) /\
    e = integrate1 g (fun k => xc_zk (F n (Some sg)) k * (n k 0%nat + n k 1%nat)) /\ eps = xc_zk (F n (Some sg)) /\
    forall u, let vr := xc_vrho (F n (Some sg)) in let vs := xc_vsigma (F n (Some sg)) in
       vdot g u (col v 0) = vdot g u (col vr 0) + 2 * dirichlet g (col vs 0) u (col n 0) + dirichlet g (col vs 1) u (col n 1) /\
       vdot g u (col v 1) = vdot g u (col vr 1) + 2 * dirichlet g (col vs 2) u (col n 1) + dirichlet g (col vs 1) u (col n 0).
Proof. exact get_xc_gga2. Qed.
Print Assumptions C68_gga_two_spins.
(** the weak forms above determine the potential *)
Theorem C68_weak_form_determines : forall (g : grid) f f', grid_ok g -> (forall u, vdot g u f = vdot g u f') ->
  forall k, (k < Nelem g)%nat -> f k = f' k.
Proof. exact vdot_inj. Qed.
Print Assumptions C68_weak_form_determines.
Theorem C68_spin_exchange : forall (g : grid) lib fam id n F e eps v, lib id 2%nat = Ok F -> spin_symmetric F ->
  get_xc g lib fam id 2 n = Ok (e, eps, v) ->
  exists eps' v', get_xc g lib fam id 2 (swap2 n) = Ok (e, eps', v') /\ (forall k, eps' k = eps k) /\
    forall k s, (s < 2)%nat -> v' k s = v k (1 - s)%nat.
Proof. exact xc_spin_swap. Qed.
Print Assumptions C68_spin_exchange.
Theorem C68_other_family : forall (g : grid) lib fam id pol n F, lib id pol = Ok F ->
  fam <> "lda"%string -> (fam <> "gga"%string \/ (pol <> 1 /\ pol <> 2)%nat) -> get_xc g lib fam id pol n = Err ValueError.
Proof.
  intros g lib fam id pol n F HF HL [HG|[H1 H2]].
  - apply (get_xc_other _ _ _ _ _ _ F); auto.
  - destruct (string_dec fam "gga") as [->|HG]; [apply (get_xc_gga_pol _ _ _ _ _ F); auto|apply (get_xc_other _ _ _ _ _ _ F); auto].
Qed.
Print Assumptions C68_other_family.
Lemma C68_witness : grid_ok g_test /\ fd_ok g_test 4 /\ (4 <= Na g_test)%nat /\
  lib_ex 0%nat 1%nat = Ok (ex_F 1) /\ lib_ex 0%nat 2%nat = Ok (ex_F 2) /\ spin_symmetric (ex_F 2).
Proof.
  split; [apply g_test_ok|]. split; [apply g_test_fd|]. split; [compute; lia|]. split; [reflexivity|]. apply ex_spin.
Qed.

(** * C74 *)
Theorem C74_green : forall (g : grid) b s u f, grid_ok g -> fd_ok g b -> (b <= Na g)%nat ->
  let flux_a := fun j => s j * gapply g (grada g) f j in
  let flux_r := fun j => s j * gapply g (gradr g) f j in
  vdot g u (fun k => gapply g (diva g) flux_a k + gapply g (divr g) flux_r k) = - dirichlet g s u f.
Proof. exact green_s. Qed.
Print Assumptions C74_green.
Theorem C74_self_adjoint : forall (g : grid) b s u f, grid_ok g -> fd_ok g b -> (b <= Na g)%nat ->
  let A f := fun k => gapply g (diva g) (fun j => s j * gapply g (grada g) f j) k + gapply g (divr g) (fun j => s j * gapply g (gradr g) f j) k in
  vdot g u (A f) = vdot g f (A u).
Proof.
  intros g b s u f Hg Hf Hb A. pose proof (green_s g b s u f Hg Hf Hb) as E1. pose proof (green_s g b s f u Hg Hf Hb) as E2.
  unfold div_s_grad in E1, E2. unfold A. rewrite E1, E2, dirichlet_sym. reflexivity.
Qed.
Print Assumptions C74_self_adjoint.
Theorem C74_dissipative : forall (g : grid) b s u, grid_ok g -> fd_ok g b -> (b <= Na g)%nat -> (forall k, (k < Nelem g)%nat -> 0 <= s k) ->
  vdot g u (fun k => gapply g (diva g) (fun j => s j * gapply g (grada g) u j) k + gapply g (divr g) (fun j => s j * gapply g (gradr g) u j) k) <= 0.
Proof.
  intros g b s u Hg Hf Hb Hs. pose proof (green_s g b s u u Hg Hf Hb) as E. unfold div_s_grad in E. rewrite E.
  pose proof (dirichlet_nonneg g s u Hg Hs). lra.
Qed.
Print Assumptions C74_dissipative.
Lemma C74_witness : grid_ok g_test /\ fd_ok g_test 4 /\ (4 <= Na g_test)%nat /\ forall k, (k < Nelem g_test)%nat -> 0 <= gZ g_test k ^ 2.
Proof.
  split; [apply g_test_ok|]. split; [apply g_test_fd|]. split; [compute; lia|]. intros. apply pow2_ge_0.
Qed.

(** * C75 *)
Theorem C75_lda_one_spin : forall (g : grid) lib id F (e v : R -> R) (n d : mat), lib id 1%nat = Ok F ->
  (forall n k, xc_zk (F n None) k = e (n k 0%nat)) -> (forall n k, xc_vrho (F n None) k 0%nat = v (n k 0%nat)) ->
  (forall k, (k < Nelem g)%nat -> is_derive (fun r => r * e r) (n k 0%nat) (v (n k 0%nat))) ->
  exists E eps vx, (forall t, get_xc g lib "lda" id 1 (line n d t) = Ok (E t, eps t, vx t)) /\
    is_derive E 0 (integrate1 g (fun k => vx 0 k 0%nat * d k 0%nat)).
Proof. exact lda1_at. Qed.
Print Assumptions C75_lda_one_spin.
Theorem C75_lda_two_spins : forall (g : grid) lib id F (e v0 v1 : R -> R -> R) (n d : mat), lib id 2%nat = Ok F ->
  (forall n k, xc_zk (F n None) k = e (n k 0%nat) (n k 1%nat)) ->
  (forall n k, xc_vrho (F n None) k 0%nat = v0 (n k 0%nat) (n k 1%nat)) ->
  (forall n k, xc_vrho (F n None) k 1%nat = v1 (n k 0%nat) (n k 1%nat)) ->
  (forall k, (k < Nelem g)%nat -> differentiable_pt_lim (fun x y => (x + y) * e x y) (n k 0%nat) (n k 1%nat)
     (v0 (n k 0%nat) (n k 1%nat)) (v1 (n k 0%nat) (n k 1%nat))) ->
  exists E eps vx, (forall t, get_xc g lib "lda" id 2 (line n d t) = Ok (E t, eps t, vx t)) /\
    is_derive E 0 (integrate1 g (fun k => vx 0 k 0%nat * d k 0%nat + vx 0 k 1%nat * d k 1%nat)).
Proof. exact lda2_at. Qed.
Print Assumptions C75_lda_two_spins.
(** gga: the functional differentiated is the sum of n * epsilon with the volume element and unit quadrature weights *)
Theorem C75_gga_one_spin : forall (g : grid) b lib id F (e vr vs : R -> R -> R) (n d : mat), grid_ok g -> fd_ok g b -> (b <= Na g)%nat -> lib id 1%nat = Ok F ->
  (forall n sg k, xc_zk (F n (Some sg)) k = e (n k 0%nat) (sg k 0%nat)) ->
  (forall n sg k, xc_vrho (F n (Some sg)) k 0%nat = vr (n k 0%nat) (sg k 0%nat)) ->
  (forall n sg k, xc_vsigma (F n (Some sg)) k 0%nat = vs (n k 0%nat) (sg k 0%nat)) ->
  (forall x y, differentiable_pt_lim (fun r s => r * e r s) x y (vr x y) (vs x y)) ->
  exists E eps vx, (forall t, get_xc g lib "gga" id 1 (line n d t) = Ok (E t, eps t, vx t)) /\
    is_derive (fun t => vdot g (col (line n d t) 0) (eps t)) 0 (vdot g (col d 0) (col (vx 0) 0)).
Proof. exact gga1_at. Qed.
Print Assumptions C75_gga_one_spin.
Lemma C75_witness : grid_ok g_test /\ fd_ok g_test 4 /\ (4 <= Na g_test)%nat /\ lib_ex 0%nat 1%nat = Ok (ex_F 1) /\
  (forall n k, xc_zk (ex_F 1 n None) k = n k 0%nat /\ xc_vrho (ex_F 1 n None) k 0%nat = 2 * n k 0%nat /\
     is_derive (fun r => r * r) (n k 0%nat) (2 * n k 0%nat)) /\
  (forall n sg k, xc_zk (ex_F 1 n (Some sg)) k = n k 0%nat + sg k 0%nat /\
    xc_vrho (ex_F 1 n (Some sg)) k 0%nat = 2 * n k 0%nat + sg k 0%nat /\ xc_vsigma (ex_F 1 n (Some sg)) k 0%nat = n k 0%nat) /\
  forall x y, differentiable_pt_lim (fun r s => r * (r + s)) x y (2 * x + y) x.
Proof.
  split; [apply g_test_ok|]. split; [apply g_test_fd|]. split; [compute; lia|]. split; [reflexivity|]. split; [exact ex_lda|exact ex_gga].
Qed.

(** * C76 *)
Theorem C76_xc_mirror : forall (g : grid) b lib fam id pol n F e eps v, grid_ok g -> lstsq_ok g -> gNMa g = gNMr g -> (2 <= gNMa g)%nat ->
  fd_ok g b -> (b <= Na g)%nat -> lib id pol = Ok F -> pointwise pol (2 * pol - 1) F ->
  (fam = "gga"%string -> pol = 1%nat \/ pol = 2%nat) ->
  get_xc g lib fam id pol n = Ok (e, eps, v) ->
  exists eps' v', get_xc g lib fam id pol (mirror2 g n) = Ok (e, eps', v') /\
    (forall k, (k < Nelem g)%nat -> eps' k = mirror1 g eps k) /\
    forall k s, (k < Nelem g)%nat -> (s < pol)%nat -> v' k s = mirror1 g (col v s) k.
Proof.
  intros g b lib fam id pol n F e eps v Hg Hl HN H2. apply xc_mirror; auto. intros f. apply (integrate1_mirror g f HN).
  intros i Hi. unfold wa. apply (nc_palin (gNP g) (gNMa g)); auto; try apply Hg; try apply Hl. apply nc_NP_ge; auto. apply Hg.
Qed.
Print Assumptions C76_xc_mirror.
Lemma C76_witness : grid_ok g_test /\ lstsq_ok g_test /\ gNMa g_test = gNMr g_test /\ (2 <= gNMa g_test)%nat /\
  fd_ok g_test 4 /\ (4 <= Na g_test)%nat /\
  lib_ex 0%nat 1%nat = Ok (ex_F 1) /\ pointwise 1 1 (ex_F 1) /\ lib_ex 0%nat 2%nat = Ok (ex_F 2) /\ pointwise 2 3 (ex_F 2).
Proof.
  split; [apply g_test_ok|]. split; [apply g_test_lstsq|]. split; [reflexivity|]. split; [compute; lia|].
  split; [apply g_test_fd|]. split; [compute; lia|]. split; [reflexivity|].
  split; [apply (ex_point 1); auto|]. split; [reflexivity|]. apply (ex_point 2); auto.
Qed.
