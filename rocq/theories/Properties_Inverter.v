(** Properties C62-C67, C77-C80 and C94: the inverter. *)
From Coq Require Import Reals List Arith Lia Lra ZArith Bool String.
From Verif Require Import Base BaseLemmas GridModel GridSpec SolverModel SolverSpec SolverProofs SolverWitness SolverCases GridProofs GridWitness SolverThms OptionsModel OptionsProofs KSModel KSSpec InverterModel InverterSpec InverterOrb InverterLoop InverterRun InverterThms InverterMore InverterWit InverterStep.
Import ListNotations.
Local Open Scope string_scope.
Local Open Scope R_scope.
Local Opaque sinh cosh.

(** * C62: the Newton system of orbitalinvert *)
Theorem C62_jacobian_is_derivative :
  forall (g : grid) (M : nat) (H0 : mat) (n0 occ x d : vec) (r : nat),
  (r < x_len (Nelem g) M)%nat ->
  (forall i : nat, (0 < i < M - 1)%nat -> r <> norm_row (Nelem g) M i) ->
  quadratic_step (fun t : R => o_eqn g M H0 n0 occ (along x d t) r) (jrow g M H0 x d r).
Proof. exact @jacobian_exact. Qed.
Print Assumptions C62_jacobian_is_derivative.
(** The norm rows 0 < i < M-1 of the residual look at orbital 0 only, their Jacobian rows at orbital i. *)
Theorem C62_norm_rows_refuted :
  forall (g : grid) (M : nat) (H0 : mat) (n0 occ x : vec) (i k : nat),
  (0 < i < M - 1)%nat ->
  (k < Nelem g)%nat ->
  0 < weight g k ->
  orb (Nelem g) x i k <> 0 ->
  exists d : vec,
    jrow g M H0 x d (norm_row (Nelem g) M i) <> 0 /\
    (forall t : R,
     o_eqn g M H0 n0 occ (along x d t) (norm_row (Nelem g) M i) = o_eqn g M H0 n0 occ x (norm_row (Nelem g) M i)).
Proof. exact @jacobian_wrong. Qed.
Print Assumptions C62_norm_rows_refuted.
Theorem C62_jacobian_symmetric :
  forall (g : grid) (M : nat) (H0 : nat -> nat -> R) (x : vec),
  (forall k l : nat, (k < Nelem g)%nat -> (l < Nelem g)%nat -> gwi g k * H0 k l = gwi g l * H0 l k) ->
  forall r c : nat, (r < x_len (Nelem g) M)%nat -> (c < x_len (Nelem g) M)%nat -> o_jac g M H0 x r c = o_jac g M H0 x c r.
Proof. exact @jac_symmetric. Qed.
Print Assumptions C62_jacobian_symmetric.
Theorem C62_zero_is_inverse :
  forall (g : grid) (M : nat) (H0 : mat) (n0 occ x : vec),
  full_quadrature g ->
  (1 <= M)%nat ->
  (forall r : nat, (r < x_len (Nelem g) M)%nat -> o_eqn g M H0 n0 occ x r = 0) ->
  (forall i : nat, (i < M)%nat -> eigenpair g H0 (pot (Nelem g) M x) (eigv (Nelem g) M x i) (orb (Nelem g) x i)) /\
  (forall k : nat, (k < Nelem g)%nat -> sumR M (fun i : nat => orb (Nelem g) x i k ^ 2) = n0 k) /\
  ((2 <= M)%nat -> integrate1 g (fun k : nat => orb (Nelem g) x 0 k ^ 2) = occ 0%nat).
Proof. exact @zero_solves. Qed.
Print Assumptions C62_zero_is_inverse.
Theorem C62_kohn_sham_rows :
  forall (g : grid) (M : nat) (H0 : mat) (n0 occ x : vec) (i k : nat),
  (i < M)%nat ->
  (k < Nelem g)%nat ->
  o_eqn g M H0 n0 occ x (ks_row (Nelem g) i k) =
  2 * PI * hr g * ha g * gwi g k * schroed g H0 (pot (Nelem g) M x) (eigv (Nelem g) M x i) (orb (Nelem g) x i) k.
Proof. exact @eqn_ks_schroed. Qed.
Print Assumptions C62_kohn_sham_rows.
Theorem C62_norm_rows :
  forall (g : grid) (M : nat) (H0 : mat) (n0 occ x : vec) (i : nat),
  (i < M - 1)%nat ->
  o_eqn g M H0 n0 occ x (norm_row (Nelem g) M i) = (occ i - integrate1 g (fun k : nat => orb (Nelem g) x 0 k ^ 2)) / 2.
Proof. exact @eqn_norm. Qed.
Print Assumptions C62_norm_rows.
Theorem C62_density_rows :
  forall (g : grid) (M : nat) (H0 : mat) (n0 occ x : vec) (k : nat),
  o_eqn g M H0 n0 occ x (dens_row (Nelem g) M k) = weight g k * (sumR M (fun i : nat => orb (Nelem g) x i k ^ 2) - n0 k) / 2.
Proof. exact @eqn_dens. Qed.
Print Assumptions C62_density_rows.
Lemma C62_witness : full_quadrature g22 /\ (1 <= 1)%nat /\
  (exists x, forall r, (r < x_len (Nelem g22) 1)%nat -> o_eqn g22 1 (hamiltonian g22 0) (fun _ => 1) (fun _ => 2) x r = 0) /\
  (0 < 1 < 3 - 1)%nat /\ (0 < Nelem g22)%nat /\ 0 < weight g22 0 /\ orb (Nelem g22) (fun _ => 1) 1 0%nat <> 0 /\
  (forall k l, (k < Nelem g22)%nat -> (l < Nelem g22)%nat -> gwi g22 k * (INR (k + l) / gwi g22 k) = gwi g22 l * (INR (l + k) / gwi g22 l)).
Proof.
  split; [apply g22_full|]. split; [lia|]. split; [apply wit_zero|]. split; [lia|]. rewrite g22_n. split; [lia|].
  split; [apply g22_full; rewrite g22_n; lia|]. split; [unfold orb; lra|].
  intros k l Hk Hl. rewrite <- g22_n in Hk, Hl. rewrite !g22_gwi by auto. rewrite (Nat.add_comm k l). reflexivity.
Qed.

(** * C63: normalisation and symmetrisation *)
Theorem C63_normalize_when :
  forall (g : grid) (M : nat) (occ x : vec),
  is_ok (normalize g M occ x) <-> (forall i : nat, (i < M)%nat -> 0 < integrate1 g (fun k : nat => orb (Nelem g) x i k ^ 2)).
Proof. exact @normalize_ok_iff. Qed.
Print Assumptions C63_normalize_when.
Theorem C63_normalize :
  forall (g : grid) (M : nat) (occ x y : vec),
  normalize g M occ x = Ok y ->
  (forall i : nat, (i < M)%nat -> 0 <= occ i -> integrate1 g (fun k : nat => orb (Nelem g) y i k ^ 2) = occ i) /\
  (forall i : nat,
   (i < M)%nat ->
   exists c : R,
     0 <= c /\ (0 < occ i -> 0 < c) /\ (forall k : nat, (k < Nelem g)%nat -> orb (Nelem g) y i k = c * orb (Nelem g) x i k)) /\
  (forall i : nat, eigv (Nelem g) M y i = eigv (Nelem g) M x i) /\
  (forall k : nat, pot (Nelem g) M y k = pot (Nelem g) M x k).
Proof. exact @normalize_spec. Qed.
Print Assumptions C63_normalize.
Theorem C63_symmetrize :
  forall (g : grid) (M : nat) (x y : vec),
  ab_symmetrize g M x = Ok y ->
  (forall i : nat,
   (i < M)%nat -> (even_col g (orb (Nelem g) y i) \/ odd_col g (orb (Nelem g) y i)) /\ nrm g (orb (Nelem g) y i) = 1) /\
  (forall i : nat, eigv (Nelem g) M y i = eigv (Nelem g) M x i) /\
  even_col g (pot (Nelem g) M y) /\
  (forall k : nat, (k < Nelem g)%nat -> pot (Nelem g) M y k = (pot (Nelem g) M x k + mirror1 g (pot (Nelem g) M x) k) / 2).
Proof. exact @ab_sym_spec. Qed.
Print Assumptions C63_symmetrize.
Theorem C63_symmetrize_apart :
  forall (g : grid) (M : nat) (x y : vec) (i : nat),
  ab_symmetrize g M x = Ok y ->
  apart M (eigv (Nelem g) M x) ->
  (i < M)%nat ->
  let p := orb (Nelem g) x i in
  let e := fun k : nat => p k + mirror1 g p k in
  let o := fun k : nat => p k - mirror1 g p k in
  (0 < sumR (Nelem g) (fun k : nat => p k * mirror1 g p k) ->
   forall k : nat, (k < Nelem g)%nat -> orb (Nelem g) y i k = e k / nrm g e) /\
  (sumR (Nelem g) (fun k : nat => p k * mirror1 g p k) <= 0 ->
   forall k : nat, (k < Nelem g)%nat -> orb (Nelem g) y i k = o k / nrm g o).
Proof. exact @ab_sym_apart. Qed.
Print Assumptions C63_symmetrize_apart.
(** Two degenerate orbitals of the same parity give NaN. *)
Theorem C63_symmetrize_degenerate_refuted :
  forall (g : grid) (x : vec),
  (0 < Nelem g)%nat ->
  Rabs (eigv (Nelem g) 2 x 0) < / 10 ^ 6 ->
  even_col g (orb (Nelem g) x 0) -> even_col g (orb (Nelem g) x 1) -> ab_symmetrize g 2 x = Err NotFinite.
Proof. exact @ab_sym_nan. Qed.
Print Assumptions C63_symmetrize_degenerate_refuted.
Lemma C63_witness : (forall i, (i < 1)%nat -> 0 < integrate1 g22 (fun k => orb (Nelem g22) (fun _ => 1) i k ^ 2)) /\
  (exists y, ab_symmetrize g22 1 (x_pack (Nelem g22) 1 (fun _ _ => 1) (fun _ => 0) (fun k => INR k)) = Ok y) /\
  apart 1 (fun _ => 0) /\
  exists x, Rabs (eigv (Nelem g22) 2 x 0) < / 10 ^ 6 /\ even_col g22 (orb (Nelem g22) x 0) /\ even_col g22 (orb (Nelem g22) x 1) /\
    0 < integrate1 g22 (fun k => orb (Nelem g22) x 0 k ^ 2).
Proof.
  split; [intros; apply (const_norm 1); lra|]. split; [apply wit_sym|]. split; [intros i Hi; lia|].
  eexists. exact wit_nan.
Qed.

(** * C64: the loop of orbitalinvert and its flag *)
Theorem C64_loop :
  forall (X : Type) (o : invopt) (kres : X -> num * num) (update : bool -> X -> res X) (x0 : X) (P : X -> Prop),
  P x0 ->
  (forall (b : bool) (x x' : X), P x -> update b x = Ok x' -> P x') ->
  o_loop o kres update (o_fuel o) (o_start x0) <> Ok None /\
  (forall st : oloop X,
   o_loop o kres update (o_fuel o) (o_start x0) = Ok (Some st) ->
   (1 <= ol_iter st)%nat /\
   (Z.of_nat (ol_iter st) <= Z.max 1 (io_maxit o))%Z /\
   (exists x : X,
      P x /\
      ol_res st = pymax (fst (kres x)) (snd (kres x)) /\
      (ol_x st = x /\ (gtb (Fin (io_tol o)) (ol_res st) = true \/ (io_maxit o <= Z.of_nat (ol_iter st))%Z) \/
       gtb (ol_res st) (Fin 100) = true /\
       gtb (Fin (io_tol o)) (ol_res st) = false /\
       (Z.of_nat (ol_iter st) < io_maxit o)%Z /\ (exists b : bool, update b x = Ok (ol_x st))))).
Proof. exact @loop_result. Qed.
Print Assumptions C64_loop.
Theorem C64_choice :
  forall (X : Type) (o : invopt) (kres : X -> num * num) (update : bool -> X -> res X) (l : list X) (st st' : oloop X),
  passes o kres update l st ->
  o_step o kres update st = Ok (st', false) ->
  let ks := fst (kres (ol_x st)) in
  let n := snd (kres (ol_x st)) in
  exists b : bool,
    update b (ol_x st) = Ok (ol_x st') /\
    (io_avoid o = false -> b = newton_wanted o ks n) /\
    (io_avoid o = true ->
     forall k0 n0 : R,
     ks = Fin k0 ->
     n = Fin n0 ->
     match l with
     | [] => b = newton_wanted o ks n
     | [x1] => b = newton_wanted o ks n
     | x1 :: x2 :: _ =>
         forall k1 k2 n2 : R,
         fst (kres x1) = Fin k1 ->
         kres x2 = (Fin k2, Fin n2) -> b = true <-> newton_wanted o ks n = true \/ stalled k0 n0 k1 k2 n2
     end).
Proof. exact @step_choice. Qed.
Print Assumptions C64_choice.
Theorem C64_success :
  forall (g : grid) (E : invenv) (n0 phi0 : vec) (e0 : nat * vec) (vs0 : option (arr R)) (sp : nat) 
    (iv iv' : inverter) (out : invout),
  orbitalinvert g E n0 phi0 e0 vs0 sp iv = Ok (iv', true, out) ->
  io_tol (i_opt iv) <= 100 ->
  let s := i_sol iv 0 sp in
  let s' := i_sol iv' 0 sp in
  let M := s_Nmo s in
  s_N s = INR M * shell_size 0 (s_pol s) ->
  exists (p : nat -> vec) (e n : vec),
    s_phi s' = Some (M, p) /\
    s_eig s' = Some (M, e) /\
    calc_density g s' = Ok n /\
    (forall i k : nat,
     (i < M)%nat ->
     (k < Nelem g)%nat ->
     Rabs (2 * PI * hr g * ha g * gwi g k * schroed g (hamiltonian g 0) (s_veff s') (e i) (p i) k) <= io_tol (i_opt iv)) /\
    (forall i : nat, (i < M)%nat -> integrate1 g (fun k : nat => p i k ^ 2) = 2) /\
    (forall k : nat,
     (k < Nelem g)%nat ->
     Rabs (weight g k * ((if (s_pol s =? 1)%nat then n k else 2 * n k) - n0 k)) <= 2 * io_tol (i_opt iv)) /\
    ((1 <= M)%nat -> e (M - 1)%nat = 0 /\ get_homo s' = Ok 0).
Proof. exact @orbital_success. Qed.
Print Assumptions C64_success.
(** A NaN Kohn-Sham residual runs to the iteration limit and is then reported as success. *)
Theorem C64_nan_refuted :
  forall (X : Type) (o : invopt) (kres : X -> num * num) (update : bool -> X -> res X) (x0 : X) (st : oloop X),
  (forall x : X, fst (kres x) = NaN) ->
  o_loop o kres update (o_fuel o) (o_start x0) = Ok (Some st) ->
  gtb (ol_res st) (Fin (io_tol o)) = false /\ (io_maxit o <= Z.of_nat (ol_iter st))%Z.
Proof. exact @loop_nan. Qed.
Print Assumptions C64_nan_refuted.
Theorem C64_nan_density_refuted :
  forall (X : Type) (o : invopt) (kres : X -> num * num) (update : bool -> X -> res X) (x0 : X) (st : oloop X),
  (forall x : X, snd (kres x) = NaN) ->
  o_loop o kres update (o_fuel o) (o_start x0) = Ok (Some st) -> exists x : X, ol_res st = fst (kres x).
Proof. exact @loop_nan_density. Qed.
Print Assumptions C64_nan_density_refuted.
Theorem C64_exact_guess :
  forall (g : grid) (E : invenv) (iv : inverter) (sp : nat) (p : nat -> vec) (e : nat -> R) (v : vec) (n0 : nat -> R),
  let s := i_sol iv 0 sp in
  let M := s_Nmo s in
  (i_lv iv <= 1)%nat ->
  (sp < i_cols iv)%nat ->
  (sp < Nelem g)%nat ->
  i_vs iv = None ->
  i_us iv = None ->
  s_phi s = None ->
  io_ab (i_opt iv) = false ->
  0 < io_tol (i_opt iv) ->
  (1 <= M)%nat ->
  s_m s = 0%Z ->
  s_pol s = 1%nat ->
  s_N s = 2 * INR M ->
  (forall i k : nat, (i < M)%nat -> (k < Nelem g)%nat -> schroed g (hamiltonian g 0) v (e i) (p i) k = 0) ->
  (forall i : nat, (i < M)%nat -> 0 < integrate1 g (fun k : nat => p i k ^ 2)) ->
  (forall k : nat,
   (k < Nelem g)%nat -> n0 k = sumR M (fun i : nat => 2 * (p i k ^ 2 / integrate1 g (fun k0 : nat => p i k0 ^ 2)))) ->
  exists iv' : inverter,
    orbitalinvert g E n0 (fun r : nat => p (r / Nelem g)%nat (r mod Nelem g)) (M, e) (Some (A1 v)) sp iv =
    Ok (iv', true, OArr 1 1 (fun _ _ : nat => Some {| nfev := 1; optimality := Fin 0 |})) /\
    (forall k : nat, s_veff (i_sol iv' 0 sp) k = v k - e (M - 1)%nat).
Proof. exact @orbital_exact. Qed.
Print Assumptions C64_exact_guess.
Lemma C64_witness : forall e, exists iv',
  orbitalinvert g22 (one_env 0) one_n0 (fun _ => 1) (1%nat, fun _ => e) (Some (A1 (one_pot e))) 0
     (one_inv (one_opt "orbitalinvert" false false 50) 1 1 (fun _ => 0) None None false) =
   Ok (iv', true, OArr 1 1 (fun _ _ => Some (mkInfo 1 (Fin 0)))) /\
  (forall k, s_veff (i_sol iv' 0%nat 0%nat) k = one_pot e k - e) /\
  s_N (one_solver (fun _ => 0) None None) = INR 1 * shell_size 0 1.
Proof.
  intros e. destruct (wit_orbital e) as (iv' & H & H1). exists iv'. split; auto. split; auto. unfold shell_size. simpl. lra.
Qed.
Lemma C64_witness_nan : let o := one_opt "orbitalinvert" false false 2 in exists st,
  o_loop o (fun _ : unit => (NaN, Fin 1)) (fun _ _ => Ok tt) (o_fuel o) (o_start tt) = Ok (Some st).
Proof. exact wit_loop_nan. Qed.

(** * C65: kinetic energy and kinetic energy density of the inverter *)
Theorem C65_Ts_sum :
  forall (g : grid) (iv : inverter) (T : nat -> nat -> R),
  (forall i j : nat,
   (i < i_lv iv)%nat ->
   (j < (if io_ess (i_opt iv) then 1 else i_cols iv))%nat ->
   exists (a : R) (b : num) (n : vec), calc_energy g (i_sol iv i j) = Ok (a, b, Fin (T i j), n)) ->
  get_Ts g iv =
  Ok
    (Fin
       (if io_ess (i_opt iv)
        then 2 * sumR (i_lv iv) (fun i : nat => T i 0%nat)
        else sumR (i_lv iv) (fun i : nat => sumR (i_cols iv) (fun j : nat => T i j)))).
Proof. exact @get_Ts_sum. Qed.
Print Assumptions C65_Ts_sum.
Theorem C65_Ts_needs :
  forall (g : grid) (iv : inverter) (t : num),
  get_Ts g iv = Ok t ->
  forall i j : nat,
  (i < i_lv iv)%nat -> (j < (if io_ess (i_opt iv) then 1 else i_cols iv))%nat -> is_ok (calc_energy g (i_sol iv i j)).
Proof. exact @get_Ts_ok. Qed.
Print Assumptions C65_Ts_needs.
(** The kinetic energy density is that of the last level, not the sum over levels. *)
Theorem C65_ts_refuted :
  forall (g : grid) (iv : inverter) (t : nat -> nat -> vec),
  (1 <= i_lv iv)%nat ->
  io_ess (i_opt iv) = false ->
  (forall i j : nat, (i < i_lv iv)%nat -> (j < i_cols iv)%nat -> ked_at g iv i j = Ok (t i j)) ->
  exists (iv' : inverter) (ts : mat),
    get_ts_WFI g iv = Ok (iv', ts) /\ (forall j k : nat, (j < i_cols iv)%nat -> ts k j = t (i_lv iv - 1)%nat j k).
Proof. exact @ts_WFI_last. Qed.
Print Assumptions C65_ts_refuted.
Theorem C65_ts_ens_spin_sym :
  forall (g : grid) (iv : inverter) (t : nat -> vec),
  (1 <= i_lv iv)%nat ->
  io_ess (i_opt iv) = true ->
  (forall i : nat, (i < i_lv iv)%nat -> ked_at g iv i 0 = Ok (t i)) ->
  exists (iv' : inverter) (ts : mat),
    get_ts_WFI g iv = Ok (iv', ts) /\
    (forall k : nat, ts k 0%nat = t (i_lv iv - 1)%nat k) /\
    (i_alias iv = true -> forall k : nat, ts k 1%nat = t (i_lv iv - 1)%nat k) /\
    (i_alias iv = false -> (forall i : nat, i_ked iv i 1 = None) -> forall k : nat, ts k 1%nat = 0).
Proof. exact @ts_WFI_ess. Qed.
Print Assumptions C65_ts_ens_spin_sym.
Lemma C65_witness : forall e, let iv := one_inv (one_opt "wuyang" false false 2) 2 1 (one_pot e) (Some one_phi) (Some (one_eig e)) true in
  exists t a b T n, (forall i, ked_at g22 iv i 0 = Ok t) /\ calc_energy g22 (i_sol iv 0%nat 0%nat) = Ok (a, b, Fin T, n).
Proof.
  intros e iv. destruct (wit_ked e) as (t & H).
  destruct (ked_full g22 (hamiltonian g22 0) (one_solver (one_pot e) (Some one_phi) (Some (one_eig e))) 1 (snd one_phi) (snd (one_eig e)))
    as (t' & a & b & c & n & _ & H1 & H2); auto using g22_ok, one_enough.
  - simpl; lra.
  - intros i _. split; [apply (const_norm 1); lra|apply one_eigen].
  - subst c. do 5 eexists. split; [|exact H1]. intros i. exact H.
Qed.

(** * C66: Wu-Yang residual and Jacobian *)
Theorem C66_gauge_row :
  forall (g : grid) (E : invenv) (n0 : vec) (spin : nat) (u v : vec) (iv iv1 iv2 : inverter) (w1 w2 : vec),
  Ws g E n0 spin u iv = Ok (iv1, w1) -> Ws g E n0 spin v iv = Ok (iv2, w2) -> w1 (Nelem g) = w2 (Nelem g).
Proof. exact @Ws_gauge. Qed.
Print Assumptions C66_gauge_row.
Theorem C66_gauge_jacobian :
  forall (g : grid) (n0 : vec) (spin : nat) (iv : inverter) (J : mat),
  Jacobian g n0 spin iv = Ok J ->
  io_ab (i_opt iv) = false -> forall c : nat, J (Nelem g) c = (if (c =? Nelem g - 1)%nat then 1 else 0).
Proof. exact @Jac_gauge. Qed.
Print Assumptions C66_gauge_jacobian.
Theorem C66_gauge_jacobian_ab :
  forall (g : grid) (n0 : vec) (spin : nat) (iv : inverter) (J : mat),
  Jacobian g n0 spin iv = Ok J ->
  io_ab (i_opt iv) = true ->
  forall c : nat,
  J (Nelem g) c =
  ((if (c =? Nelem g - 1)%nat then 1 else 0) + mirror1 g (fun c0 : nat => if (c0 =? Nelem g - 1)%nat then 1 else 0) c) / 2.
Proof. exact @Jac_gauge_ab. Qed.
Print Assumptions C66_gauge_jacobian_ab.
Theorem C66_jacobian_rows :
  forall (g : grid) (E : invenv) (n0 : vec) (spin : nat) (vs : vec) (iv iv' : inverter) (w : vec),
  (1 <= i_lv iv)%nat ->
  Ws g E n0 spin vs iv = Ok (iv', w) ->
  exists chi J : mat,
    calc_response g (v_sps E) (i_sol iv' 0 spin) = Ok chi /\
    Jacobian g n0 spin iv' = Ok J /\ (forall r c : nat, (r < Nelem g)%nat -> J r c = chi r c / n0 r).
Proof. exact @Jac_rows. Qed.
Print Assumptions C66_jacobian_rows.
Theorem C66_jacobian_needs_chi :
  forall (g : grid) (n0 : vec) (spin : nat) (iv : inverter), i_chi iv 0 spin = None -> Jacobian g n0 spin iv = Err TypeError.
Proof. exact @Jac_need. Qed.
Print Assumptions C66_jacobian_needs_chi.
Theorem C66_density :
  forall (g : grid) (spin : nat) (iv : inverter) (d : nat -> vec),
  (forall i : nat, (i < i_lv iv)%nat -> calc_density g (i_sol iv i spin) = Ok (d i)) ->
  exists n : vec,
    Ws_density g spin iv = Ok n /\
    (io_ab (i_opt iv) = false -> forall k : nat, n k = sumR (i_lv iv) (fun i : nat => d i k)) /\
    (io_ab (i_opt iv) = true ->
     forall k : nat,
     (k < Nelem g)%nat ->
     n k =
     (sumR (i_lv iv) (fun i : nat => d i k) + mirror1 g (fun k0 : nat => sumR (i_lv iv) (fun i : nat => d i k0)) k) / 2).
Proof. exact @Ws_density_sum. Qed.
Print Assumptions C66_density.
Theorem C66_zero :
  forall (g : grid) (E : invenv) (n0 : vec) (spin : nat) (vs : vec) (iv iv' : inverter) (w : vec),
  Ws g E n0 spin vs iv = Ok (iv', w) ->
  (forall k : nat, (k < Nelem g)%nat -> n0 k <> 0) ->
  (forall k : nat, (k < Nelem g)%nat -> w k = 0) ->
  exists n : vec, Ws_density g spin iv' = Ok n /\ (forall k : nat, (k < Nelem g)%nat -> n k = n0 k).
Proof. exact @Ws_zero. Qed.
Print Assumptions C66_zero.
Theorem C66_polarised_never :
  forall (g : grid) (E : invenv) (n0a : arr R) (vs0 : option (arr R)) (iv : inverter) (r : inverter * invout),
  (2 <= fst (as_cols n0a))%nat -> io_ess (i_opt iv) = false -> linresponse g E n0a vs0 iv <> Ok r.
Proof. exact @wuyang_polarised_never. Qed.
Print Assumptions C66_polarised_never.
Theorem C66_polarised_error :
  forall (g : grid) (E : invenv) (n0 : nat -> nat -> R) (c : nat) (f : nat -> nat -> R) (iv : inverter),
  io_ess (i_opt iv) = false ->
  (2 <= i_cols iv)%nat ->
  (2 <= c)%nat ->
  i_vset iv 0 0 = false ->
  (forall (iv0 : inverter) (i : nat) (x0 : vec),
   (i < 2)%nat ->
   i_cols iv0 = i_cols iv ->
   exists (iv1 : inverter) (x : vec) (inf : info) (h : R),
     lsq_run g E (fun k : nat => n0 k i) i x0 iv0 = Ok (iv1, x, inf) /\ get_homo (i_sol iv1 0 i) = Ok h) ->
  linresponse g E (A2 2 n0) (Some (A2 c f)) iv = Err IndexError.
Proof. exact @wuyang_polarised_error. Qed.
Print Assumptions C66_polarised_error.
Lemma C66_witness : forall e v, exists iv' w, Ws g22 (one_env e) (fun _ => 1) 0 v
    (inv_vs (one_inv (one_opt "wuyang" false false 50) 1 1 (fun _ => 0) None None false) (Some (A2 1 (fun _ _ => 0)))) = Ok (iv', w).
Proof. exact wit_Ws. Qed.

(** * C67: choice of the method *)
Theorem C67_type_checked :
  forall (lv cols : nat) (sol : nat -> nat -> solver) (vset : nat -> nat -> bool) (opt : dict) (iv : inverter),
  inverter_init lv cols sol vset opt = Ok iv -> In (io_type (i_opt iv)) invert_types.
Proof. exact @init_type. Qed.
Print Assumptions C67_type_checked.
Theorem C67_bad_type :
  forall (lv cols : nat) (sol : nat -> nat -> solver) (vset : nat -> nat -> bool) (opt : dict) (k t : string),
  case_distinct opt ->
  In (k, VS t) opt -> lower k = "invert_type" -> ~ In t invert_types -> inverter_init lv cols sol vset opt = Err ValueError.
Proof. exact @init_bad_type. Qed.
Print Assumptions C67_bad_type.
Theorem C67_dispatch :
  forall (g : grid) (E : invenv) (n0 : arr R) (vs0 : option (arr R)) (phi0 : vec) (e0 : nat * vec) 
    (sp : nat) (iv : inverter),
  (io_type (i_opt iv) = "wuyang" -> invert g E n0 vs0 phi0 e0 sp iv = linresponse g E n0 vs0 iv) /\
  (io_type (i_opt iv) = "simple" -> invert g E n0 vs0 phi0 e0 sp iv = simple g E n0 iv) /\
  (io_type (i_opt iv) = "orbitalinvert" ->
   forall n : nat -> R,
   n0 = A1 n -> invert g E n0 vs0 phi0 e0 sp iv = (do r <- orbitalinvert g E n phi0 e0 vs0 sp iv; Ok (fst (fst r), snd r))) /\
  (In (io_type (i_opt iv)) ["qinvert"; "eigensolveinvert"; "test"] -> invert g E n0 vs0 phi0 e0 sp iv = Err AttributeError).
Proof. exact @dispatch. Qed.
Print Assumptions C67_dispatch.
Lemma C67_witness : (exists iv, inverter_init 1 1 (fun _ _ => one_solver (fun _ => 0) None None) (fun _ _ => false)
    [("invert_type", VS "simple")] = Ok iv) /\
  inverter_init 1 1 (fun _ _ => one_solver (fun _ => 0) None None) (fun _ _ => false) [("invert_type", VS "newton")] = Err ValueError.
Proof.
  split.
  - eexists. reflexivity.
  - eapply init_bad_type with (k := "invert_type") (t := "newton"); [|left; reflexivity|reflexivity|].
    + constructor; [simpl; tauto|constructor].
    + simpl. intuition discriminate.
Qed.

(** * C77: the kinetic potential *)
Theorem C77_after_orbitalinvert :
  forall (g : grid) (E : invenv) (n0 phi0 : vec) (e0 : nat * vec) (vs0 : option (arr R)) (sp : nat) 
    (iv iv' : inverter) (flag : bool) (out : invout),
  orbitalinvert g E n0 phi0 e0 vs0 sp iv = Ok (iv', flag, out) ->
  i_vs iv = None ->
  i_us iv = None ->
  exists (h : R) (vt : mat),
    get_homo (i_sol iv' 0 sp) = Ok h /\
    get_vt g iv' = Ok (Nelem g, i_cols iv, vt) /\
    (forall k : nat, (k < Nelem g)%nat -> vt k sp = (if (k =? sp)%nat then h else 0) - s_veff (i_sol iv' 0 sp) k) /\
    (forall k t : nat, (k < Nelem g)%nat -> (t < i_cols iv)%nat -> t <> sp -> vt k t = (if (k =? sp)%nat then h else 0)).
Proof. exact @vt_orbital. Qed.
Print Assumptions C77_after_orbitalinvert.
Theorem C77_after_orbitalinvert_full :
  forall (g : grid) (E : invenv) (n0 phi0 : vec) (e0 : nat * vec) (vs0 : option (arr R)) (sp : nat) 
    (iv iv' : inverter) (flag : bool) (out : invout),
  orbitalinvert g E n0 phi0 e0 vs0 sp iv = Ok (iv', flag, out) ->
  i_vs iv = None ->
  i_us iv = None ->
  let s := i_sol iv 0 sp in
  s_N s = INR (s_Nmo s) * shell_size 0 (s_pol s) ->
  (1 <= s_Nmo s)%nat ->
  exists vt : mat,
    get_vt g iv' = Ok (Nelem g, i_cols iv, vt) /\
    (forall k : nat, (k < Nelem g)%nat -> vt k sp = - s_veff (i_sol iv' 0 sp) k).
Proof. exact @vt_orbital_full. Qed.
Print Assumptions C77_after_orbitalinvert_full.
Theorem C77_after_wuyang :
  forall (g : grid) (iv : inverter) (c : nat) (f : nat -> nat -> R) (u : mat),
  i_vs iv = Some (A2 c f) ->
  i_us iv = Some (U2 1 1 u) ->
  (1 <= c)%nat ->
  exists vt : mat,
    get_vt g iv = Ok (Nelem g, c, vt) /\
    (forall k s : nat, (k < Nelem g)%nat -> (s < c)%nat -> vt k s = u 0%nat 0%nat - f k s).
Proof. exact @vt_wuyang. Qed.
Print Assumptions C77_after_wuyang.
Theorem C77_after_simple :
  forall (g : grid) (iv : inverter) (f : nat -> R) (r : R),
  i_vs iv = Some (A1 f) ->
  i_us iv = Some (U0 r) ->
  exists vt : mat,
    get_vt g iv = Ok (Nelem g, Nelem g, vt) /\
    (forall k l : nat, (k < Nelem g)%nat -> (l < Nelem g)%nat -> vt k l = r - f l).
Proof. exact @vt_simple. Qed.
Print Assumptions C77_after_simple.
Theorem C77_before :
  forall (g : grid) (iv : inverter), i_us iv = None -> get_vt g iv = Err TypeError.
Proof. exact @vt_none. Qed.
Print Assumptions C77_before.
Lemma C77_witness : forall e, exists iv' vt,
  orbitalinvert g22 (one_env 0) one_n0 (fun _ => 1) (1%nat, fun _ => e) (Some (A1 (one_pot e))) 0
     (one_inv (one_opt "orbitalinvert" false false 50) 1 1 (fun _ => 0) None None false) =
   Ok (iv', true, OArr 1 1 (fun _ _ => Some (mkInfo 1 (Fin 0)))) /\
  get_vt g22 iv' = Ok (Nelem g22, 1%nat, vt) /\ forall k, (k < Nelem g22)%nat -> vt k 0%nat = e - one_pot e k.
Proof.
  intros e. destruct (wit_orbital e) as (iv' & H & H1). exists iv'.
  destruct (vt_orbital_full g22 _ _ _ _ _ _ _ _ _ _ H) as (vt & V1 & V2); try reflexivity.
  - unfold shell_size. simpl. lra.
  - exists vt. split; auto. split; auto. intros k Hk. rewrite V2 by auto. rewrite H1. ring.
Qed.

(** * C78: the simple inversion *)
Theorem C78_account :
  forall (g : grid) (E : invenv) (n0 : nat -> R) (iv iv' : inverter) (out : invout),
  i_lv iv = 1%nat ->
  i_cols iv = 1%nat ->
  simple g E (A1 n0) iv = Ok (iv', out) ->
  let tol := io_tol (i_opt iv) in
  out = OTrue /\
  i_vset iv 0 0 = false /\
  (exists (p : nat) (opt : R) (vs : vec) (u : R) (s' : solver) (c : nat) (e n : vec) (eks : R) (Vs Ts : num) 
   (n' : vec),
     let v0 := fun k : nat => (vW_potential g n0 k - vW_potential g n0 (Nelem g - 1)) / 2 in
     fp_run g E n0 tol v0 (i_sol iv 0 0) p opt vs s' /\
     i_sol iv' 0 0 = s' /\
     (Z.of_nat p <= Z.max 0 (io_maxit (i_opt iv) - 1))%Z /\
     (opt <= tol \/ Z.of_nat p = Z.max 0 (io_maxit (i_opt iv) - 1)) /\
     i_vs iv' = Some (A1 vs) /\
     i_us iv' = Some (U0 u) /\
     s_eig s' = Some (c, e) /\
     (1 <= c)%nat /\
     0 <= u /\
     (forall i : nat, (i < c)%nat -> e i <= u) /\
     (u = 0 \/ (exists i : nat, (i < c)%nat /\ u = e i)) /\
     calc_density g s' = Ok n /\
     calc_energy g s' = Ok (eks, Vs, Ts, n') /\ i_Ts iv' = Some (eks - integrate1 g (fun k : nat => n k * vs k))).
Proof. exact @simple_account. Qed.
Print Assumptions C78_account.
Theorem C78_guess :
  forall (g : grid) (n : vec) (k : nat), simple_guess g n k = (vW_potential g n k - vW_potential g n (Nelem g - 1)) / 2.
Proof. exact @simple_guess_half. Qed.
Print Assumptions C78_guess.
Theorem C78_exact_potential :
  forall (g : grid) (v : vec) (e : R) (p n : nat -> R),
  (forall k : nat, (k < Nelem g)%nat -> 0 < gw g k) ->
  (forall k : nat, (k < Nelem g)%nat -> 0 < p k) ->
  (forall k : nat, (k < Nelem g)%nat -> n k = p k ^ 2) ->
  (forall k : nat, (k < Nelem g)%nat -> schroed g (hamiltonian g 0) v e p k = 0) ->
  forall k : nat, (k < Nelem g)%nat -> v k - e = vW_potential g n k.
Proof. exact @vW_one_orbital. Qed.
Print Assumptions C78_exact_potential.
Theorem C78_Ts :
  forall (g : grid) (E : invenv) (n0 : vec) (tol : R) (v0 : vec) (s0 : solver) (p : nat) (opt : R) (vs : vec) (s' : solver),
  fp_run g E n0 tol v0 s0 (S p) opt vs s' ->
  exists (v : nat -> R) (n : vec),
    calc_density g s' = Ok n /\
    opt = maxabs (Nelem g) (rel_err n0 n) /\
    (forall eks : R,
     eks - integrate1 g (fun k : nat => n k * vs k) =
     eks - integrate1 g (fun k : nat => n k * v k) - integrate1 g (fun k : nat => n k * rel_err n0 n k) / 10).
Proof. exact @simple_Ts_shift. Qed.
Print Assumptions C78_Ts.
Theorem C78_2d :
  forall (g : grid) (E : invenv) (c : nat) (n0 : nat -> nat -> R) (iv : inverter),
  simple g E (A2 c n0) iv = Err UnboundLocalError.
Proof. exact @simple_2d. Qed.
Print Assumptions C78_2d.
Theorem C78_second_call :
  forall (g : grid) (E : invenv) (n0 : nat -> R) (iv : inverter),
  i_vset iv 0 0 = true -> simple g E (A1 n0) iv = Err AttributeError.
Proof. exact @simple_again. Qed.
Print Assumptions C78_second_call.
Theorem C78_two_columns :
  forall (g : grid) (E : invenv) (n0 : arr R) (iv : inverter) (r : inverter * invout),
  (1 <= i_lv iv)%nat -> (2 <= i_cols iv)%nat -> simple g E n0 iv <> Ok r.
Proof. exact @simple_two_columns. Qed.
Print Assumptions C78_two_columns.
Lemma C78_witness : forall e, exists iv' out, simple g22 (one_env e) (A1 (fun _ => 1))
    (one_inv (one_opt "simple" false false 2) 1 1 (fun _ => 0) None None false) = Ok (iv', out).
Proof. exact wit_simple. Qed.
Lemma C78_witness_vW : forall e k, (k < Nelem g22)%nat -> 0 < gw g22 k /\ schroed g22 (hamiltonian g22 0) (one_pot e) e (fun _ => 1) k = 0.
Proof. intros. split; [apply gw_pos; auto; apply g22_ok|apply one_schroed; auto]. Qed.

(** * C79: what orbitalinvert cannot do *)
Theorem C79_levels :
  forall (g : grid) (E : invenv) (n0 phi0 : vec) (e0 : nat * vec) (vs0 : option (arr R)) (sp : nat) 
    (iv : inverter) (r : inverter * bool * invout), orbitalinvert g E n0 phi0 e0 vs0 sp iv = Ok r -> (i_lv iv <= 1)%nat.
Proof. exact @orbital_levels. Qed.
Print Assumptions C79_levels.
Theorem C79_levels_error :
  forall (g : grid) (E : invenv) (n0 phi0 : vec) (e0 : nat * vec) (vs0 : option (arr R)) (sp : nat) (iv : inverter),
  (2 <= i_lv iv)%nat -> orbitalinvert g E n0 phi0 e0 vs0 sp iv = Err IndexError.
Proof. exact @orbital_levels_error. Qed.
Print Assumptions C79_levels_error.
Theorem C79_odd :
  forall (g : grid) (E : invenv) (n0 phi0 : vec) (e0 : nat * vec) (vs0 : option (arr R)) (sp : nat) (iv : inverter),
  s_pol (i_sol iv 0 sp) = 1%nat ->
  Z.odd (floorZ (s_N (i_sol iv 0 sp))) = true -> orbitalinvert g E n0 phi0 e0 vs0 sp iv = Err IndexError.
Proof. exact @orbital_odd_error. Qed.
Print Assumptions C79_odd.
Theorem C79_iterative :
  forall (g : grid) (E : invenv) (o : invopt) (M : nat) (n0 occ : vec) (xs : vec * solver),
  io_iter o = true -> o_update g E o M n0 occ true xs = Err NameError.
Proof. exact @iterative_error. Qed.
Print Assumptions C79_iterative.
Theorem C79_short_guess :
  forall (g : grid) (E : invenv) (iv : inverter) (sp : nat) (n0 phi0 : vec) (L : nat) (e : vec) (vs0 : option (arr R)),
  let s := i_sol iv 0 sp in
  (i_lv iv <= 1)%nat ->
  (sp < i_cols iv)%nat ->
  s_phi s = None ->
  s_m s = 0%Z ->
  (s_pol s = 1%nat -> Z.odd (floorZ (s_N s)) = false) ->
  ((L < s_Nmo s)%nat \/ L = 0%nat -> orbitalinvert g E n0 phi0 (L, e) vs0 sp iv = Err IndexError) /\
  ((s_Nmo s <= L)%nat -> (0 < L)%nat -> vs0 = None -> orbitalinvert g E n0 phi0 (L, e) vs0 sp iv = Err TypeError).
Proof. exact @short_guess. Qed.
Print Assumptions C79_short_guess.
Lemma C79_witness : Z.odd (floorZ (s_N (mkSolver 0 1 3 2 false false (fun _ => 0) None None))) = true /\
  (exists iv', orbitalinvert g22 (one_env 0) one_n0 (fun _ => 1) (1%nat, fun _ => 0) (Some (A1 (one_pot 0))) 0
     (one_inv (one_opt "orbitalinvert" false false 50) 1 1 (fun _ => 0) None None false) =
   Ok (iv', true, OArr 1 1 (fun _ _ => Some (mkInfo 1 (Fin 0))))).
Proof.
  split.
  - cbn [s_N]. change 3 with (IZR 3). rewrite floorZ_IZR. reflexivity.
  - destruct (wit_orbital 0) as (iv' & H & _). exists iv'; auto.
Qed.

(** Too few eigenvalues, and no potential. *)
Lemma C79_short_witness : orbitalinvert g22 (one_env 0) one_n0 (fun _ => 1) (1%nat, fun _ => 0) None 0 (one_inv (one_opt "orbitalinvert" false false 50) 1 1 (fun _ => 0) None None false) = Err TypeError /\
  orbitalinvert g22 (one_env 0) one_n0 (fun _ => 1) (0%nat, fun _ => 0) (Some (A1 (one_pot 0))) 0 (one_inv (one_opt "orbitalinvert" false false 50) 1 1 (fun _ => 0) None None false) = Err IndexError.
Proof. exact short_case. Qed.

(** * C80: what Wu-Yang leaves behind *)
Theorem C80_unpolarised :
  forall (g : grid) (E : invenv) (n0a : arr R) (vs0 : option (arr R)) (iv iv' : inverter) (out : invout),
  fst (as_cols n0a) = 1%nat ->
  io_ess (i_opt iv) = false ->
  linresponse g E n0a vs0 iv = Ok (iv', out) ->
  exists (guess : nat -> nat -> R) (iv0 : inverter) (tr : list vec) (x : vec) (inf : info) (h : R) 
  (c : nat),
    lin_guess 1 iv vs0 = Ok (A2 c guess) /\
    (1 <= c)%nat /\
    (1 <= i_cols iv)%nat /\
    i_sol iv0 = i_sol iv /\
    i_opt iv0 = i_opt iv /\
    v_lsq E iv0 0 (fun k : nat => guess k 0%nat) = (tr, x, inf) /\
    (exists f : nat -> nat -> R, i_vs iv' = Some (A2 c f) /\ (forall k : nat, f k 0%nat = x k)) /\
    get_homo (i_sol iv' 0 0) = Ok h /\
    (exists u : mat, i_us iv' = Some (U2 1 1 u) /\ u 0%nat 0%nat = h) /\
    (exists o : nat -> nat -> option info,
       out = OArr (i_lv iv) (i_cols iv) o /\ (forall i j : nat, o i j = (if (j =? 0)%nat then Some inf else None))) /\
    (forall (u : vec) (tr' : list vec),
     tr = (tr' ++ [u])%list ->
     forall i : nat, (i < i_lv iv)%nat -> s_veff (i_sol iv' i 0) = (if io_ab (i_opt iv) then avg1 g u else u)).
Proof. exact @wuyang_unpolarised. Qed.
Print Assumptions C80_unpolarised.
Theorem C80_ens_spin_sym :
  forall (g : grid) (E : invenv) (n0a : arr R) (vs0 : option (arr R)) (iv iv' : inverter) (out : invout),
  io_ess (i_opt iv) = true ->
  linresponse g E n0a vs0 iv = Ok (iv', out) ->
  exists (x : nat -> R) (c : nat) (f : nat -> nat -> R) (h : R) (u : mat),
    i_vs iv' = Some (A2 (2 * c) f) /\
    (1 <= c)%nat /\
    (forall k : nat, f k 0%nat = x k /\ f k c = x k) /\
    i_us iv' = Some (U2 1 (2 * fst (as_cols n0a)) u) /\
    (forall j : nat, u 0%nat j = h) /\ get_homo (i_sol iv' 0 0) = Ok h /\ (2 <= i_cols iv)%nat /\ s_veff (i_sol iv' 0 1) = x.
Proof. exact @wuyang_ess. Qed.
Print Assumptions C80_ens_spin_sym.
Theorem C80_no_guess :
  forall (g : grid) (E : invenv) (n0a : arr R) (iv : inverter),
  i_vset iv 0 0 = false ->
  linresponse g E n0a None iv = Err (if (fst (as_cols n0a) =? 1)%nat then NameError else ValueError).
Proof. exact @wuyang_no_guess. Qed.
Print Assumptions C80_no_guess.
Theorem C80_start :
  forall (pol : nat) (iv : inverter) (vs0 : option (arr R)) (c : nat) (f : nat -> nat -> R),
  lin_guess pol iv vs0 = Ok (A2 c f) ->
  (i_vset iv 0 0 = true -> c = 1%nat /\ (forall k : nat, f k 0%nat = s_veff (i_sol iv 0 0) k)) /\
  (i_vset iv 0 0 = false -> vs0 = Some (A2 c f)).
Proof. exact @wuyang_start. Qed.
Print Assumptions C80_start.
Lemma C80_witness : forall e, exists iv' out, linresponse g22 (one_env e) (A1 (fun _ => 1)) (Some (A2 1 (fun _ _ => 0)))
    (one_inv (one_opt "wuyang" false false 50) 1 1 (fun _ => 0) None None false) = Ok (iv', out).
Proof. exact wit_wuyang. Qed.
Lemma C80_no_guess_witness : forall e, let iv := one_inv (one_opt "wuyang" false false 50) 1 1 (fun _ => 0) None None false in
  linresponse g22 (one_env e) (A1 (fun _ => 1)) None iv = Err NameError /\ linresponse g22 (one_env e) (A2 2 (fun _ _ => 1)) None iv = Err ValueError.
Proof. intros e iv. split; exact (wuyang_no_guess g22 (one_env e) _ iv eq_refl). Qed.

(** * C94: updates and restarts of orbitalinvert *)
Theorem C94_newton_step :
  forall (g : grid) (E : invenv) (o : invopt) (M : nat) (n0 occ x : vec) (s : solver) (x' : vec) (s' : solver),
  o_update g E o M n0 occ true (x, s) = Ok (x', s') ->
  io_ab o = false ->
  linear_solver E ->
  s' = s /\
  (exists y : vec,
     rescaled g M occ y x' /\
     (forall r : nat,
      (r < x_len (Nelem g) M)%nat ->
      (forall i : nat, (0 < i < M - 1)%nat -> r <> norm_row (Nelem g) M i) ->
      exists q : R,
        forall t : R,
        o_eqn g M (hamiltonian g (s_m s)) n0 occ (fun c : nat => x c + t * (y c - x c)) r =
        (1 - t) * o_eqn g M (hamiltonian g (s_m s)) n0 occ x r + t ^ 2 * q)).
Proof. exact @newton_step. Qed.
Print Assumptions C94_newton_step.
Theorem C94_recomputed :
  forall (g : grid) (E : invenv) (o : invopt) (M : nat) (n0 occ x : vec) (s : solver) (x' : vec) (s' : solver),
  o_update g E o M n0 occ false (x, s) = Ok (x', s') ->
  io_ab o = false ->
  orbital_solver g E ->
  s_Nmo s = M ->
  (1 <= M)%nat ->
  (forall i : nat, (i < M)%nat -> 0 < occ i) ->
  exists (e : vec) (p : nat * (nat -> vec)),
    s_eig s' = Some (M, e) /\
    s_phi s' = Some p /\
    (forall k : nat, s_veff s' k = pot (Nelem g) M x k) /\
    (forall k : nat, pot (Nelem g) M x' k = pot (Nelem g) M x k - e (M - 1)%nat) /\
    (forall i : nat,
     (i < M)%nat ->
     eigv (Nelem g) M x' i = e i - e (M - 1)%nat /\
     integrate1 g (fun k : nat => orb (Nelem g) x' i k ^ 2) = occ i /\
     eigenpair g (hamiltonian g (s_m s)) (pot (Nelem g) M x') (eigv (Nelem g) M x' i) (orb (Nelem g) x' i) /\
     (forall k : nat, (k < Nelem g)%nat -> o_eqn g M (hamiltonian g (s_m s)) n0 occ x' (ks_row (Nelem g) i k) = 0)).
Proof. exact @recomputed_step. Qed.
Print Assumptions C94_recomputed.
Theorem C94_restart :
  forall (g : grid) (E : invenv) (iv : inverter) (sp : nat) (p : nat -> vec) (e : vec) (v n0 : nat -> R) 
    (phi0 : vec) (e0 : nat * vec) (vs0 : option (arr R)),
  let s := i_sol iv 0 sp in
  let M := s_Nmo s in
  (i_lv iv <= 1)%nat ->
  (sp < i_cols iv)%nat ->
  storable g iv sp ->
  s_phi s = Some (M, p) ->
  s_eig s = Some (M, e) ->
  (forall k : nat, s_veff s k = v k) ->
  io_ab (i_opt iv) = false ->
  0 < io_tol (i_opt iv) ->
  (1 <= M)%nat ->
  s_m s = 0%Z ->
  s_pol s = 1%nat ->
  s_N s = 2 * INR M ->
  (forall i : nat, (i < M)%nat -> eigenpair g (hamiltonian g 0) v (e i) (p i)) ->
  (forall i : nat, (i < M)%nat -> 0 < integrate1 g (fun k : nat => p i k ^ 2)) ->
  (forall k : nat,
   (k < Nelem g)%nat -> n0 k = sumR M (fun i : nat => 2 * (p i k ^ 2 / integrate1 g (fun k0 : nat => p i k0 ^ 2)))) ->
  exists (iv' : inverter) (q : nat -> vec),
    orbitalinvert g E n0 phi0 e0 vs0 sp iv =
    Ok (iv', true, OArr 1 1 (fun _ _ : nat => Some {| nfev := 1; optimality := Fin 0 |})) /\
    (forall k : nat, s_veff (i_sol iv' 0 sp) k = v k - e (M - 1)%nat) /\
    s_phi (i_sol iv' 0 sp) = Some (M, q) /\
    (forall i : nat,
     (i < M)%nat ->
     exists c : R,
       0 < c /\
       c ^ 2 * integrate1 g (fun k : nat => p i k ^ 2) = 2 /\ (forall k : nat, (k < Nelem g)%nat -> q i k = - (c * p i k))).
Proof. exact @restart. Qed.
Print Assumptions C94_restart.
(** A potential off by w is put right by one step; orbitals are recomputed; a second inversion of the same density changes the sign of the stored orbital. *)
Lemma C94_newton_witness : forall w, linear_solver (fit_env 0 w) /\ exists x', o_update g22 (fit_env 0 w) (one_opt "orbitalinvert" false false 50) 1 (fun _ => 1) (fun _ => 2) true (fit_x (fun k => one_pot 0 k + w k), one_solver (fun _ => 0) None None) = Ok (x', one_solver (fun _ => 0) None None) /\
  forall k, (k < Nelem g22)%nat -> pot (Nelem g22) 1 x' k = one_pot 0 k.
Proof. exact newton_case. Qed.
Lemma C94_recomputed_witness : forall e, orbital_solver g22 (fit_env e (fun _ => 0)) /\ exists x' s', o_update g22 (fit_env e (fun _ => 0)) (one_opt "orbitalinvert" false false 50) 1 (fun _ => 1) (fun _ => 2) false (fit_x (one_pot e), one_solver (fun _ => 0) None None) = Ok (x', s') /\
  forall k, pot (Nelem g22) 1 x' k = one_pot e k - e.
Proof. exact recomputed_case. Qed.
Lemma C94_restart_witness : forall e, exists iv' q, orbitalinvert g22 (one_env 0) one_n0 (fun _ => 0) (0%nat, fun _ => 0) None 0 (one_inv (one_opt "orbitalinvert" false false 50) 1 1 (one_pot e) (Some one_phi) (Some (one_eig e)) true) = Ok (iv', true, OArr 1 1 (fun _ _ => Some (mkInfo 1 (Fin 0)))) /\
  (forall k, s_veff (i_sol iv' 0%nat 0%nat) k = one_pot e k - e) /\ s_phi (i_sol iv' 0%nat 0%nat) = Some (1%nat, q) /\ forall k, (k < Nelem g22)%nat -> q 0%nat k < 0.
Proof. exact restart_case. Qed.
