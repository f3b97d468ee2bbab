(** Signs of the quadrature weights. *)
From Coq Require Import Reals List Arith Lia Lra ZArith Bool.
From Verif Require Import Base BaseLemmas GridModel Poly GridSpec GridProofs NCProofs GridWitness.
Import ListNotations.
Local Open Scope R_scope.

(** ** From one block to the composite rule *)
Lemma term_le : forall n f i, (i < n)%nat -> (forall k, (k < n)%nat -> 0 <= f k) -> f i <= sumR n f.
Proof.
  induction n as [|n IH]; intros f i Hi H; [lia|]. cbn [sumR]. destruct (Nat.eq_dec i n) as [->|Hn].
  - assert (0 <= sumR n f) by (apply sumR_nonneg; intros; apply H; lia). lra.
  - assert (f i <= sumR n f) by (apply IH; [lia|intros; apply H; lia]). pose proof (H n ltac:(lia)). lra.
Qed.
Lemma block_part : forall N Nm (w : vec) t i, (2 <= N)%nat -> (forall j, (j < N)%nat -> 0 < w j) -> (i < Nm)%nat ->
  ((N - 1) * i <= t)%nat -> (t < (N - 1) * i + N)%nat ->
  w (t - (N - 1) * i)%nat <= sumR Nm (fun i => if ((N - 1) * i <=? t)%nat && (t <? (N - 1) * i + N)%nat then w (t - (N - 1) * i)%nat else 0).
Proof.
  intros N Nm w t i HN Hw Hi H1 H2.
  set (f := fun i => if ((N - 1) * i <=? t)%nat && (t <? (N - 1) * i + N)%nat then w (t - (N - 1) * i)%nat else 0).
  replace (w (t - (N - 1) * i)%nat) with (f i).
  - apply term_le; auto. intros k Hk. unfold f. destruct ((N - 1) * k <=? t)%nat eqn:A; cbn [andb]; [|lra].
    destruct (t <? (N - 1) * k + N)%nat eqn:B; [|lra]. apply Nat.leb_le in A. apply Nat.ltb_lt in B. apply Rlt_le, Hw. lia.
  - unfold f. apply Nat.leb_le in H1. apply Nat.ltb_lt in H2. rewrite H1, H2. reflexivity.
Qed.
Lemma weights_positive : forall N Nm w sol1, (2 <= N)%nat -> (1 <= Nm)%nat -> solves N nc_A (nc_b N) w ->
  (forall j, (j < N)%nat -> 0 < w j) -> (forall j, (j < N - 1)%nat -> 0 < w j + sol1 (j + 1)%nat) ->
  forall t, (t < nc_NP N Nm)%nat -> 0 < nc_weights N Nm w sol1 t.
Proof.
  intros N Nm w sol1 HN HM Hs Hw He t Ht. unfold nc_weights. rewrite nc_loop_val. unfold nc_ends, nc_w1.
  assert (EN : nc_NP N Nm = ((N - 1) * (Nm - 1) + N)%nat) by (unfold nc_NP; nia).
  set (q := ((N - 1) * (Nm - 1))%nat) in *. set (NP := nc_NP N Nm) in *.
  destruct (NP - (N - 1) <=? t)%nat eqn:A.
  - apply Nat.leb_le in A. assert (B : (t <? NP)%nat = true) by (apply Nat.ltb_lt; exact Ht). rewrite B. cbn [andb].
    set (o := (t - q)%nat). assert (Ho : (1 <= o <= N - 1)%nat) by (unfold o; lia).
    replace (N - 1 - 1 - (t - (NP - (N - 1))))%nat with (N - 1 - o)%nat by (unfold o; lia).
    pose proof (block_part N Nm w t (Nm - 1) HN Hw ltac:(lia) ltac:(fold q; lia) ltac:(fold q; lia)) as P. fold q in P. fold o in P.
    pose proof (nc_w_palin N w ltac:(lia) Hs (N - 1 - o)%nat ltac:(lia)) as Q.
    replace (N - 1 - (N - 1 - o))%nat with o in Q by lia. specialize (He (N - 1 - o)%nat ltac:(lia)). lra.
  - apply Nat.leb_gt in A. cbn [andb]. destruct (t <? N - 1)%nat eqn:C.
    + apply Nat.ltb_lt in C. pose proof (block_part N Nm w t 0 HN Hw ltac:(lia) ltac:(lia) ltac:(lia)) as P.
      rewrite Nat.mul_0_r, Nat.sub_0_r in P. specialize (He t C). lra.
    + set (i := (t / (N - 1))%nat). assert (D : (t = (N - 1) * i + t mod (N - 1))%nat) by (apply Nat.div_mod; lia).
      pose proof (Nat.mod_upper_bound t (N - 1) ltac:(lia)) as M. fold i in D.
      assert (I1 : (i < Nm)%nat) by (assert ((N - 1) * i < (N - 1) * Nm)%nat by (unfold NP, nc_NP in *; lia); nia).
      pose proof (block_part N Nm w t i HN Hw I1 ltac:(lia) ltac:(lia)) as P. pose proof (Hw (t - (N - 1) * i)%nat ltac:(lia)). lra.
Qed.

(** ** The weights of one block and of the ends *)
Ltac moment_check := unfold nc_x, nc_x1, nc_b, nc_b1; cbn [sumR nth Nat.eqb Nat.sub Nat.add]; rewrite ?INR_IZR_INZ; cbn [Z.of_nat Pos.of_succ_nat Pos.succ pow]; lra.
Lemma by_list : forall N x m l (w : vec), distinct N x -> (forall p, (p < N)%nat -> sumR N (fun j => x j ^ p * w j) = m p) ->
  (forall p, (p < N)%nat -> sumR N (fun j => x j ^ p * nth j l 0) = m p) -> forall j, (j < N)%nat -> w j = nth j l 0.
Proof. intros N x m l w D H1 H2 j Hj. exact (vander_unique N w (fun j => nth j l 0) x m D H1 H2 j Hj). Qed.

Definition block2 : list R := [1 / 2; 1 / 2].
Definition ends2 : list R := [1 / 4; 1 / 4].
Lemma block2_ok : forall w, solves 2 nc_A (nc_b 2) w -> forall j, (j < 2)%nat -> w j = nth j block2 0.
Proof.
  intros w H. apply (by_list 2 nc_x (nc_b 2) block2 w (nc_x_distinct 2) H). intros p Hp.
  unfold block2. do 2 (destruct p as [|p]; [moment_check|]). lia.
Qed.
Lemma ends2_ok : forall s, solves 2 nc_A1 nc_b1 s -> forall j, (j < 2)%nat -> s j = nth j ends2 0.
Proof.
  intros s H. apply (by_list 2 nc_x1 nc_b1 ends2 s (nc_x1_distinct 2) H). intros p Hp.
  unfold ends2. do 2 (destruct p as [|p]; [moment_check|]). lia.
Qed.
Lemma positive2 : forall Nm w s, (1 <= Nm)%nat -> solves 2 nc_A (nc_b 2) w -> solves 2 nc_A1 nc_b1 s ->
  forall t, (t < nc_NP 2 Nm)%nat -> 0 < nc_weights 2 Nm w s t.
Proof.
  intros Nm w s HM Hw Hs. apply weights_positive; [lia|exact HM|exact Hw| |].
  - intros j Hj. rewrite (block2_ok w Hw j Hj). unfold block2. do 2 (destruct j as [|j]; [cbn [nth]; lra|]). lia.
  - intros j Hj. rewrite (block2_ok w Hw j ltac:(lia)), (ends2_ok s Hs (j + 1)%nat ltac:(lia)). unfold block2, ends2.
    do 1 (destruct j as [|j]; [cbn [nth Nat.add]; lra|]). lia.
Qed.

Definition block3 : list R := [1 / 3; 4 / 3; 1 / 3].
Definition ends3 : list R := [2 / 9; 7 / 24; -1 / 72].
Lemma block3_ok : forall w, solves 3 nc_A (nc_b 3) w -> forall j, (j < 3)%nat -> w j = nth j block3 0.
Proof.
  intros w H. apply (by_list 3 nc_x (nc_b 3) block3 w (nc_x_distinct 3) H). intros p Hp.
  unfold block3. do 3 (destruct p as [|p]; [moment_check|]). lia.
Qed.
Lemma ends3_ok : forall s, solves 3 nc_A1 nc_b1 s -> forall j, (j < 3)%nat -> s j = nth j ends3 0.
Proof.
  intros s H. apply (by_list 3 nc_x1 nc_b1 ends3 s (nc_x1_distinct 3) H). intros p Hp.
  unfold ends3. do 3 (destruct p as [|p]; [moment_check|]). lia.
Qed.
Lemma positive3 : forall Nm w s, (1 <= Nm)%nat -> solves 3 nc_A (nc_b 3) w -> solves 3 nc_A1 nc_b1 s ->
  forall t, (t < nc_NP 3 Nm)%nat -> 0 < nc_weights 3 Nm w s t.
Proof.
  intros Nm w s HM Hw Hs. apply weights_positive; [lia|exact HM|exact Hw| |].
  - intros j Hj. rewrite (block3_ok w Hw j Hj). unfold block3. do 3 (destruct j as [|j]; [cbn [nth]; lra|]). lia.
  - intros j Hj. rewrite (block3_ok w Hw j ltac:(lia)), (ends3_ok s Hs (j + 1)%nat ltac:(lia)). unfold block3, ends3.
    do 2 (destruct j as [|j]; [cbn [nth Nat.add]; lra|]). lia.
Qed.

Definition block4 : list R := [3 / 8; 9 / 8; 9 / 8; 3 / 8].
Definition ends4 : list R := [5 / 24; 61 / 192; -1 / 32; 1 / 192].
Lemma block4_ok : forall w, solves 4 nc_A (nc_b 4) w -> forall j, (j < 4)%nat -> w j = nth j block4 0.
Proof.
  intros w H. apply (by_list 4 nc_x (nc_b 4) block4 w (nc_x_distinct 4) H). intros p Hp.
  unfold block4. do 4 (destruct p as [|p]; [moment_check|]). lia.
Qed.
Lemma ends4_ok : forall s, solves 4 nc_A1 nc_b1 s -> forall j, (j < 4)%nat -> s j = nth j ends4 0.
Proof.
  intros s H. apply (by_list 4 nc_x1 nc_b1 ends4 s (nc_x1_distinct 4) H). intros p Hp.
  unfold ends4. do 4 (destruct p as [|p]; [moment_check|]). lia.
Qed.
Lemma positive4 : forall Nm w s, (1 <= Nm)%nat -> solves 4 nc_A (nc_b 4) w -> solves 4 nc_A1 nc_b1 s ->
  forall t, (t < nc_NP 4 Nm)%nat -> 0 < nc_weights 4 Nm w s t.
Proof.
  intros Nm w s HM Hw Hs. apply weights_positive; [lia|exact HM|exact Hw| |].
  - intros j Hj. rewrite (block4_ok w Hw j Hj). unfold block4. do 4 (destruct j as [|j]; [cbn [nth]; lra|]). lia.
  - intros j Hj. rewrite (block4_ok w Hw j ltac:(lia)), (ends4_ok s Hs (j + 1)%nat ltac:(lia)). unfold block4, ends4.
    do 3 (destruct j as [|j]; [cbn [nth Nat.add]; lra|]). lia.
Qed.

Definition block5 : list R := [14 / 45; 64 / 45; 8 / 15; 64 / 45; 14 / 45].
Definition ends5 : list R := [314 / 1575; 1943 / 5760; -293 / 5760; 163 / 9600; -113 / 40320].
Lemma block5_ok : forall w, solves 5 nc_A (nc_b 5) w -> forall j, (j < 5)%nat -> w j = nth j block5 0.
Proof.
  intros w H. apply (by_list 5 nc_x (nc_b 5) block5 w (nc_x_distinct 5) H). intros p Hp.
  unfold block5. do 5 (destruct p as [|p]; [moment_check|]). lia.
Qed.
Lemma ends5_ok : forall s, solves 5 nc_A1 nc_b1 s -> forall j, (j < 5)%nat -> s j = nth j ends5 0.
Proof.
  intros s H. apply (by_list 5 nc_x1 nc_b1 ends5 s (nc_x1_distinct 5) H). intros p Hp.
  unfold ends5. do 5 (destruct p as [|p]; [moment_check|]). lia.
Qed.
Lemma positive5 : forall Nm w s, (1 <= Nm)%nat -> solves 5 nc_A (nc_b 5) w -> solves 5 nc_A1 nc_b1 s ->
  forall t, (t < nc_NP 5 Nm)%nat -> 0 < nc_weights 5 Nm w s t.
Proof.
  intros Nm w s HM Hw Hs. apply weights_positive; [lia|exact HM|exact Hw| |].
  - intros j Hj. rewrite (block5_ok w Hw j Hj). unfold block5. do 5 (destruct j as [|j]; [cbn [nth]; lra|]). lia.
  - intros j Hj. rewrite (block5_ok w Hw j ltac:(lia)), (ends5_ok s Hs (j + 1)%nat ltac:(lia)). unfold block5, ends5.
    do 4 (destruct j as [|j]; [cbn [nth Nat.add]; lra|]). lia.
Qed.

Definition block6 : list R := [95 / 288; 125 / 96; 125 / 144; 125 / 144; 125 / 96; 95 / 288].
Definition ends6 : list R := [27 / 140; 8141 / 23040; -13 / 180; 139 / 3840; -241 / 20160; 41 / 23040].
Lemma block6_ok : forall w, solves 6 nc_A (nc_b 6) w -> forall j, (j < 6)%nat -> w j = nth j block6 0.
Proof.
  intros w H. apply (by_list 6 nc_x (nc_b 6) block6 w (nc_x_distinct 6) H). intros p Hp.
  unfold block6. do 6 (destruct p as [|p]; [moment_check|]). lia.
Qed.
Lemma ends6_ok : forall s, solves 6 nc_A1 nc_b1 s -> forall j, (j < 6)%nat -> s j = nth j ends6 0.
Proof.
  intros s H. apply (by_list 6 nc_x1 nc_b1 ends6 s (nc_x1_distinct 6) H). intros p Hp.
  unfold ends6. do 6 (destruct p as [|p]; [moment_check|]). lia.
Qed.
Lemma positive6 : forall Nm w s, (1 <= Nm)%nat -> solves 6 nc_A (nc_b 6) w -> solves 6 nc_A1 nc_b1 s ->
  forall t, (t < nc_NP 6 Nm)%nat -> 0 < nc_weights 6 Nm w s t.
Proof.
  intros Nm w s HM Hw Hs. apply weights_positive; [lia|exact HM|exact Hw| |].
  - intros j Hj. rewrite (block6_ok w Hw j Hj). unfold block6. do 6 (destruct j as [|j]; [cbn [nth]; lra|]). lia.
  - intros j Hj. rewrite (block6_ok w Hw j ltac:(lia)), (ends6_ok s Hs (j + 1)%nat ltac:(lia)). unfold block6, ends6.
    do 5 (destruct j as [|j]; [cbn [nth Nat.add]; lra|]). lia.
Qed.

Definition block7 : list R := [41 / 140; 54 / 35; 27 / 140; 68 / 35; 27 / 140; 54 / 35; 41 / 140].
Definition ends7 : list R := [3727 / 19845; 23677 / 64512; -91943 / 967680; 10249 / 161280; -35551 / 1128960; 27221 / 2903040; -401 / 322560].
Lemma block7_ok : forall w, solves 7 nc_A (nc_b 7) w -> forall j, (j < 7)%nat -> w j = nth j block7 0.
Proof.
  intros w H. apply (by_list 7 nc_x (nc_b 7) block7 w (nc_x_distinct 7) H). intros p Hp.
  unfold block7. do 7 (destruct p as [|p]; [moment_check|]). lia.
Qed.
Lemma ends7_ok : forall s, solves 7 nc_A1 nc_b1 s -> forall j, (j < 7)%nat -> s j = nth j ends7 0.
Proof.
  intros s H. apply (by_list 7 nc_x1 nc_b1 ends7 s (nc_x1_distinct 7) H). intros p Hp.
  unfold ends7. do 7 (destruct p as [|p]; [moment_check|]). lia.
Qed.
Lemma positive7 : forall Nm w s, (1 <= Nm)%nat -> solves 7 nc_A (nc_b 7) w -> solves 7 nc_A1 nc_b1 s ->
  forall t, (t < nc_NP 7 Nm)%nat -> 0 < nc_weights 7 Nm w s t.
Proof.
  intros Nm w s HM Hw Hs. apply weights_positive; [lia|exact HM|exact Hw| |].
  - intros j Hj. rewrite (block7_ok w Hw j Hj). unfold block7. do 7 (destruct j as [|j]; [cbn [nth]; lra|]). lia.
  - intros j Hj. rewrite (block7_ok w Hw j ltac:(lia)), (ends7_ok s Hs (j + 1)%nat ltac:(lia)). unfold block7, ends7.
    do 6 (destruct j as [|j]; [cbn [nth Nat.add]; lra|]). lia.
Qed.

Definition block8 : list R := [5257 / 17280; 25039 / 17280; 343 / 640; 20923 / 17280; 20923 / 17280; 343 / 640; 25039 / 17280; 5257 / 17280].
Definition ends8 : list R := [8333 / 45360; 5868523 / 15482880; -921587 / 7741440; 171337 / 1720320; -254777 / 3870720; 1365751 / 46448640; -6707 / 860160; 14311 / 15482880].
Lemma block8_ok : forall w, solves 8 nc_A (nc_b 8) w -> forall j, (j < 8)%nat -> w j = nth j block8 0.
Proof.
  intros w H. apply (by_list 8 nc_x (nc_b 8) block8 w (nc_x_distinct 8) H). intros p Hp.
  unfold block8. do 8 (destruct p as [|p]; [moment_check|]). lia.
Qed.
Lemma ends8_ok : forall s, solves 8 nc_A1 nc_b1 s -> forall j, (j < 8)%nat -> s j = nth j ends8 0.
Proof.
  intros s H. apply (by_list 8 nc_x1 nc_b1 ends8 s (nc_x1_distinct 8) H). intros p Hp.
  unfold ends8. do 8 (destruct p as [|p]; [moment_check|]). lia.
Qed.
Lemma positive8 : forall Nm w s, (1 <= Nm)%nat -> solves 8 nc_A (nc_b 8) w -> solves 8 nc_A1 nc_b1 s ->
  forall t, (t < nc_NP 8 Nm)%nat -> 0 < nc_weights 8 Nm w s t.
Proof.
  intros Nm w s HM Hw Hs. apply weights_positive; [lia|exact HM|exact Hw| |].
  - intros j Hj. rewrite (block8_ok w Hw j Hj). unfold block8. do 8 (destruct j as [|j]; [cbn [nth]; lra|]). lia.
  - intros j Hj. rewrite (block8_ok w Hw j ltac:(lia)), (ends8_ok s Hs (j + 1)%nat ltac:(lia)). unfold block8, ends8.
    do 7 (destruct j as [|j]; [cbn [nth Nat.add]; lra|]). lia.
Qed.

Definition block10 : list R := [25713 / 89600; 141669 / 89600; 243 / 2240; 10881 / 5600; 26001 / 44800; 26001 / 44800; 10881 / 5600; 243 / 2240; 141669 / 89600; 25713 / 89600].
Definition ends10 : list R := [7189691 / 40540500; 742435009 / 1857945600; -11300351 / 66355200; 28985699 / 145152000; -91989377 / 464486400; 9133843 / 61931520; -399713521 / 5109350400; 84004253 / 3019161600; -13801663 / 2322432000; 1070653 / 1857945600].
Lemma block10_ok : forall w, solves 10 nc_A (nc_b 10) w -> forall j, (j < 10)%nat -> w j = nth j block10 0.
Proof.
  intros w H. apply (by_list 10 nc_x (nc_b 10) block10 w (nc_x_distinct 10) H). intros p Hp.
  unfold block10. do 10 (destruct p as [|p]; [moment_check|]). lia.
Qed.
Lemma ends10_ok : forall s, solves 10 nc_A1 nc_b1 s -> forall j, (j < 10)%nat -> s j = nth j ends10 0.
Proof.
  intros s H. apply (by_list 10 nc_x1 nc_b1 ends10 s (nc_x1_distinct 10) H). intros p Hp.
  unfold ends10. do 10 (destruct p as [|p]; [moment_check|]). lia.
Qed.
Lemma positive10 : forall Nm w s, (1 <= Nm)%nat -> solves 10 nc_A (nc_b 10) w -> solves 10 nc_A1 nc_b1 s ->
  forall t, (t < nc_NP 10 Nm)%nat -> 0 < nc_weights 10 Nm w s t.
Proof.
  intros Nm w s HM Hw Hs. apply weights_positive; [lia|exact HM|exact Hw| |].
  - intros j Hj. rewrite (block10_ok w Hw j Hj). unfold block10. do 10 (destruct j as [|j]; [cbn [nth]; lra|]). lia.
  - intros j Hj. rewrite (block10_ok w Hw j ltac:(lia)), (ends10_ok s Hs (j + 1)%nat ltac:(lia)). unfold block10, ends10.
    do 9 (destruct j as [|j]; [cbn [nth Nat.add]; lra|]). lia.
Qed.

Definition block9 : list R := [3956 / 14175; 23552 / 14175; -3712 / 14175; 41984 / 14175; -3632 / 2835; 41984 / 14175; -3712 / 14175; 23552 / 14175; 3956 / 14175].
Definition ends9 : list R := [16444468 / 91216125; 181058477 / 464486400; -200905169 / 1393459200; 112121159 / 774144000; -317641 / 2654208; 59603027 / 836075520; -48299369 / 1703116800; 40600799 / 6038323200; -5002787 / 6967296000].
Lemma block9_ok : forall w, solves 9 nc_A (nc_b 9) w -> forall j, (j < 9)%nat -> w j = nth j block9 0.
Proof.
  intros w H. apply (by_list 9 nc_x (nc_b 9) block9 w (nc_x_distinct 9) H). intros p Hp.
  unfold block9. do 9 (destruct p as [|p]; [moment_check|]). lia.
Qed.
Lemma ends9_ok : forall s, solves 9 nc_A1 nc_b1 s -> forall j, (j < 9)%nat -> s j = nth j ends9 0.
Proof.
  intros s H. apply (by_list 9 nc_x1 nc_b1 ends9 s (nc_x1_distinct 9) H). intros p Hp.
  unfold ends9. do 9 (destruct p as [|p]; [moment_check|]). lia.
Qed.
