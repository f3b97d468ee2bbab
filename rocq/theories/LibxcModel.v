(** Model of CADMium/libxc/libxc.py. The library pylibxc is an argument. *)
From Coq Require Import Reals List Arith Lia ZArith Bool String.
From Verif Require Import Base GridModel HartreeModel.
Local Open Scope R_scope.

(** What func.compute returns (CADMium/libxc/libxc.py:35): zk of shape (Nelem,1), vrho of shape (Nelem,pol) and, for
    gga, vsigma of shape (Nelem,1) or (Nelem,3). *)
Record xcout : Type := mkXc { xc_zk : vec; xc_vrho : mat; xc_vsigma : mat }.

(** pylibxc.LibXCFunctional(func_id, pol) (CADMium/libxc/libxc.py:23): may raise; otherwise an object whose compute
    method maps rho and, for gga, sigma to the output. *)
Definition libfun := nat -> nat -> res (mat -> option mat -> xcout).

(** CADMium/libxc/libxc.py:16-36. *)
Definition get_xc_dictionary (g : grid) (lib : libfun) (family : string) (func_id : nat) (pol : nat) (n : mat) : res xcout :=
  do func <- lib func_id pol;
  if String.eqb family "lda" then Ok (func n None)
  else if String.eqb family "gga" then do sg <- sigma g pol n; Ok (func n (Some (snd sg)))
  else Err ValueError.

(** diva @ (s * (grada @ f)) + divr @ (s * (gradr @ f)), the expression repeated in CADMium/libxc/libxc.py:55-66. *)
Definition div_s_grad (g : grid) (s f : vec) : vec :=
  fun k => gapply g (diva g) (fun j => s j * gapply g (grada g) f j) k
         + gapply g (divr g) (fun j => s j * gapply g (gradr g) f j) k.

(** CADMium/libxc/libxc.py:38-72: (exc, epsilon, vxc). For gga any pol other than 1 takes the two-spin branch
    and leaves further columns of vrho unchanged (sigma has already raised for pol > 2). *)
Definition get_xc (g : grid) (lib : libfun) (family : string) (func_id : nat) (pol : nat) (n : mat) : res (R * vec * mat) :=
  do d <- get_xc_dictionary g lib family func_id pol n;
  let c s := fun k => n k s in
  let vs s := fun k => xc_vsigma d k s in
  let exc := integrate1 g (sum_cols pol (fun k s => xc_zk d k * n k s)) in
  let vxc :=
    if String.eqb family "gga" then
      if (pol =? 1)%nat then fun k s => xc_vrho d k s - 2 * div_s_grad g (vs 0%nat) (c 0%nat) k
      else fun k s =>
        if (s =? 0)%nat then xc_vrho d k 0%nat - 2 * div_s_grad g (vs 0%nat) (c 0%nat) k - div_s_grad g (vs 1%nat) (c 1%nat) k
        else if (s =? 1)%nat then xc_vrho d k 1%nat - 2 * div_s_grad g (vs 2%nat) (c 1%nat) k - div_s_grad g (vs 1%nat) (c 0%nat) k
        else xc_vrho d k s
    else xc_vrho d in
  Ok (exc, xc_zk d, vxc).
