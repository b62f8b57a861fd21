(** * Density of states of the rectangular lattice, lattice/rectangular.py *)
From Coq Require Import Reals.
From Coquelicot Require Import Coquelicot.
From Verif Require Import Base CBase Lattice_Model.
Local Open Scope R_scope.

(** rectangular.dos, lines 162-175, for one element of the array [eps]; [ellipk] is _util._u_ellipk, lines 64-83, [feps] is
    np.finfo(float).eps.  Quotients and roots which numpy or Python do not carry out (division by zero, real root of a
    negative number) are [Err NonFinite]; [factor] does not depend on eps and is calculated first here. *)
Definition rsqrt (x : R) : result R := if Rlt_dec x 0 then Err NonFinite else Ok (sqrt x).
Definition rectangular_dos (ellipk : C -> result C) (feps eps half_bandwidth scale : R) : result R :=
  do eps <- rdiv eps half_bandwidth;
  do sq <- rsqrt scale;
  do f <- rdiv (1 / (PI * PI) * (1 + scale)) sq;
  do factor <- rdiv f half_bandwidth;
  let eps := if Req_EM_T (Rabs eps) 1 then 1 - feps else eps in
  if Rle_dec (Rabs eps) 1 then
    do q <- rdiv (4 * scale) ((scale + 1) * (scale + 1));
    do kmod <- rdiv q (1 - eps * eps);
    do elliptic <- ellipk (RtoC kmod);
    do root <- rsqrt kmod;
    Ok (Rabs (factor * root * fst (Cconj elliptic)))
  else Ok (Rabs 0).
