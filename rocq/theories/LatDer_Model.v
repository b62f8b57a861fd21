(** * Model of the lattices built on the complete elliptic integral or on another lattice:
      gftool/lattice/{square,rectangular,lieb,honeycomb,kagome}.py

    The elliptic integrals (gftool/_util.py, line 11: mpmath's ellipk; scipy.special.ellipkm1) and the Green's function and
    density of states of the triangular lattice are oracles; an oracle may fail (pole or nan).  Only finite results are
    considered, see Lattice_Model. *)
From Coq Require Import Reals Bool.
From Coquelicot Require Import Coquelicot.
From Verif Require Import Base CBase CExp Lattice_Model.
Local Open Scope C_scope.

Section Elliptic.
  Variable ellipk : C -> result C.
  Variable ellipkm1 : R -> result R.
  (** square.gf_z, lines 64-66; square.hilbert_transform, line 102, is the same function *)
  Definition square_gf_z (z : C) (D : R) : result C :=
    do z_rel_inv <- cdiv D z;
    do elliptic <- ellipk (z_rel_inv * z_rel_inv);
    do pre <- cdiv (RtoC (2 / PI)) D;
    Ok (pre * z_rel_inv * elliptic).
  (** square.dos, lines 147-152 *)
  Definition square_dos (eps D : R) : result R :=
    do eps_rel <- rdiv eps D;
    if Rle_dec (Rabs eps_rel) 1 then
      do elliptic <- ellipkm1 (eps_rel * eps_rel)%R;
      do pre <- rdiv (2 / (PI * PI)) D;
      Ok (pre * elliptic)%R
    else Ok 0%R.
  (** rectangular.gf_z, lines 76-83; rectangular.hilbert_transform, line 124, is the same function *)
  Definition rectangular_gf_z (z : C) (half_bandwidth scale : R) : result C :=
    do D <- rdiv half_bandwidth (1 + scale);
    do z <- cdiv z D;
    let sm1p2 := RtoC ((scale - 1) * (scale - 1)) in
    do k1 <- cdiv (RtoC (4 * scale)) (z * z - sm1p2);
    do elliptic <- ellipk k1;
    do z_inv <- cdiv 1 z;
    do k1sqrt <- cdiv 1 (csqrt (1 - sm1p2 * (z_inv * z_inv)));
    do pre <- cdiv (RtoC (2 / PI)) D;
    Ok (pre * z_inv * k1sqrt * elliptic).
End Elliptic.

(** lieb.gf_z, lines 66-69; [square] is square.gf_z *)
Definition lieb_gf_z (square : C -> R -> result C) (z : C) (half_bandwidth : R) : result C :=
  let D := (half_bandwidth / (2 * sqrt 2))%R in
  do z_rel <- cdiv z D;
  do peak <- cdiv (RtoC (1 / 3)) z;
  do pre <- cdiv 2 (3 * D);
  do g <- square (z_rel * z_rel - 4) 4%R;
  Ok (peak + pre * z_rel * g).
(** lieb.dos, lines 124-126 *)
Definition lieb_dos (square : R -> R -> result R) (eps half_bandwidth : R) : result R :=
  let D := half_bandwidth in
  do eps_rel <- rdiv eps D;
  do pre <- rdiv 4 (3 * D);
  do d <- square (2 * (eps_rel * eps_rel) - 1)%R 1%R;
  Ok (pre * Rabs eps_rel * d)%R.
(** honeycomb.gf_z, lines 65-67; [triangular] is triangular.gf_z *)
Definition honeycomb_gf_z (triangular : C -> R -> result C) (z : C) (half_bandwidth : R) : result C :=
  let D := (half_bandwidth / (3 / 2))%R in
  do z_rel <- cdiv z D;
  do pre <- cdiv 2 D;
  do g <- triangular (2 * (z_rel * z_rel) - RtoC (3 / 2)) (9 / 4)%R;
  Ok (pre * z_rel * g).
(** honeycomb.dos, lines 119-121 *)
Definition honeycomb_dos (triangular : R -> R -> result R) (eps half_bandwidth : R) : result R :=
  let D := (half_bandwidth / (3 / 2))%R in
  do eps_rel <- rdiv eps D;
  do pre <- rdiv 2 D;
  do d <- triangular (2 * (eps_rel * eps_rel) - 3 / 2)%R (9 / 4)%R;
  Ok (pre * Rabs eps_rel * d)%R.
(** kagome.gf_z, lines 75-77 *)
Definition kagome_gf_z (triangular : C -> R -> result C) (z : C) (half_bandwidth : R) : result C :=
  let D := half_bandwidth in
  do peak <- cdiv 1 (3 * z + 2 * D);
  do g <- honeycomb_gf_z triangular (z - RtoC (D / 3)) D;
  Ok (peak + RtoC (2 / 3) * g).
(** kagome.dos, lines 140-141 *)
Definition kagome_dos (triangular : R -> R -> result R) (eps half_bandwidth : R) : result R :=
  let D := half_bandwidth in
  do d <- honeycomb_dos triangular (3 * eps - D)%R (3 * D)%R;
  Ok (2 * d)%R.
