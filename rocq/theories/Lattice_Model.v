(** * Model of the lattices with closed forms: gftool/lattice/{bethe,bethez,onedim,box}.py and the small closed forms
    of gftool/__init__.py

    Exact real and complex arithmetic; division by zero gives inf or nan in numpy and is an error value here.  Signed
    zeros are not modelled: values of the square root and the logarithm on their branch cuts are those for a
    non-negative imaginary part, so nothing is claimed for frequencies on a branch cut. *)
From Coq Require Import Reals Bool.
From Coquelicot Require Import Coquelicot.
From Verif Require Import Base CBase CExp.
Local Open Scope C_scope.

Definition cdiv (x y : C) : result C := if Ceq_dec y 0 then Err NonFinite else Ok (x / y).
Definition rdiv (x y : R) : result R := if Req_EM_T y 0 then Err NonFinite else Ok (x / y)%R.

(** ** bethe.py *)
(** bethe.gf_z, lines 63-69 (higher precision of the intermediate result is invisible here);
    bethe.hilbert_transform, line 207, is the same function *)
Definition bethe_gf_z (z : C) (D : R) : result C :=
  do z_rel <- cdiv z D;
  do z_m2 <- cdiv 1 (z_rel * z_rel);
  Ok (2 / D * z_rel * (1 - csqrt (1 - z_m2))).
(** bethe.gf_d1_z, lines 93-100 *)
Definition bethe_gf_d1_z (z : C) (D : R) : result C :=
  do z_rel_inv <- cdiv D z;
  let sqrt := csqrt (1 - z_rel_inv * z_rel_inv) in
  do pre <- cdiv 2 (D * D);
  do inv <- cdiv 1 sqrt;
  Ok (pre * (1 - inv)).
(** bethe.gf_d2_z, lines 124-131 *)
Definition bethe_gf_d2_z (z : C) (D : R) : result C :=
  do z_rel <- cdiv z D;
  do z_m2 <- cdiv 1 (z_rel * z_rel);
  let sqrt := csqrt (1 - z_m2) in
  let d := 1 - z_rel * z_rel in
  cdiv (2 / (D * D * D) * z_rel * sqrt) (d * d).
(** bethe.gf_z_inv, line 171 *)
Definition bethe_gf_z_inv (gf : C) (D : R) : result C :=
  do inv <- cdiv 1 gf;
  Ok (RtoC (1 / 2 * D) * RtoC (1 / 2 * D) * gf + inv).
(** bethe.dos, lines 250-254, for real eps *)
Definition bethe_dos (eps D : R) : result R :=
  do e <- rdiv eps D;
  Ok (if Rlt_dec (Rabs e) 1 then 2 / (PI * D) * sqrt (1 - e * e) else 0)%R.

(** ** bethez.py *)
(** bethez.gf_z, lines 59-63 *)
Definition bethez_gf_z (z : C) (D Z : R) : result C :=
  if Rlt_dec 1 Z then
    do z_rel_inv <- cdiv D z;
    let sqrt := csqrt (1 - z_rel_inv * z_rel_inv) in
    do pre <- cdiv (2 * (Z - 1)) D;
    cdiv (pre * z_rel_inv) (Z - 2 + Z * sqrt)
  else Err AssertionError.
(** bethez.dos, lines 103-111, for real eps *)
Definition bethez_dos (eps D Z : R) : result R :=
  if Rlt_dec 1 Z then
    do e <- rdiv eps D;
    if Rle_dec (Rabs e) 1 then
      do factor <- rdiv (2 * Z * (Z - 1)) (D * PI);
      rdiv (factor * sqrt (1 - e * e)) (Z * Z - 4 * (Z - 1) * (e * e))
    else Ok 0%R
  else Err AssertionError.

(** ** onedim.py *)
(** onedim.gf_z, lines 60-61 *)
Definition onedim_gf_z (z : C) (D : R) : result C :=
  do z_rel_inv <- cdiv D z;
  do pre <- cdiv 1 D;
  cdiv (pre * z_rel_inv) (csqrt (1 - z_rel_inv * z_rel_inv)).
(** onedim.dos, lines 142-146, for real eps *)
Definition onedim_dos (eps D : R) : result R :=
  do e <- rdiv eps D;
  if Rle_dec (Rabs e) 1 then
    do pre <- rdiv 1 (PI * D);
    rdiv pre (sqrt (1 - e * e))
  else Ok 0%R.

(** ** box.py *)
(** np.emath.log on complex numbers: principal branch *)
Definition carg (z : C) : R := if Rle_dec 0 (snd z) then acos (fst z / Cmod z) else (- acos (fst z / Cmod z))%R.
Definition clog (z : C) : C := (ln (Cmod z), carg z).
(** box.gf_z, lines 46-47; log(0) is -inf *)
Definition box_gf_z (z : C) (D : R) : result C :=
  do z_rel <- cdiv z D;
  do r <- cdiv (z_rel + 1) (z_rel - 1);
  if Ceq_dec r 0 then Err NonFinite
  else do pre <- cdiv (RtoC (1 / 2)) D; Ok (pre * clog r).
(** box.dos, line 80 *)
Definition box_dos (eps D : R) : result R :=
  do h <- rdiv (1 / 2) D;
  Ok (if Rlt_dec (Rabs eps) D then h else 0%R).
(** box.dos_moment, lines 105-107 *)
Definition box_dos_moment (m : nat) (D : R) : R :=
  if Nat.odd m then 0%R else (D ^ m / (INR m + 1))%R.

(** ** retarded time *)
(** box.gf_ret_t, lines 148-159, one real time; [small] is the constant _SMALL, line 10 *)
Definition box_gf_ret_t (small tt D center : R) : C :=
  let tt := (D * tt)%R in
  let gf := if Rle_dec 0 tt then
              if Rlt_dec (Rabs tt) small then
                let tt2 := (tt * tt)%R in - Ci * RtoC (1 - 1 / 6 * tt2 + 1 / 120 * (tt2 * tt2))
              else - Ci * RtoC (sin tt / tt)
            else 0 in
  if Req_EM_T center 0 then gf else gf * cexp (- Ci * RtoC center * RtoC tt).
(** bethe.gf_ret_t, lines 409-420; [jv1] is scipy.special.jv(1, .) *)
Definition bethe_gf_ret_t (jv1 : R -> R) (small tt D center : R) : C :=
  let tt := (D * tt)%R in
  let gf := if Rle_dec 0 tt then
              if Rlt_dec (Rabs tt) small then
                let tt2 := (tt * tt)%R in - Ci * RtoC (1 - 1 / 8 * tt2 + 1 / 192 * (tt2 * tt2))
              else - Ci * RtoC (2 * jv1 tt / tt)
            else 0 in
  if Req_EM_T center 0 then gf else gf * cexp (- Ci * RtoC center * RtoC tt).

(** ** gftool/__init__.py *)
(** surface_gf_zeps, line 191 *)
Definition surface_gf_zeps (z eps : C) (hopping : R) : result C := bethe_gf_z (z - eps) (2 * hopping)%R.
(** hubbard_dimer_gf_z, lines 235-245; [kind] is true for '+', other values than '+' and '-' raise ValueError *)
Definition hubbard_dimer_gf_z (z : C) (t U : R) (kind : bool) : result C :=
  let s := if kind then 1%R else (-1)%R in
  let W := sqrt (1 / 4 * U * U + 4 * t * t) in
  let E0 := (1 / 2 * U - W)%R in
  do r <- rdiv (s * t) W;
  do g1 <- cdiv (RtoC (1 / 2 + r)) (z - RtoC (E0 + s * t));
  do g2 <- cdiv (RtoC (1 / 2 - r)) (z - RtoC (U + s * t - E0));
  Ok (g1 + g2).
(** hubbard_I_self_z, lines 285-286 *)
Definition hubbard_I_self_z (z U occ : C) : result C :=
  let hartree := U * occ in
  cdiv (hartree * z) (z - U + hartree).
