(** * Model of the multi-precision functions of gftool/lattice/*.py: dos_mp, sc.gf_z_mp; and square.stress_trafo

    Exact real arithmetic stands for mpmath's arithmetic at whatever precision; mp.workdps is ignored.  mpmath raises
    ZeroDivisionError where numpy returns an infinity; an infinite result is [Err NonFinite].  [ellipk] is mp.ellipk for
    complex arguments (also for _u_ellipk in fcc.dos_mp), [ellipkr] mp.ellipk for real arguments up to 1. *)
From Coq Require Import Reals Bool.
From Coquelicot Require Import Coquelicot.
From Verif Require Import Base CBase CExp Lattice_Model LatDer_Model LatEll_Model.
Local Open Scope C_scope.

Definition mdiv (x y : R) : result R := if Req_EM_T y 0 then Err ZeroDivisionError else Ok (x / y)%R.
Definition mcdiv (x y : C) : result C := if Ceq_dec y 0 then Err ZeroDivisionError else Ok (x / y).
(** bethe.dos_mp, lines 363-366 *)
Definition bethe_dos_mp (eps D : R) : result R :=
  if Rlt_dec D (Rabs eps) then Ok 0%R
  else do pre <- mdiv 2 (PI * D); do e <- mdiv eps D; Ok (pre * sqrt (- (e * e - 1)))%R.
(** onedim.dos_mp, lines 266-270 *)
Definition onedim_dos_mp (eps D : R) : result R :=
  if Rlt_dec D (Rabs eps) then Ok 0%R
  else do e <- mdiv eps D; mdiv 1 (PI * D * sqrt (- (e * e - 1))).
Section Real.
  Variable ellipkr : R -> result R.
  (** square.dos_mp, lines 264-270 *)
  Definition square_dos_mp (eps D : R) : result R :=
    if Rlt_dec D (Rabs eps) then Ok 0%R
    else
      do e <- mdiv eps D;
      do pre <- mdiv 2 (PI * PI * D);
      do k <- ellipkr (- (e * e - 1))%R;
      Ok (pre * k)%R.
  (** triangular.dos_mp, lines 318-337; [c] is the floating point number [2 / np.pi**2] of line 337 *)
  Definition triangular_dos_mp (c : R) (eps half_bandwidth : R) : result R :=
    let D := (half_bandwidth * (4 / 9))%R in
    do eps <- mdiv eps D;
    if Rlt_dec eps (- (3 / 2)) then Ok 0%R
    else if Rlt_dec 3 eps then Ok 0%R
    else
      let rr := sqrt (2 * eps + 3) in
      let a := ((rr + 1) * (rr + 1) * (rr + 1) * (3 - rr) / 4)%R in
      let b := (4 * rr)%R in
      let z0 := if Rle_dec eps (- (1)) then a else b in
      let z1 := if Rle_dec eps (- (1)) then b else a in
      do pre <- mdiv 1 (sqrt z0);
      do m <- mdiv z1 z0;
      do k <- ellipkr m;
      do p <- mdiv c D;
      Ok (p * (pre * k))%R.
End Real.
(** lieb.dos_mp, lines 291-294; [square] is square.dos_mp *)
Definition lieb_dos_mp (square : R -> R -> result R) (eps half_bandwidth : R) : result R :=
  do D_inv <- mdiv (2 * sqrt 2) half_bandwidth;
  let eps_rel := (eps * D_inv)%R in
  do s_dos <- square (eps_rel * eps_rel - 4)%R 4%R;
  Ok (2 / 3 * D_inv * Rabs eps_rel * s_dos)%R.
(** honeycomb.dos_mp, lines 281-284; [triangular] is triangular.dos_mp *)
Definition honeycomb_dos_mp (triangular : R -> R -> result R) (eps half_bandwidth : R) : result R :=
  do D_inv <- mdiv (3 / 2) half_bandwidth;
  let eps_rel := (eps * D_inv)%R in
  do t_dos <- triangular (2 * (eps_rel * eps_rel) - 3 / 2)%R (9 / 4)%R;
  Ok (2 * D_inv * Rabs eps_rel * t_dos)%R.
(** kagome.dos_mp, lines 307-308 *)
Definition kagome_dos_mp (triangular : R -> R -> result R) (eps half_bandwidth : R) : result R :=
  do d <- honeycomb_dos_mp triangular (3 * eps - half_bandwidth)%R (3 * half_bandwidth)%R;
  Ok (2 * d)%R.
Section Complex.
  Variable ellipk : C -> result C.
  (** bcc.dos_mp, lines 271-279 *)
  Definition bcc_dos_mp (eps D : R) : result R :=
    if Rlt_dec D (Rabs eps) then Ok 0%R
    else if Req_EM_T eps 0 then Err NonFinite
    else
      do e <- mdiv eps D;
      do e2 <- mdiv 1 (e * e);
      do k <- ellipk (RtoC (1 / 2) - RtoC (1 / 2) * Ci * RtoC (sqrt (e2 - 1)));
      do pre <- mdiv (- (4)) (PI * PI * PI * Rabs eps);
      Ok (pre * snd (k * k)%C)%R.
  (** fcc._signed_mp_sqrt, lines 252-254 *)
  Definition signed_mp_sqrt (eps : R) : C := if Rle_dec 0 eps then RtoC (sqrt eps) else - Ci * RtoC (sqrt (- eps)).
  (** fcc.dos_mp, lines 316-331; the guard of line 318 is [3 < eps < -1] *)
  Definition fcc_dos_mp (eps half_bandwidth : R) : result R :=
    let D := (half_bandwidth * (1 / 2))%R in
    do eps <- mdiv eps D;
    if (cneg (3 - eps) && cneg (eps - - (1)))%bool then Ok 0%R
    else if Req_EM_T eps (- (1)) then Err NonFinite
    else
      let epsp1 := (eps + 1)%R in
      let r := signed_mp_sqrt epsp1 in
      do epsp1_pow <- mcdiv 1 (r * r * r);
      let sum1 := 4 * signed_mp_sqrt eps * epsp1_pow in
      let sum2 := RtoC (eps - 1) * signed_mp_sqrt (eps - 3) * epsp1_pow in
      let m_p := RtoC (1 / 2) * (1 + sum1 - sum2) in
      let m_m := RtoC (1 / 2) * (1 - sum1 - sum2) in
      do kii <- ellipk m_p;
      do kii <- (if cneg (snd m_p) then do k <- ellipk (1 - m_p); Ok (kii + 2 * Ci * k) else Ok kii);
      do pre <- mdiv 4 (PI * PI * PI * D * epsp1);
      do k <- ellipk m_m;
      Ok (Rabs (pre * snd (k * kii)%C)).
  (** sc.gf_z_mp, lines 307-314 *)
  Definition sc_gf_z_mp (z : C) (half_bandwidth : R) : result C :=
    do D_inv <- mdiv 3 half_bandwidth;
    let z := RtoC D_inv * z in
    do z_sqr <- mcdiv 1 (z * z);
    do xi <- mcdiv (csqrt (1 - csqrt (1 - z_sqr))) (csqrt (1 + csqrt (1 - 9 * z_sqr)));
    let denom := (1 - xi) * (1 - xi) * (1 - xi) * (1 + 3 * xi) in
    do k2 <- mcdiv (16 * (xi * xi * xi)) denom;
    do k <- ellipk k2;
    let h := 2 * k / RtoC PI in
    do g <- mcdiv ((1 - 9 * (xi * xi * (xi * xi))) * (h * h)) denom;
    do green <- mcdiv g z;
    Ok (RtoC D_inv * green).
  (** sc.dos_mp, lines 367-381; [small] is 10**(-mp.dps/4), line 369.  mp.polyval, lines 376-379, of the list of even
      coefficients with zeros between them is written as the polynomial; the real elliptic integrals of line 371 as the
      real part of their product *)
  Definition sc_dos_mp (small eps half_bandwidth : R) : result R :=
    do D_inv <- mdiv 3 half_bandwidth;
    let eps := Rabs eps in
    if Rlt_dec eps small then
      let km2 := (1 / 4 * (2 - sqrt 3))%R in
      do k1 <- ellipk (RtoC km2);
      do k2 <- ellipk (1 - RtoC km2);
      let dos0 := fst (RtoC (D_inv * (2 / (PI * PI))) * k1 * k2 / RtoC PI) in
      do dos1 <- mdiv 1 (3 * (PI * PI * PI * PI) * dos0);
      let e2 := (eps * eps)%R in
      Ok (dos0 + (dos0 * (1 / 18) - dos1) * e2 + (dos0 * (11 / 648) - dos1 * (7 / 18)) * (e2 * e2) + (dos0 * (19 / 2160) - dos1 * (5 / 24)) * (e2 * e2 * e2))%R
    else
      do gf <- sc_gf_z_mp (RtoC eps) half_bandwidth;
      Ok (- snd gf / PI)%R.
  (** square.stress_trafo, line 304 *)
  Definition square_stress_trafo (xi : C) (half_bandwidth : R) : result C :=
    do g <- square_gf_z ellipk xi half_bandwidth;
    Ok (RtoC (- (1 / 2)) * (xi * g - 1)).
End Complex.
