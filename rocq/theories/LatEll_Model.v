(** * Model of the lattices given by elliptic integrals: gftool/lattice/{sc,bcc,fcc,triangular}.py

    [ellipk] is the oracle for _u_ellipk (gftool/_util.py, line 11; mpmath's complete elliptic integral of the first kind as
    a function of the parameter m); it may fail where the integral is not finite.  One complex frequency; scipy's/numpy's
    scimath.sqrt of a complex number is the principal root. *)
From Coq Require Import Reals Bool.
From Coquelicot Require Import Coquelicot.
From Verif Require Import Base CBase CExp Lattice_Model.
Local Open Scope C_scope.

Definition cneg (x : R) : bool := if Rlt_dec x 0 then true else false.
Section Ell.
  Variable ellipk : C -> result C.
  (** sc.gf_z, lines 68-75; sc.hilbert_transform, line 111, is the same function *)
  Definition sc_core (z : C) : result C :=
    do z_sqr <- cdiv 1 (z * z);
    do xi <- cdiv (csqrt (1 - csqrt (1 - z_sqr))) (csqrt (1 + csqrt (1 - 9 * z_sqr)));
    do denom_inv <- cdiv 1 ((1 - xi) * (1 - xi) * (1 - xi) * (1 + 3 * xi));
    let k2 := 16 * (xi * xi * xi) * denom_inv in
    do k <- ellipk k2;
    let h := RtoC (2 / PI) * k in
    cdiv ((1 - 9 * (xi * xi * (xi * xi))) * (h * h) * denom_inv) z.
  Definition sc_gf_z (z : C) (half_bandwidth : R) : result C :=
    do D_inv <- rdiv 3 half_bandwidth;
    do gf <- sc_core (RtoC D_inv * z);
    Ok (RtoC D_inv * gf).
  (** bcc.gf_z, lines 63-66; bcc.hilbert_transform, line 102, is the same function *)
  Definition bcc_gf_z (z : C) (half_bandwidth : R) : result C :=
    do z_rel <- cdiv z half_bandwidth;
    do z_m2 <- cdiv 1 (z_rel * z_rel);
    let m := RtoC (1 / 2) * (1 - csqrt (1 - z_m2)) in
    do pre <- cdiv 4 (RtoC (PI * PI) * z);
    do k <- ellipk m;
    Ok (pre * (k * k)).
  (** bcc.dos, lines 148-158, for real eps; infinite at eps = 0 *)
  Definition bcc_dos (eps half_bandwidth : R) : result R :=
    do eps_rel <- rdiv eps half_bandwidth;
    if Req_EM_T eps_rel 0 then Err NonFinite
    else if Rle_dec (Rabs eps_rel) 1 then
      do k <- ellipk (RtoC (1 / 2) - RtoC (1 / 2) * Ci * RtoC (sqrt (1 / (eps_rel * eps_rel) - 1)));
      do pre <- rdiv (- (4)) (PI * PI * PI * Rabs eps);
      Ok (pre * snd (k * k)%C)%R
    else Ok 0%R.
  (** fcc._signed_sqrt, lines 25-27 *)
  Definition fcc_signed_sqrt (z : C) : C := if cneg (fst z) then - Ci * csqrt (- z) else csqrt z.
  (** fcc.gf_z, lines 82-90: the advanced branch *)
  Definition fcc_core (z : C) (D : R) : result C :=
    let zp1 := z + 1 in
    let r := fcc_signed_sqrt zp1 in
    do zp1_pow <- cdiv 1 (r * r * r);
    let sum1 := 4 * fcc_signed_sqrt z * zp1_pow in
    let sum2 := (z - 1) * fcc_signed_sqrt (z - 3) * zp1_pow in
    let m_p := RtoC (1 / 2) * (1 + sum1 - sum2) in
    let m_m := RtoC (1 / 2) * (1 - sum1 - sum2) in
    do kii <- ellipk m_p;
    do kii <- (if cneg (snd m_p) then do k <- ellipk (1 - m_p); Ok (kii + 2 * Ci * k) else Ok kii);
    do pre <- cdiv 4 (RtoC (PI * PI * D) * zp1);
    do k <- ellipk m_m;
    Ok (pre * k * kii).
  (** fcc.gf_z, lines 78-91 *)
  Definition fcc_gf_z (z : C) (half_bandwidth : R) : result C :=
    let D := (half_bandwidth / 2)%R in
    do D_inv <- rdiv 1 D;
    let z := RtoC D_inv * z in
    if Rlt_dec 0 (snd z) then do gf <- fcc_core (Cconj z) D; Ok (Cconj gf) else fcc_core z D.
  (** triangular._signed_sqrt, lines 23-24 *)
  Definition tri_signed_sqrt (z : C) : C := if (cneg (fst z) && cneg (snd z))%bool then - csqrt z else csqrt z.
  (** triangular.gf_z, lines 81-88: the retarded branch *)
  Definition tri_core (z : C) (D : R) : result C :=
    let rr := tri_signed_sqrt (2 * z + 3) in
    let s := tri_signed_sqrt (rr - 1) in
    do gg <- cdiv 4 (s * s * s * tri_signed_sqrt (rr + 3));
    let kk := tri_signed_sqrt rr * gg in
    let mm := kk * kk in
    do K <- ellipk mm;
    do K <- (if cneg (- snd kk) then do k <- ellipk (1 - mm); Ok (K + 2 * Ci * k) else Ok K);
    do pre <- rdiv (1 / PI) D;
    Ok (RtoC pre * gg * K).
  (** triangular.gf_z, lines 73-90.  The mask of line 79, [D * z == -1], is evaluated after z was divided by D; masked
      points return -1j*inf *)
  Definition triangular_gf_z (z : C) (half_bandwidth : R) : result C :=
    let D := (half_bandwidth * 4 / 9)%R in
    do D_inv <- rdiv 1 D;
    let z := RtoC D_inv * z in
    let advanced := cneg (snd z) in
    let z := if advanced then Cconj z else z in
    if Ceq_dec (RtoC D * z) (- (1)) then Err NonFinite
    else do gf <- tri_core z D; Ok (if advanced then Cconj gf else gf).
  (** fcc.dos, lines 176-182, for real eps; infinite at the lower band edge *)
  Definition fcc_dos (eps half_bandwidth : R) : result R :=
    if Req_EM_T eps (- (1 / 2) * half_bandwidth) then Err NonFinite
    else if (cneg (- (1 / 2) * half_bandwidth - eps) && cneg (eps - 3 / 2 * half_bandwidth))%bool then
      do gf <- fcc_gf_z (RtoC eps) half_bandwidth; Ok (Rabs (1 / PI * snd gf))
    else Ok 0%R.
  (** sc._gen_dos_eps0_expansinon and dos_eps0_expansion, lines 117-127, with half_bandwidth = 3 *)
  Definition sc_dos0 : result R :=
    let km2 := (1 / 4 * (2 - sqrt 3))%R in
    do k1 <- ellipk (RtoC km2);
    do k2 <- ellipk (1 - RtoC km2);
    Ok (fst (RtoC (2 / (PI * PI)) * k1 * k2 / RtoC PI)).
  Definition sc_expansion (eps : R) : result R :=
    do dos0 <- sc_dos0;
    do c <- rdiv 1 (3 * (PI * PI * PI * PI) * dos0);
    let e2 := (eps * eps)%R in
    Ok (dos0 + (dos0 / 18 - c) * e2 + (dos0 * (11 / 648) - c * (7 / 18)) * (e2 * e2) + (dos0 * (19 / 2160) - c * (5 / 24)) * (e2 * e2 * e2))%R.
  (** sc.dos, lines 185-203, for real eps; [small] is the fourth root of the machine epsilon, line 188 *)
  Definition sc_dos (small eps half_bandwidth : R) : result R :=
    do D_inv <- rdiv 3 half_bandwidth;
    let eps := Rabs (D_inv * eps) in
    do dos <- (if Rlt_dec eps small then sc_expansion eps
               else if Rlt_dec eps 3 then do gf <- sc_core (RtoC eps); Ok (- (1) / PI * snd gf)%R
               else Ok 0%R);
    Ok (D_inv * dos)%R.
End Ell.
(** triangular.dos, lines 178-192, for real eps; [ellipkm1] is scipy.special.ellipkm1.  At eps = -1 both regions are
    evaluated, the second assignment stands *)
Definition triangular_dos (ellipkm1 : R -> result R) (eps half_bandwidth : R) : result R :=
  let D := (half_bandwidth * 4 / 9)%R in
  do D_inv <- rdiv 1 D;
  let eps := (D_inv * eps)%R in
  let rr := sqrt (2 * eps + 3) in
  let numer := ((rr - 1) * (rr - 1) * (rr - 1) * (3 + rr))%R in
  let denom := ((rr + 1) * (rr + 1) * (rr + 1) * (3 - rr))%R in
  do dos <- (if Rlt_dec eps (- (3 / 2)) then Ok 0%R
             else if Rlt_dec 3 eps then Ok 0%R
             else if Rlt_dec eps (- (1)) then
               do p <- rdiv (- numer) denom;
               do k <- ellipkm1 p; do pre <- rdiv 2 (sqrt denom); Ok (pre * k)%R
             else
               do p <- rdiv (1 / 16 * numer) rr;
               do k <- ellipkm1 p; do pre <- rdiv (1 / 2) (sqrt rr); Ok (pre * k)%R);
  do pre <- rdiv (2 / (PI * PI)) D;
  Ok (pre * dos)%R.
