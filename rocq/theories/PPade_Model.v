(** * Model of gftool/polepade.py: PadeApprox, poles, zeros, asymptotic, residues_ols, continuation

    One-dimensional arrays of equal length.  number_poles is NPoles_Model.v; here its null space dimension is computed
    from the data. *)
From Coq Require Import List Arith ZArith Bool Reals.
From Coquelicot Require Import Complex.
From Verif Require Import Base CBase Linalg_Model NPoles_Model Rat_Model Pole_Model.
Import ListNotations.
Local Open Scope fld_scope.

(** the columns of polyvander: 1, x, x^2, ... *)
Definition monomial (j : nat) (x : CF) : CF := fpow x j.

Section PPade.
Notation cmat := (mat CF).

(** ** Array helpers *)
(** np.concatenate((A, B), axis=-1) *)
Definition hcat (A B : cmat) : cmat :=
  Mat (nr A) (nc A + nc B) (fun i j => if (j <? nc A)%nat then me A i j else me B i (j - nc A)%nat).
(** s[:, np.newaxis] * A *)
Definition rscale (s : list CF) (A : cmat) : cmat := Mat (nr A) (nc A) (fun i j => nth i s 0 * me A i j).
(** -A *)
Definition mneg (A : cmat) : cmat := Mat (nr A) (nc A) (fun i j => - me A i j).
(** A[..., :k], negative k counts from the end *)
Definition cols_slice (k : Z) (A : cmat) : cmat := cols_to (Z.to_nat (slice_cols (Z.of_nat (nc A)) k)) A.
(** the argument [vandermond], by default numpy.polynomial.polynomial.polyvander: vandermond(x, deg) has the columns
    phi_0(x), ..., phi_deg(x) and raises ValueError for negative deg, as all the *vander functions of numpy.polynomial *)
Variable phi : nat -> CF -> CF.
Definition vandermond (x : list CF) (deg : Z) : result cmat :=
  if (deg <? 0)%Z then Err ValueError
  else Ok (Mat (length x) (S (Z.to_nat deg)) (fun i j => phi j (nth i x 0))).
(** np.linalg.norm(A, axis=-1) *)
Definition rownorm (A : cmat) (i : nat) : R := sqrt (nsum (K := RF) (nc A) (fun j => (Cmod (me A i j) * Cmod (me A i j))%R)).
(** scaling = 1./norm; scaling *= weight.  A vanishing norm gives infinities: only for no columns at all, as the first
    column of a Vandermonde matrix does not vanish; excluded where it can occur. *)
Definition wgt (weight : option (list R)) (i : nat) : R := match weight with None => 1%R | Some w => nth i w 0%R end.
Definition scaling (weight : option (list R)) (A : cmat) : list CF :=
  map (fun i => RtoC (1 / rownorm A i * wgt weight i)%R) (seq 0 (nr A)).
(** elementwise product *)
Definition vmul (u v : list CF) : list CF := map (fun p => fst p * snd p) (combine u v).

(** ** Back-ends: np.linalg.qr (complete and reduced), np.linalg.svd (singular values, vh), scipy.linalg.eig (pencil),
    np.median, np.allclose(z.real, 0), and those of lstsq_ec; [tol] is np.finfo(fct_z.dtype).eps *)
Variable qr qrr : cmat -> cmat * cmat.
Variable svd : cmat -> list R * cmat.
Variable eig : cmat -> cmat -> list CF.
Variable median : list CF -> CF.
Variable real_close0 : list CF -> bool.
Variable solve_triangular : cmat -> list CF -> result (list CF).
Variable lstsq : cmat -> list CF -> list CF * list CF.
Variable allclose0 : list CF -> bool.
Variable tol : R.

(** ** number_poles, polepade.py:221-232: the matrix and null_dim for [n] >= 0 poles *)
Definition np_mat (z fct : list CF) (weight : option (list R)) (degree n : Z) : cmat :=
  let n_zeros := (n + degree)%Z in
  let vander := Mat (length z) (S (Z.to_nat (Z.max n n_zeros + 1))) (fun i j => phi j (nth i z 0)) in
  let numer := cols_slice (n_zeros + 1) vander in
  let denom := cols_slice (n + 1) vander in
  let s := scaling weight (hcat denom numer) in
  hcat (fst (qrr (rscale (vmul s fct) denom))) (fst (qrr (rscale s numer))).
Definition below (t x : R) : bool := if Rlt_dec x t then true else false.
Definition svd_null_dim (M : cmat) : Z :=
  let s := fst (svd M) in
  Z.of_nat (length (filter (below (tol * nth 0 s 0 * INR (Nat.max (nr M) (nc M)))%R) s)).
(** lines 204-254; NPoles_Model takes the number of the other singular values *)
Definition data_rank (z fct : list CF) (weight : option (list R)) (degree n : Z) : Z :=
  (Z.min (Z.of_nat (length z)) (mat_cols degree n) - svd_null_dim (np_mat z fct weight degree n))%Z.
Definition number_poles_data (fuel : nat) (z fct : list CF) (degree : Z) (weight : option (list R)) (n_poles0 : option Z) : result (Z * bool) :=
  number_poles (data_rank z fct weight degree) fuel (Z.of_nat (length z)) degree n_poles0.

(** the generalised eigenvalues of the blocks of vh, lines 305-306 and 356-357; scipy.linalg.eig needs square blocks of
    equal shape *)
Definition pencil (m : nat) (zq q : cmat) : result (list CF) :=
  let vh := snd (svd (hcat zq q)) in
  let A := cols_to m (rows_to m vh) in
  let B := cols_from m (rows_to m vh) in
  if ((nr A =? nc A) && (nr B =? nc B))%nat then Ok (eig A B) else Err ValueError.

(** poles, polepade.py:290-306 *)
Definition poles (z fct : list CF) (n : option Z) (m : nat) (weight : option (list R)) : result (list CF) :=
  let n := match n with Some n => n | None => (Z.of_nat m - 1)%Z end in
  let med := median fct in
  if feqb med 0 then Err NonFinite
  else
    let fct := map (fun x => x / med) fct in
    do vander <- vandermond z (Z.max (n + 1) (Z.of_nat m));
    let numer := mneg (cols_slice (n + 1) vander) in
    let denom := cols_slice (Z.of_nat m) vander in
    if (nc denom + nc numer =? 0)%nat then Err NonFinite
    else
      let s := scaling weight (hcat denom numer) in
      do perp_numer <- orth_compl (K := CF) Cconj qr (rscale s numer);
      let q_fct_denom := fst (qrr (rscale (vmul s fct) denom)) in
      pencil m (mm perp_numer (rscale z q_fct_denom)) (mm perp_numer q_fct_denom).

(** zeros, polepade.py:344-357 *)
Definition zeros (z fct poles : list CF) (n : option Z) (weight : option (list R)) : result (list CF) :=
  let n := match n with Some n => n | None => (Z.of_nat (length poles) - 1)%Z end in
  let med := median fct in
  if feqb med 0 then Err NonFinite
  else
    let fct := map (fun x => x / med) fct in
    let denom := map (fun x => prod (map (fun p => x - p) poles)) z in
    do numer <- vandermond z (n - 1);
    let s := scaling weight numer in
    let fd := vmul fct denom in
    do perp_fct_z_denom <- orth_compl (K := CF) Cconj qr (rscale s (Mat (length z) 1 (fun i _ => nth i fd 0)));
    let q_numer := fst (qrr (rscale s numer)) in
    pencil (Z.to_nat n) (mm perp_fct_z_denom (rscale z q_numer)) (mm perp_fct_z_denom q_numer).

(** asymptotic, polepade.py:382-389.  The second component is [std]: not a number for a single unweighted point. *)
Definition rsum (l : list R) : R := fold_right Rplus 0%R l.
Fixpoint sequence {A} (l : list (result A)) : result (list A) :=
  match l with [] => Ok [] | x :: l => do a <- x; do r <- sequence l; Ok (a :: r) end.
Definition asymptotic (z fct zeros poles : list CF) (weight : option (list R)) : result (CF * result R) :=
  do recip <- sequence (map (zp_reciprocal (ZeroPole zeros poles 1)) z);
  let ratios := vmul fct recip in
  let dev (asym : CF) := map (fun r : CF => let d : C := r - asym in (Cmod d * Cmod d)%R) ratios in
  match weight with
  | None =>
      do asym <- fdiv (lsum ratios) (fnat (length ratios));
      Ok (asym, if (length ratios =? 1)%nat then Err NonFinite
                else Ok (sqrt (rsum (dev asym) / INR (length ratios - 1))))
  | Some w =>
      if Req_EM_T (rsum w) 0 then Err ZeroDivisionError
      else
        let asym := lsum (map (fun p => fst p * (RtoC (snd p) : CF)) (combine ratios w)) / (RtoC (rsum w) : CF) in
        Ok (asym, Ok (rsum (map (fun p => (fst p * snd p)%R) (combine (dev asym) w)) / rsum w)%R)
  end.

(** residues_ols, polepade.py:416-431: residues and residual *)
Definition residues_ols (z fct poles : list CF) (weight : option (list R)) (moments : list CF) : result (list CF * list CF) :=
  if existsb (fun x => existsb (fun p => feqb (x - p) 0) poles) z then Err NonFinite
  else
    let polematrix := Mat (length z) (length poles) (fun i j => (1 / (nth i z 0 - nth j poles 0) : CF) * RtoC (wgt weight i)) in
    let fct := map (fun i => nth i fct 0 * RtoC (wgt weight i)) (seq 0 (length z)) in
    if (length moments =? 0)%nat then Ok (lstsq polematrix fct)
    else if (length poles <? length moments)%nat then Err ValueError
    else
      do resid <- lstsq_ec (K := CF) Cconj qr solve_triangular lstsq allclose0 polematrix fct
           (Mat (length moments) (length poles) (fun i j => fpow (nth j poles 0) i)) moments;
      Ok (resid, [RtoC (sqrt (rsum (map (fun d : CF => (Cmod d * Cmod d)%R) (vsub (K := CF) (mv polematrix resid) fct))))]).

(** PadeApprox, polepade.py:99-138 *)
Record padeapprox := PadeApprox { pa_zeros : list CF; pa_poles : list CF; pa_residues : list CF; pa_amplitude : CF }.
Definition eval_polefct (f : padeapprox) (z : CF) : result CF :=
  if (length (pa_zeros f) <=? length (pa_poles f))%nat then
    let const := if (length (pa_zeros f) =? length (pa_poles f))%nat then pa_amplitude f else 0 in
    do g <- gf_z z (pa_poles f) (pa_residues f); Ok (const + g)
  else Err AssertionError.
Definition eval_zeropole (f : padeapprox) (z : CF) : result CF :=
  zp_eval (ZeroPole (pa_zeros f) (pa_poles f) (pa_amplitude f)) z.
Definition pa_moments (f : padeapprox) (order : nat) : CF := moments (pa_poles f) (pa_residues f) order.

(** continuation, polepade.py:498-520.  Dropping the imaginary part of real rotated frequencies (line 505) does not
    change values. *)
Definition continuation (fuel : nat) (z fct : list CF) (degree : Z) (weight : option (list R)) (moments : list CF)
  (rotate : option bool) (real_asymp : bool) : result padeapprox :=
  if (0 <? degree)%Z then Err ValueError
  else
    let rotate := match rotate with Some b => b | None => real_close0 z end in
    let zr := if rotate then map (fun x : CF => x / (Ci : CF)) z else z in
    do m <- number_poles_data fuel zr fct degree weight None;
    let m := fst m in
    do pls <- poles zr fct (Some (m + degree)%Z) (Z.to_nat m) weight;
    do zrs <- zeros zr fct pls (Some (m + degree)%Z) weight;
    let back := fun l : list CF => if rotate then map (fun x : CF => (Ci : CF) * x) l else l in
    do asymp <- asymptotic (back zr) fct (back zrs) (back pls) weight;
    let asymp := if real_asymp then RtoC (Re (fst asymp)) else fst asymp in
    let fct := if (degree =? 0)%Z then map (fun x : CF => x - asymp) fct else fct in
    do residues <- residues_ols (back zr) fct (back pls) weight moments;
    Ok (PadeApprox (back zrs) (back pls) (fst residues) asymp).
End PPade.
