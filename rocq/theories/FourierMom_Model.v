(** * Model of gftool/fourier.py, transforms with pole subtraction

    One-dimensional arrays, exact arithmetic.  [lstsq], [lstsq_ec], [solve] are the linear-algebra back-ends (as in Pole_Model),
    [fourier] the numerical transform passed as argument, [minimize_scalar] scipy.optimize.minimize_scalar, which gets the
    objective and returns the position of the minimum. *)
From Coq Require Import List Arith ZArith Reals Bool String.
From Coquelicot Require Import Coquelicot.
From Verif Require Import Base CBase CExp Stat_Model Linalg_Model Pole_Model Cpa_Model.
Import ListNotations.
Local Open Scope R_scope.

(** PoleFct.eval_z, pole.py:48-50, on an array *)
Definition eval_z (poles resid : list R) (z : list C) : result (list C) :=
  if hits_pole z poles then Err NonFinite
  else Ok (map (fun w => lsum (K := CF) (map (fun pr => Cdiv (RtoC (snd pr)) (Cminus w (RtoC (fst pr)))) (combine poles resid))) z).
(** PoleGf.eval_tau, pole.py:169-186, on np.linspace(0, beta, num=n) *)
Definition tau_grid (beta : R) (n : nat) : list R := map (linspace 0 beta n) (seq 0 n).
Definition eval_tau (poles resid : list R) (tau : list R) (beta : R) : result (list R) := mapM (fun t => gf_tau t poles resid beta) tau.

Definition iw_grid (beta : R) (n : nat) : list C := map (fun j => matsubara_frequencies (Z.of_nat j) beta) (seq 0 n).
Definition rsub (a b : list R) : list R := map (fun i => nth i a 0 - nth i b 0) (seq 0 (List.length a)).
Definition radd (a b : list R) : list R := map (fun i => nth i a 0 + nth i b 0) (seq 0 (List.length a)).
Definition csub (a b : list C) : list C := map (fun i => Cminus (nth i a (RtoC 0)) (nth i b (RtoC 0))) (seq 0 (List.length a)).
Definition cadd (a b : list C) : list C := map (fun i => Cplus (nth i a (RtoC 0)) (nth i b (RtoC 0))) (seq 0 (List.length a)).

Section Mom.
Variable lstsq : mat RF -> list R -> list R * list R.
Variable lstsq_ec : mat RF -> list R -> mat RF -> list R -> result (list R).
Variable solve : mat RF -> list R -> result (list R).

(** iw2tau, fourier.py:380-393 *)
Definition iw2tau (fourier : list C -> R -> result (list R)) (gf_iw : list C) (beta : R) (moms : list R) (n_fit : nat) : result (list R) :=
  if Req_EM_T beta 0 then Err ZeroDivisionError
  else
    let iws := iw_grid beta (List.length gf_iw) in
    do pg <- (if (n_fit =? 0)%nat then gf_from_moments (K := RF) Rabs (fun x => x) solve moms None
              else let n_mom := List.length moms in
                   gf_from_z lstsq lstsq_ec iws gf_iw (n_fit + n_mom) moms None (Some (map (fun w => (snd w) ^ (n_mom + n_fit)) iws)));
    do ez <- eval_z (fst pg) (snd pg) iws;
    do gt <- fourier (csub gf_iw ez) beta;
    do et <- eval_tau (fst pg) (snd pg) (tau_grid beta (List.length gt)) beta;
    Ok (radd gt et).

(** tau2iw, fourier.py:973-991; the test np.allclose(m1, moments[0]) only logs, but fails for empty moments *)
Definition tau2iw (fourier : list R -> R -> result (list C)) (gftau : list R) (beta : R) (n_pole : option nat) (moments : option (list R))
  : result (list C) :=
  match gftau with
  | [] => Err IndexError
  | g0 :: _ =>
      let m1 := - last gftau 0 - g0 in
      do moms <- (match moments with None => Ok [m1] | Some [] => Err IndexError | Some l => Ok l end);
      let n := match n_pole with None => List.length moms | Some n => n end in
      do pg <- gf_from_tau lstsq lstsq_ec gftau n beta moms 0 1 None;
      do et <- eval_tau (fst pg) (snd pg) (tau_grid beta (List.length gftau)) beta;
      do giw <- fourier (rsub gftau et) beta;
      if Req_EM_T beta 0 then Err ZeroDivisionError
      else
        do ez <- eval_z (fst pg) (snd pg) (iw_grid beta (List.length giw));
        Ok (cadd giw ez)
  end.

Variable minimize_scalar : (R -> result R) -> result R.

(** _z2polegf, fourier.py:994-1006, and izp2tau, 1105-1106.  [moments if width else moments[..., 0:1]]: the slice of the first moment *)
Definition z2polegf (z gfz : list C) (n_pole : nat) (moms : list R) : result (list R * list R) :=
  let error width :=
    do pg <- gf_from_z lstsq lstsq_ec z gfz n_pole (if truthy width then moms else firstn 1 moms) (Some width) None;
    do fit <- eval_z (fst pg) (snd pg) z;
    Ok (sqrt (nsum (K := RF) (List.length gfz) (fun i => (Cmod (Cminus (nth i gfz (RtoC 0)) (nth i fit (RtoC 0)))) ^ 2))) in
  do x <- minimize_scalar error;
  gf_from_z lstsq lstsq_ec z gfz n_pole moms (Some x) None.
Definition izp2tau (izp gf_izp : list C) (tau : list R) (beta : R) (moms : list R) : result (list R) :=
  do pg <- z2polegf izp gf_izp (List.length izp) moms;
  eval_tau (fst pg) (snd pg) tau beta.

(** _tau2polegf, fourier.py:1645-1667, and tau2izp, 1773-1774 *)
Definition tau2polegf (gftau : list R) (beta : R) (n_pole : nat) (moments : option (list R)) (occ : R) (weight : option (list R))
  : result (list R * list R) :=
  match gftau with
  | [] => Err IndexError
  | g0 :: _ =>
      let m1 := - last gftau 0 - g0 in
      do moms <- (match moments with None => Ok [m1] | Some [] => Err IndexError | Some l => Ok l end);
      let error width :=
        do pg <- gf_from_tau lstsq lstsq_ec gftau n_pole beta (if truthy width then moms else [m1]) occ width weight;
        do fit <- eval_tau (fst pg) (snd pg) (tau_grid beta (List.length gftau)) beta;
        Ok (sqrt (nsum (K := RF) (List.length gftau) (fun i => (nth i gftau 0 - nth i fit 0) ^ 2))) in
      do x <- minimize_scalar error;
      gf_from_tau lstsq lstsq_ec gftau n_pole beta moms occ x weight
  end.
Definition tau2izp (gftau : list R) (beta : R) (izp : list C) (moments : option (list R)) (occ : R) (weight : option (list R)) : result (list C) :=
  do pg <- tau2polegf gftau beta (List.length izp) moments occ weight;
  eval_z (fst pg) (snd pg) izp.
End Mom.
