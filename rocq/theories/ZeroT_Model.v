(** * Zero temperature: the statistics and pole functions with beta = np.inf
    The formulas of Stat_Model, Pole_Model and Matrix_Model evaluated with the IEEE rules for infinities and NaN.  Not
    modelled: signed zeros (a division by zero gives [XNaN] here), overflow of finite numbers, rounding. *)
From Coq Require Import List Arith Reals Lra Bool.
From Coquelicot Require Import Coquelicot.
From Verif Require Import Base FSum CBase Herm_Model Herm_Spec Linalg_Model Stat_Model Pole_Model Matrix_Model.
Import ListNotations.
Local Open Scope R_scope.

Inductive xr := XR (r : R) | XPos | XNeg | XNaN.
(** +inf or -inf with the sign of [s] times the sign of an infinity; 0 * inf is NaN *)
Definition xinf (s : R) : xr := if Rlt_dec 0 s then XPos else if Rlt_dec s 0 then XNeg else XNaN.
Definition xneg (x : xr) : xr := match x with XR a => XR (- a) | XPos => XNeg | XNeg => XPos | XNaN => XNaN end.
Definition xadd (x y : xr) : xr :=
  match x, y with
  | XR a, XR b => XR (a + b)
  | XNaN, _ | _, XNaN | XPos, XNeg | XNeg, XPos => XNaN
  | XPos, _ | _, XPos => XPos
  | XNeg, _ | _, XNeg => XNeg
  end.
Definition xmul (x y : xr) : xr :=
  match x, y with
  | XR a, XR b => XR (a * b)
  | XNaN, _ | _, XNaN => XNaN
  | XR a, XPos | XPos, XR a => xinf a
  | XR a, XNeg | XNeg, XR a => xinf (- a)
  | XPos, XPos | XNeg, XNeg => XPos
  | XPos, XNeg | XNeg, XPos => XNeg
  end.
Definition xdiv (x y : xr) : xr :=
  match x, y with
  | XR a, XR b => if Req_EM_T b 0 then XNaN else XR (a / b)
  | XR a, XPos | XR a, XNeg => XR 0
  | XPos, XR b => xinf b
  | XNeg, XR b => xinf (- b)
  | _, _ => XNaN
  end.
Definition xexp (x : xr) : xr := match x with XR a => XR (exp a) | XPos => XPos | XNeg => XR 0 | XNaN => XNaN end.
Definition xexpm1 (x : xr) : xr := match x with XR a => XR (expm1 a) | XPos => XPos | XNeg => XR (-1) | XNaN => XNaN end.
(** scipy.special.expit *)
Definition xexpit (x : xr) : xr := match x with XR a => XR (expit a) | XPos => XR 1 | XNeg => XR 0 | XNaN => XNaN end.
(** comparisons with NaN are false *)
Definition xle (x y : xr) : bool :=
  match x, y with
  | XR a, XR b => if Rle_dec a b then true else false
  | XNaN, _ | _, XNaN => false
  | XNeg, _ | _, XPos => true
  | _, _ => false
  end.
Definition xlt (x y : xr) : bool :=
  match x, y with
  | XR a, XR b => if Rlt_dec a b then true else false
  | XNaN, _ | _, XNaN => false
  | XNeg, (XR _ | XPos) | XR _, XPos => true
  | _, _ => false
  end.

(** fermi_fct for real arguments, statistics.py:96-98 *)
Definition xfermi_fct (eps : R) (beta : xr) : xr := xexpit (xneg (xmul (XR eps) beta)).
(** bose_fct, statistics.py:49-58 (one element, floats) *)
Definition xbose_fct (eps : R) (beta : xr) : xr :=
  let betaeps := xmul beta (XR eps) in
  if xlt betaeps (XR 700) then xdiv (XR 1) (xexpm1 betaeps)
  else xdiv (xneg (xexp (xneg betaeps))) (xexpm1 (xneg betaeps)).

(** the range check of the imaginary times, pole.py:344 and __init__.py:337 *)
Definition xtau_ok (tau : R) (beta : xr) : bool := xle (XR 0) (XR tau) && xle (XR tau) beta.
(** _single_pole_gf_tau, pole.py:343-348, for a real pole *)
Definition xsingle_pole_gf_tau (tau pole : R) (beta : xr) : xr :=
  let exponent := xmul (if Rle_dec 0 pole then XR (- tau) else xadd (XR (- tau)) beta) (XR pole) in
  xmul (xneg (xexp exponent)) (xfermi_fct (- sgn pole * pole) beta).
Definition xsum (l : list xr) : xr := fold_right xadd (XR 0) l.
(** gf_tau, pole.py:374-378, for real poles *)
Definition xgf_tau (tau : R) (poles weights : list R) (beta : xr) : result xr :=
  if xtau_ok tau beta
  then Ok (xsum (map (fun pw => xmul (XR (snd pw)) (xsingle_pole_gf_tau tau (fst pw) beta)) (combine poles weights)))
  else Err AssertionError.
(** PoleGf.occ, pole.py:212-226 *)
Definition xpole_occ (poles residues : list R) (beta : xr) : xr :=
  xsum (map (fun pw => xmul (XR (snd pw)) (xfermi_fct (fst pw) beta)) (combine poles residues)).
(** pole_gf_tau_b, __init__.py:337-345 *)
Definition xpole_gf_tau_b (tau : R) (poles weights : list R) (beta : xr) : result xr :=
  if xtau_ok tau beta then
    if existsb (fun p => if Rlt_dec p 0 then true else false) poles then Err ValueError
    else Ok (xsum (map (fun pw => xmul (xmul (XR (snd pw)) (xbose_fct (fst pw) (xneg beta))) (xexp (XR (- tau * fst pw)))) (combine poles weights)))
  else Err AssertionError.

(** a complex number times a real one that may not be finite; [None] is nan + nan j *)
Definition cscale (c : C) (x : xr) : ext CF := match x with XR r => Some (Cmult c (RtoC r)) | _ => None end.
(** _single_pole_gf_gr_t, _single_pole_gf_le_t, pole.py:411-418 *)
Definition xsingle_pole_gf_gr_t (tt pole : R) (beta : xr) : ext CF :=
  cscale (Cmult (Copp Ci) (phase (RtoC pole) tt)) (xadd (XR 1) (xneg (xfermi_fct pole beta))).
Definition xsingle_pole_gf_le_t (tt pole : R) (beta : xr) : ext CF :=
  cscale (Cmult Ci (phase (RtoC pole) tt)) (xfermi_fct pole beta).

(** siam.gf0_loc_gr_t, gf0_loc_le_t, siam.py:111-117, 141-147: a single NaN spoils the sum over the eigenstates *)
Section T.
Variable eigh : mat CF -> result (list R * mat CF).
Variable close0 : C -> bool.
Variable cast : C -> C.
Definition xsiam_loc (f : R -> ext CF) (e_onsite : C) (e_bath hopping : list C) : result (ext CF) :=
  let ham := hamiltonian_matrix (K := CF) Cconj cast e_onsite e_bath hopping in
  if negb (allclose0 (K := CF) close0 (msub ham (ctr (K := CF) Cconj ham))) then Err ValueError
  else
    do ev <- eigh ham;
    let (e, v) := ev in
    Ok (if forallb (fun p => match f p with Some _ => true | None => false end) e then
          let d := Dec (K := CF) (rows_to 1 v) (map (fun p => match f p with Some c => c | None => RtoC 0 end) e) (cols_to 1 (ctr (K := CF) Cconj v)) in
          Some (nth 0 (recon_diag d (eig d)) (RtoC 0))
        else None).
Definition xgf0_loc_gr_t (tt : R) e_onsite e_bath hopping (beta : xr) := xsiam_loc (fun p => xsingle_pole_gf_gr_t tt p beta) e_onsite e_bath hopping.
Definition xgf0_loc_le_t (tt : R) e_onsite e_bath hopping (beta : xr) := xsiam_loc (fun p => xsingle_pole_gf_le_t tt p beta) e_onsite e_bath hopping.
End T.
