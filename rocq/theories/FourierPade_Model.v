(** * Model of the Fourier-Padé transforms, gftool/fourier.py:1339-1490 (one-dimensional data, one frequency) *)
From Coq Require Import List Arith ZArith Reals Bool.
From Coquelicot Require Import Coquelicot.
From Verif Require Import Base CBase CExp Herm_Model HermEval_Model LinPred_Model Fourier_Model.
Import ListNotations.
Local Open Scope R_scope.

(** the keyword quad: 'trapz', 'simps' or anything else *)
Inductive quad_kind := QTrapz | QSimps | QOther.
(** fourier.py:1390-1393 together with the call weight(delta_tt, gf_t, endpoint=False) *)
Definition quad_weight (quad : quad_kind) (delta : R) (gf_t : list C) : result (list C) :=
  match quad with
  | QTrapz => trapz_weight (K := CF) (RtoC delta) gf_t false
  | QSimps => simps_weight (K := CF) (RtoC delta) gf_t false
  | QOther => Err ValueError
  end.
Definition is_quad (quad : quad_kind) : bool := match quad with QOther => false | _ => true end.

Section TT.
(** np.isclose *)
Variable close : R -> R -> bool.

(** tt2z_pade, fourier.py:1385-1403; [pade_fn an num_deg den_deg] is the keyword pade.  Simplification: negative degrees
    passed to [pade] (fewer data than the asymptotic degree requires) are an error value. *)
Definition tt2z_pade (pade_fn : list C -> nat -> nat -> result (list C * list C)) (tt : list R) (gf_t : list C) (z : C)
    (degree : Z) (quad : quad_kind) : result C :=
  let degree := (degree + 1)%Z in
  if (List.length tt <? 2)%nat then Err IndexError
  else
    let delta_tt := nth 1 tt 0 - nth 0 tt 0 in
    if negb (equidistant close tt) then Err ValueError
    else if negb (is_quad quad) then Err ValueError
    else if Req_EM_T (nth 0 tt 0) 0 then
      if negb (List.length tt =? List.length gf_t)%nat then Err AssertionError
      else
        do coeffs <- quad_weight quad delta_tt gf_t;
        let deg := ((Z.of_nat (List.length coeffs) - degree - 1) / 2)%Z in
        let y := cexp (Cmult (Cmult Ci z) (RtoC delta_tt)) in
        if ((deg <? 0) || (deg + degree <? 0))%Z then Err ValueError
        else do pq <- pade_fn coeffs (Z.to_nat (deg + degree)) (Z.to_nat deg); ratpol_eval (fst pq) (snd pq) y
    else Err AssertionError.

(** tt2z_herm2, fourier.py:1449-1467; [herm2 an deg_p deg_q deg_r] is Hermite2.from_taylor or from_taylor_lstsq *)
Definition tt2z_herm2 (herm2 : list C -> nat -> nat -> nat -> result (list C * list C * list C * (list C * list C)))
    (tt : list R) (gf_t : list C) (z : C) (quad : quad_kind) : result C :=
  if (List.length tt <? 2)%nat then Err IndexError
  else
    let delta_tt := nth 1 tt 0 - nth 0 tt 0 in
    if negb (equidistant close tt) then Err ValueError
    else if negb (is_quad quad) then Err ValueError
    else if Req_EM_T (nth 0 tt 0) 0 then
      if Rlt_dec 0 (snd z) then
        do coeffs <- quad_weight quad delta_tt gf_t;
        if (List.length coeffs <? 2)%nat then Err ValueError
        else
          let deg := ((List.length coeffs - 2) / 3)%nat in
          let y := cexp (Cmult (Cmult Ci z) (RtoC delta_tt)) in
          do h <- herm2 coeffs deg deg deg;
          hermite2_eval (fst (fst (fst h))) (snd (fst (fst h))) (snd (fst h)) (fst (snd h)) (snd (snd h)) y
      else Err AssertionError
    else Err AssertionError.

(** tt2z_lpz, fourier.py:1470-1490; order 0 is not modelled (see pcoeff_covar) *)
Variable lstsq : list (list C) -> list C -> list C.
Definition tt2z_lpz (tt : list R) (gf_t : list C) (z : C) (order : option nat) (quad : quad_kind) : result C :=
  if (List.length tt <? 2)%nat then Err IndexError
  else
    let delta_tt := nth 1 tt 0 - nth 0 tt 0 in
    if negb (equidistant close tt) then Err ValueError
    else
      let order := match order with None => (List.length tt / 2)%nat | Some o => o end in
      do coeffs <- quad_weight quad delta_tt gf_t;
      do pc <- pcoeff_covar (K := CF) lstsq coeffs order;
      let aa := RtoC 1 :: fst pc in
      let convo := map (fun ll => nsum (K := CF) (S ll) (fun j => Cmult (nth j aa (RtoC 0)) (nth (ll - j) coeffs (RtoC 0)))) (seq 0 order) in
      if (List.length tt <? order + 1)%nat then Err ValueError
      else
        let numer := nsum (K := CF) order (fun i => Cmult (tphase z (nth i tt 0)) (nth i convo (RtoC 0))) in
        let denom := nsum (K := CF) (order + 1) (fun i => Cmult (tphase z (nth i tt 0)) (nth i aa (RtoC 0))) in
        if Ceq_dec denom (RtoC 0) then Err NonFinite else Ok (Cdiv numer denom).
End TT.
