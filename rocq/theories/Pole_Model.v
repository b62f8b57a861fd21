(** * Model of gftool/basis/pole.py, and the pole functions of gftool/__init__.py and density.py

    One-dimensional poles and weights of equal length (numpy broadcasts further axes element-wise);
    exact arithmetic; a division by zero is [NonFinite]. *)
From Coq Require Import List Arith ZArith Reals Bool.
From Coquelicot Require Import Coquelicot.
From Verif Require Import Base CBase CExp Stat_Model Linalg_Model.
Import ListNotations.

Section Gen.
Context {K : Fld}.
Local Open Scope fld_scope.

(** gf_z, pole.py:308-310 *)
Definition gf_z (z : K) (poles weights : list K) : result K :=
  if existsb (fun p => feqb (z - p) 0) poles then Err NonFinite
  else Ok (lsum (map (fun pw => snd pw / (z - fst pw)) (combine poles weights))).

(** gf_d1_z, pole.py:338-340 *)
Definition gf_d1_z (z : K) (poles weights : list K) : result K :=
  if existsb (fun p => feqb (z - p) 0) poles then Err NonFinite
  else Ok (- lsum (map (fun pw => snd pw * (1 / fpow (z - fst pw) 2)) (combine poles weights))).

(** moments, pole.py:441-443; [order] is a positive integer *)
Definition moments (poles weights : list K) (order : nat) : K :=
  lsum (map (fun pw => snd pw * fpow (fst pw) (order - 1)) (combine poles weights)).
End Gen.

Local Open Scope R_scope.

(** _chebyshev_points, pole.py:30-32 *)
Definition cheb (num i : nat) : R := sin (1 / 2 * PI / INR num * (- INR num + 1 + 2 * INR i)).
Definition chebyshev_points (num : nat) : result (list R) :=
  if (num =? 0)%nat then Err ZeroDivisionError else Ok (map (cheb num) (seq 0 num)).
(** Python's max *)
Definition pymax (l : list R) : R := fold_left Rmax (tl l) (hd 0 l).

(** Choice of the width, pole.py:486-492 and 556-562.  The threshold is the decimal 0.1. *)
Definition pick_width (width : option R) (n_mom : nat) (abs_m1 : R) (pts : list R) : R :=
  match width with
  | Some w => w
  | None => if (n_mom <=? 1)%nat then 1
            else if Rle_dec (1 / 10) abs_m1 then abs_m1 / pymax pts else 1
  end.

Section Moments.
(** the moments may be real or complex *)
Context {K : Fld}.
Variable absK : K -> R.
Variable ofR : R -> K.
Variable solve : mat K -> list K -> result (list K).     (* np.linalg.solve *)

(** gf_from_moments, pole.py:483-498 *)
Definition gf_from_moments (moms : list K) (width : option R) : result (list R * list K) :=
  let n_mom := length moms in
  if (n_mom =? 0)%nat then Ok ([], [])
  else
    do pts <- chebyshev_points n_mom;
    let poles := map (Rmult (pick_width width n_mom (absK (nth 1 moms F0)) pts)) pts in
    do resid <- solve (Mat n_mom n_mom (fun i j => fpow (ofR (nth j poles 0)) i)) moms;
    Ok (poles, resid).
End Moments.

(** np.sign *)
Definition sgn (x : R) : R := if Rlt_dec 0 x then 1 else if Rlt_dec x 0 then -1 else 0.
Definition tau_ok (tau beta : R) : bool := if Rle_dec 0 tau then if Rle_dec tau beta then true else false else false.

(** _single_pole_gf_tau, pole.py:343-348, for a real pole and for a complex one *)
Definition single_pole_gf_tau (tau pole beta : R) : R :=
  let exponent := (if Rle_dec 0 pole then - tau else - tau + beta) * pole in
  - exp exponent * fermi_fct (- sgn pole * pole) beta.
Definition single_pole_gf_tau_c (tau : R) (pole : C) (beta : R) : result C :=
  let exponent := Cmult (RtoC (if Rle_dec 0 (fst pole) then - tau else - tau + beta)) pole in
  do f <- fermi_fct_c (Cmult (RtoC (- sgn (fst pole))) pole) beta;
  Ok (Cmult (Copp (cexp exponent)) f).

(** gf_tau, pole.py:374-378, for real poles *)
Definition gf_tau (tau : R) (poles weights : list R) (beta : R) : result R :=
  if tau_ok tau beta
  then Ok (lsum (K := RF) (map (fun pw => snd pw * single_pole_gf_tau tau (fst pw) beta) (combine poles weights)))
  else Err AssertionError.

(** PoleGf.occ, pole.py:212-226 *)
Definition pole_occ (poles residues : list R) (beta : R) : R :=
  lsum (K := RF) (map (fun pw => snd pw * fermi_fct (fst pw) beta) (combine poles residues)).

(** pole_gf_tau_b, __init__.py:337-345, float arguments *)
Definition pole_gf_tau_b (tau : R) (poles weights : list R) (beta : R) : result R :=
  if tau_ok tau beta then
    if existsb (fun p => if Rlt_dec p 0 then true else false) poles then Err ValueError
    else fold_right (fun pw acc =>
           do s <- acc; do b <- bose_fct (NFlt (fst pw)) (NFlt (- beta));
           Ok (snd pw * nval b * exp (- tau * fst pw) + s)) (Ok 0) (combine poles weights)
  else Err AssertionError.

(** _single_pole_gf_ret_t, _single_pole_gf_gr_t, _single_pole_gf_le_t, pole.py:381-383, 411-418 *)
Definition phase (pole : C) (tt : R) : C := cexp (Cmult (Cmult (Copp Ci) pole) (RtoC tt)).
Definition single_pole_gf_ret_t (tt : R) (pole : C) : C :=
  if Rle_dec 0 tt then Cmult (Copp Ci) (phase pole tt) else RtoC 0.
Definition single_pole_gf_gr_t (tt pole beta : R) : C :=
  Cmult (Cmult (Copp Ci) (phase (RtoC pole) tt)) (RtoC (1 - fermi_fct pole beta)).
Definition single_pole_gf_le_t (tt pole beta : R) : C :=
  Cmult (Cmult Ci (phase (RtoC pole) tt)) (RtoC (fermi_fct pole beta)).

(** gf_ret_t, pole.py:406-408 *)
Definition gf_ret_t (tt : R) (poles weights : list C) : C :=
  lsum (K := CF) (map (fun pw => Cmult (snd pw) (single_pole_gf_ret_t tt (fst pw))) (combine poles weights)).

Section Fit.
(** np.linalg.lstsq and the constrained version linalg.lstsq_ec (Linalg_Model) *)
Variable lstsq : mat RF -> list R -> list R * list R.
Variable lstsq_ec : mat RF -> list R -> mat RF -> list R -> result (list R).

Definition wt (weight : option (list R)) (i : nat) : R := match weight with None => 1 | Some w => nth i w 0 end.

(** gf_from_z, pole.py:554-588.  z, gfz and weight have equal lengths, moments are real. *)
Definition z_matrix (z : list C) (poles : list R) (weight : option (list R)) : mat RF :=
  Mat (K := RF) (2 * length z) (length poles)
    (fun i j => let n := length z in
       let v k := Cdiv 1 (Cminus (nth k z 0%C) (RtoC (nth j poles 0))) in
       if (i <? n)%nat then fst (v i) * wt weight i else snd (v (i - n)%nat) * wt weight (i - n)).
Definition z_rhs (gfz : list C) (weight : option (list R)) : list R :=
  map (fun i => fst (nth i gfz 0%C) * wt weight i) (seq 0 (length gfz)) ++
  map (fun i => snd (nth i gfz 0%C) * wt weight i) (seq 0 (length gfz)).
Definition vander (poles : list R) (m : nat) : mat RF :=
  Mat (K := RF) m (length poles) (fun i j => fpow (K := RF) (nth j poles 0) i).
Definition hits_pole (z : list C) (poles : list R) : bool :=
  existsb (fun w => existsb (fun p => if Ceq_dec (Cminus w (RtoC p)) 0 then true else false) poles) z.

Definition gf_from_z (z gfz : list C) (n_pole : nat) (moms : list R) (width : option R) (weight : option (list R))
  : result (list R * list R) :=
  do pts <- chebyshev_points n_pole;
  let m := length moms in
  let poles := map (Rmult (pick_width width m (Rabs (nth 1 moms 0)) pts)) pts in
  let a := z_matrix z poles weight in
  let b := z_rhs gfz weight in
  do resid <-
    (if (0 <? m)%nat
     then if (n_pole <? m)%nat then Err ValueError
          else if hits_pole z poles then Err NonFinite else lstsq_ec a b (vander poles m) moms
     else if hits_pole z poles then Err NonFinite else Ok (fst (lstsq a b)));
  Ok (poles, resid).

(** gf_from_tau, pole.py:638-666.  occ = False is the number 0. *)
Definition linspace (start stop : R) (num i : nat) : R := start + (stop - start) * (INR i / INR (num - 1)).
Definition tau_matrix (n_tau : nat) (poles : list R) (beta : R) (weight : option (list R)) : mat RF :=
  Mat (K := RF) n_tau (length poles)
    (fun i j => single_pole_gf_tau (linspace 0 beta n_tau i) (nth j poles 0) beta * wt weight i).
Definition occ_matrix (poles : list R) (m : nat) (beta : R) : mat RF :=
  Mat (K := RF) (m + m) (length poles)
    (fun i j => if (i <? m)%nat then fpow (K := RF) (nth j poles 0) i else fermi_fct (nth j poles 0) beta).
Definition truthy (x : R) : bool := if Req_EM_T x 0 then false else true.

Definition gf_from_tau (gftau : list R) (n_pole : nat) (beta : R) (moms : list R) (occ width : R)
  (weight : option (list R)) : result (list R * list R) :=
  do pts <- chebyshev_points n_pole;
  let m := length moms in
  let n_tau := length gftau in
  let poles := map (Rmult width) pts in
  if ((0 <? n_tau)%nat && negb (tau_ok 0 beta))%bool then Err AssertionError else
  let a := tau_matrix n_tau poles beta weight in
  let b := map (fun i => nth i gftau 0 * wt weight i) (seq 0 n_tau) in
  do resid <-
    (if ((0 <? m)%nat || truthy occ)%bool then
       if (Z.of_nat n_pole <? Z.of_nat m + trunc occ)%Z then Err ValueError
       else if (m =? 0)%nat then Err ValueError              (* polyvander(poles, deg=-1) *)
       else if truthy occ then lstsq_ec a b (occ_matrix poles m beta) (moms ++ repeat occ m)
       else lstsq_ec a b (vander poles m) moms
     else Ok (fst (lstsq a b)));
  Ok (poles, resid).

Variable solve : mat RF -> list R -> result (list R).

(** density_iw, density.py:89-99; one set of real moments *)
Definition density_iw (iws gf_iw : list C) (beta : R) (weights : list R) (moms : list R) (n_fit : nat) : result R :=
  let n_mom := length moms in
  do mom_gf <-
    (if (n_fit =? 0)%nat then gf_from_moments (K := RF) Rabs (fun x => x) solve moms None
     else gf_from_z iws gf_iw (n_fit + n_mom) moms None (Some (map (fun w => (snd w) ^ (n_mom + n_fit)) iws)));
  let (poles, resid) := mom_gf in
  if hits_pole iws poles then Err NonFinite
  else
    let tail w := fst (lsum (K := CF) (map (fun pr => Cdiv (RtoC (snd pr)) (Cminus w (RtoC (fst pr)))) (combine poles resid))) in
    Ok (2 / beta * nsum (K := RF) (length iws)
                     (fun i => nth i weights 0 * (fst (nth i gf_iw 0%C) - tail (nth i iws 0%C)))
        + pole_occ poles resid beta).
End Fit.
