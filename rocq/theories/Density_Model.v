(** * Model of chemical_potential in gftool/density.py (density_iw is in Pole_Model) *)
From Coq Require Import List Reals.
From Verif Require Import Base Pole_Model.
Import ListNotations.
Local Open Scope R_scope.

Section CP.
Variable occ_root : R -> R.
(** scipy.optimize.root_scalar(occ_root, bracket): (root, converged), or an exception *)
Variable root_scalar : (R -> R) -> R * R -> result (R * bool).

(** the while loop, density.py:167-175; [k] counts the loops left before [loops > 100] *)
Fixpoint search (k : nat) (mu0 sign0 mu1 step : R) : result (R * R) :=
  if Req_EM_T (sgn (occ_root (mu0 + step))) sign0 then
    match k with
    | O => Err RuntimeError
    | S k' => search k' mu0 sign0 (mu0 + step) (step * 2)
    end
  else Ok (mu1, mu0 + step).

(** chemical_potential, density.py:157-188 *)
Definition chemical_potential (mu0 step0 : R) : result R :=
  let delta_occ0 := occ_root mu0 in
  if Req_EM_T delta_occ0 0 then Ok mu0
  else
    do b <- search 100 mu0 (sgn delta_occ0) mu0 (- step0 * delta_occ0);
    let bracket := (Rmin (fst b) (snd b), Rmax (fst b) (snd b)) in
    do res <- root_scalar occ_root bracket;
    if snd res then Ok (fst res) else Err RuntimeError.
End CP.
