(** * Model of the evaluation of quadratic Hermite-Padé approximants (gftool/hermpade.py:715-885) *)
From Coq Require Import Reals List.
From Coquelicot Require Import Coquelicot.
From Verif Require Import Base CBase.
Import ListNotations.
Local Open Scope C_scope.

(** numpy.polynomial.Polynomial.__call__: Horner evaluation, lowest coefficient first. *)
Fixpoint cpoly (l : list C) (z : C) : C :=
  match l with [] => 0 | c :: l' => c + z * cpoly l' z end.

(** _Hermite2Base.eval_branches, hermpade.py:723-732, for one point.  [np.emath.sqrt] is the principal
    root [csqrt] (signed zeros are not modelled); the masked [np.divide(..., out=, where=)] calls
    are the two conditional updates, the second seeing the updated [p_branch].  If [r(z) = 0] numpy
    continues with inf/nan: [NonFinite]. *)
Definition eval_branches (p q r : list C) (z : C) : result (C * C) :=
  let pz := cpoly p z in let qz := cpoly q z in let rz := cpoly r z in
  if Ceq_dec rz 0 then Err NonFinite
  else
    let discriminant := csqrt (qz * qz - 4 * pz * rz) in
    let p_branch := RtoC (/2) * (- qz + discriminant) / rz in
    let m_branch := RtoC (/2) * (- qz - discriminant) / rz in
    let p_branch := if Rlt_dec (Cmod p_branch) (Cmod m_branch) then pz / (rz * m_branch) else p_branch in
    let m_branch := if Rlt_dec (Cmod m_branch) (Cmod p_branch) then pz / (rz * p_branch) else m_branch in
    Ok (p_branch, m_branch).

(** RatPol.eval, basis/__init__.py: numer(z)/denom(z). *)
Definition ratpol_eval (numer denom : list C) (z : C) : result C :=
  if Ceq_dec (cpoly denom z) 0 then Err NonFinite else Ok (cpoly numer z / cpoly denom z).

(** Hermite2.eval, hermpade.py:821-825 *)
Definition hermite2_eval (p q r numer denom : list C) (z : C) : result C :=
  do pm <- eval_branches p q r z;
  do pade_ <- ratpol_eval numer denom z;
  Ok (if Rlt_dec (Cmod (fst pm - pade_)) (Cmod (snd pm - pade_)) then fst pm else snd pm).

(** np.select(conds, choices): the first choice whose condition holds, default 0. *)
Fixpoint np_select (l : list (bool * C)) : C :=
  match l with [] => 0 | (b, c) :: l' => if b then c else np_select l' end.
Definition rleb (x y : R) : bool := if Rle_dec x y then true else false.

(** _Hermite2Ret.eval, hermpade.py:860-880 *)
Definition hermite2ret_eval (p q r : list C) (z : C) : result C :=
  do pm <- eval_branches p q r z;
  let p_branch := fst pm in let m_branch := snd pm in
  let p_is_ret := rleb (snd p_branch) 0 in
  let m_is_ret := rleb (snd m_branch) 0 in
  Ok (np_select
    [(p_is_ret && negb m_is_ret, p_branch);
     (negb p_is_ret && m_is_ret, m_branch);
     (p_is_ret && m_is_ret && rleb (snd m_branch) (snd p_branch), p_branch);
     (p_is_ret && m_is_ret && rleb (snd p_branch) (snd m_branch), m_branch);
     (negb p_is_ret && negb m_is_ret && rleb (snd p_branch) (snd m_branch), p_branch);
     (negb p_is_ret && negb m_is_ret && rleb (snd m_branch) (snd p_branch), m_branch)]%bool).
