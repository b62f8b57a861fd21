(** * Model of gftool/statistics.py

    Numbers are exact reals/complex numbers; overflow and rounding are not modelled.  A division by
    zero (numpy: inf/nan) is the error value [NonFinite]. *)
From Coq Require Import Reals ZArith.
From Coquelicot Require Import Coquelicot.
From Verif Require Import Base CBase CExp.
Local Open Scope R_scope.

(** scipy.special.expit, logit (library functions, by their definition) *)
Definition expit (x : R) : R := / (1 + exp (- x)).
Definition logit (p : R) : R := ln (p / (1 - p)).

(** fermi_fct for real arguments, statistics.py:96-98 *)
Definition fermi_fct (eps beta : R) : R := expit (- (eps * beta)).

(** fermi_fct for complex arguments, statistics.py:101-107 (one element); [beta] real.  [fermi_exparg]
    is the argument the exponential is evaluated at. *)
Definition fermi_exparg (z : C) : C := if Rlt_dec 0 (fst z) then Copp z else z.
Definition fermi_fct_c (eps : C) (beta : R) : result C :=
  let z := Cmult eps (RtoC beta) in
  let e := cexp (fermi_exparg z) in
  if Rlt_dec 0 (fst z)
  then if Ceq_dec (Cplus 1 e) 0 then Err NonFinite else Ok (Cdiv e (Cplus 1 e))
  else if Ceq_dec (Cplus e 1) 0 then Err NonFinite else Ok (Cdiv 1 (Cplus e 1)).

(** fermi_fct_d1, statistics.py:142-143 *)
Definition fermi_fct_d1 (eps beta : R) : R :=
  let fermi := fermi_fct eps beta in - beta * fermi * (1 - fermi).

(** fermi_fct_inv, statistics.py:176 *)
Definition fermi_fct_inv (fermi beta : R) : R := - logit fermi / beta.

(** Scalars with their dtype: the array [res] of bose_fct inherits the dtype of [beta*eps], and
    assigning a float to an element of an integer array truncates towards zero. *)
Inductive num := NInt (n : Z) | NFlt (r : R).
Definition nval (x : num) : R := match x with NInt n => IZR n | NFlt r => r end.
Definition nmul (x y : num) : num :=
  match x, y with NInt a, NInt b => NInt (a * b) | _, _ => NFlt (nval x * nval y) end.
Definition trunc (r : R) : Z := if Rle_dec 0 r then Int_part r else (- Int_part (- r))%Z.
Definition cast_like (x : num) (r : R) : num := match x with NInt _ => NInt (trunc r) | NFlt _ => NFlt r end.

(** np.expm1 *)
Definition expm1 (x : R) : R := exp x - 1.

(** bose_fct, statistics.py:49-58 (one element) *)
Definition bose_fct (eps beta : num) : result num :=
  let betaeps := nmul beta eps in
  let x := nval betaeps in
  if Rlt_dec x 700
  then if Req_EM_T (expm1 x) 0 then Err NonFinite else Ok (cast_like betaeps (1 / expm1 x))
  else Ok (cast_like betaeps (- exp (- x) / expm1 (- x))).

(** matsubara_frequencies, statistics.py:203-204, and matsubara_frequencies_b, 231-232 (one element;
    non-integer points raise TypeError and are not modelled) *)
Definition matsubara_frequencies (n : Z) (beta : R) : C :=
  Cmult (Cdiv (Cmult Ci (RtoC PI)) (RtoC beta)) (RtoC (IZR (2 * n + 1))).
Definition matsubara_frequencies_b (n : Z) (beta : R) : C :=
  Cmult (Cdiv (Cmult (Cmult 2 Ci) (RtoC PI)) (RtoC beta)) (RtoC (IZR n)).
