(** * Model of the rational function representations, gftool/basis/__init__.py *)
From Coq Require Import List Bool.
From Verif Require Import Base.
Import ListNotations.
Local Open Scope fld_scope.

Section Rat.
Context {K : Fld}.

(** np.prod along the last axis; the empty product is one *)
Definition prod (l : list K) : K := fold_right Fmul 1 l.

(** NamedTuple ZeroPole, lines 24-41 (one function, no leading axes) *)
Record zeropole := ZeroPole { zp_zeros : list K; zp_poles : list K; zp_amplitude : K }.

(** ZeroPole.eval, lines 43-58; a vanishing denominator gives inf or nan: error value *)
Definition zp_eval (f : zeropole) (z : K) : result K :=
  fdiv (zp_amplitude f * prod (map (fun x => z - x) (zp_zeros f))) (prod (map (fun x => z - x) (zp_poles f))).

(** ZeroPole.reciprocal, lines 60-77 *)
Definition zp_reciprocal (f : zeropole) (z : K) : result K :=
  let numer := prod (map (fun x => z - x) (zp_poles f)) in
  let denom := prod (map (fun x => z - x) (zp_zeros f)) in
  do a <- fdiv 1 (zp_amplitude f);
  fdiv (a * numer) denom.

(** np.polynomial.Polynomial with default domain and window: list of coefficients, constant first.
    Library code (numpy), modelled by its mathematical definition: product of two polynomials, polynomial with given
    roots (numpy multiplies the linear factors pairwise), multiplication with a scalar, Horner evaluation. *)
Definition poly := list K.
Fixpoint poly_add (p q : poly) : poly :=
  match p, q with [], _ => q | _, [] => p | a :: p', b :: q' => (a + b) :: poly_add p' q' end.
Definition poly_scale (c : K) (p : poly) : poly := map (fun a => a * c) p.
Fixpoint poly_mul (p q : poly) : poly :=
  match p with [] => [] | a :: p' => poly_add (poly_scale a q) (0 :: poly_mul p' q) end.
Definition poly_fromroots (roots : list K) : poly := fold_right (fun r p => poly_mul [- r; 1] p) [1] roots.
Definition poly_call (p : poly) (x : K) : K := fold_right (fun c acc => c + acc * x) 0 p.

(** NamedTuple RatPol, lines 86-97, and RatPol.eval, lines 99-101 *)
Record ratpol := RatPol { rp_numer : poly; rp_denom : poly }.
Definition rp_eval (r : ratpol) (z : K) : result K := fdiv (poly_call (rp_numer r) z) (poly_call (rp_denom r) z).

(** ZeroPole.to_ratpol, lines 79-83 *)
Definition to_ratpol (f : zeropole) : ratpol :=
  RatPol (poly_scale (zp_amplitude f) (poly_fromroots (zp_zeros f))) (poly_fromroots (zp_poles f)).
End Rat.
Arguments zeropole : clear implicits.
Arguments ratpol : clear implicits.
Arguments poly : clear implicits.
