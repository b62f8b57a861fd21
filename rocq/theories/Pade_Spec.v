(** * Independent specification for the Padé properties. *)
From Coq Require Import List Arith ZArith Lia Bool.
From Verif Require Import Base.
Import ListNotations.

Section Spec.
Context {K : Fld}.
Local Open Scope fld_scope.

(** The continued fraction
      a0 / (1 + a1 (z - z0) / (1 + a2 (z - z1) / (1 + ... )))
    evaluated from the inside out as (numerator, denominator); no division is performed. *)
Fixpoint cf_frac (z : K) (a : list K) (zs : list K) : K * K :=
  match a with
  | [] => (0, 1)
  | a0 :: a' =>
      match zs with
      | [] => (a0, 1)
      | z0 :: zs' => let '(n, d) := cf_frac z a' zs' in (a0 * d, d + (z - z0) * n)
      end
  end.

(** The same fraction with honest divisions; [None] if one of them is by zero. *)
Fixpoint cf_val (z : K) (a : list K) (zs : list K) : option K :=
  match a with
  | [] => Some 0
  | a0 :: a' =>
      match zs with
      | [] => Some a0
      | z0 :: zs' =>
          match cf_val z a' zs' with
          | None => None
          | Some t => if Feq_dec (1 + (z - z0) * t) 0 then None else Some (a0 / (1 + (z - z0) * t))
          end
      end
  end.

(** Polynomials as coefficient lists, lowest order first. *)
Fixpoint peval (p : list K) (x : K) : K :=
  match p with [] => 0 | c :: p' => c + x * peval p' x end.

(** Product of the coefficients with odd index: a1 a3 a5 ... *)
Fixpoint odd_prod (a : list K) : K :=
  match a with
  | _ :: a1 :: a' => a1 * odd_prod a'
  | _ => 1
  end.
End Spec.
