(** * Specification of FilterHighVariance: squared distance from the mean of the approximants not yet removed *)
From Coq Require Import List Arith ZArith QArith.
Import ListNotations.
Local Open Scope Q_scope.

Fixpoint qsumn (n : nat) (f : nat -> Q) : Q := match n with O => 0 | S n => qsumn n f + f n end.
(** value of approximant i at point k *)
Definition value_at (pades : list (list (Q * Q))) (i k : nat) : Q * Q := nth k (nth i pades []) (0, 0).
(** mean of the real or imaginary parts over the approximants not in [removed] *)
Definition mean_rest (part : Q * Q -> Q) (pades : list (list (Q * Q))) (removed : list nat) (k : nat) : Q :=
  qsumn (length pades) (fun i => if existsb (Nat.eqb i) removed then 0 else part (value_at pades i k))
  / inject_Z (Z.of_nat (length pades - length removed)).
Definition mean_dist (nz : nat) (pades : list (list (Q * Q))) (removed : list nat) (i : nat) : Q :=
  qsumn nz (fun k => (fst (value_at pades i k) - mean_rest fst pades removed k) ^ 2 + (snd (value_at pades i k) - mean_rest snd pades removed k) ^ 2).
