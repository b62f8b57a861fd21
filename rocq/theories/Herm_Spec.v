(** * Specification vocabulary for (Hermite-)Padé approximants. *)
From Coq Require Import List Arith ZArith Lia Bool.
From Verif Require Import Base Herm_Model.
Import ListNotations.

Section Spec.
Context {K : Fld}.
Local Open Scope fld_scope.

(** Coefficient of x^k in the product of two power series. *)
Definition ser_mul (f g : nat -> K) (k : nat) : K := nsum (S k) (fun j => f j * g (k - j)%nat).
(** A polynomial (coefficient list) as a series. *)
Definition ser_of (p : list K) (k : nat) : K := nth k p 0.
(** The series [f] starts with the coefficients [an]. *)
Definition starts_with (f : nat -> K) (an : list K) : Prop := forall i, (i < length an)%nat -> f i = nth i an 0.
(** A coefficient list is not the zero polynomial. *)
Definition nonzero (p : list K) : Prop := exists c, In c p /\ c <> 0.

(** Contract of the QR null vector: for n rows of length n+1 a non-zero null vector of length n+1. *)
Definition nullvec_ok (nullvec : list (list K) -> list K) : Prop :=
  forall A n, length A = n -> (forall row, In row A -> length row = S n) -> (0 < n)%nat ->
    length (nullvec A) = S n /\ (forall row, In row A -> dot row (nullvec A) = 0) /\ nonzero (nullvec A).
(** Contract of a linear solver that succeeded. *)
Definition solve_ok (solve : list (list K) -> list K -> result (list K)) : Prop :=
  forall A b x, solve A b = Ok x -> length x = length b /\ matvec A x = b.
(** Contract of the least-squares solver: one value per column, and a consistent system is solved. *)
Definition lstsq_ok (lstsq : list (list K) -> list K -> list K) : Prop :=
  forall A b n, A <> [] -> length b = length A -> (forall row, In row A -> length row = n) ->
    length (lstsq A b) = n /\
    (forall y, length y = n -> matvec A y = b -> matvec A (lstsq A b) = b).

(** [p/q] agrees with every series starting with [an] below order [N]. *)
Definition accurate (p q an : list K) (N : nat) : Prop :=
  forall f, starts_with f an -> forall k, (k < N)%nat -> ser_mul (ser_of q) f k = ser_of p k.
(** [p + q f + r f^2] vanishes below order [N]. *)
Definition accurate2 (p q r an : list K) (N : nat) : Prop :=
  forall f, starts_with f an -> forall k, (k < N)%nat ->
    ser_of p k + ser_mul (ser_of q) f k + ser_mul (ser_of r) (ser_mul f f) k = 0.
End Spec.
