(** * Retarded Hilbert transforms *)
From Coq Require Import Reals.
From Coquelicot Require Import Coquelicot.
From Verif Require Import Base CBase.
Local Open Scope R_scope.

(** in the upper half plane the function is finite, does not vanish, and 1/ht(x) - x has no negative imaginary part: for the Green's
    function of a lattice this is the retarded hybridisation function x - 1/ht(x) *)
Definition retarded_ht (ht : C -> result C) : Prop := forall x : C, 0 < snd x -> exists g, ht x = Ok g /\ g <> RtoC 0 /\ snd x <= snd (/ g)%C.
(** the fixed-point iteration, n steps *)
Fixpoint iterate (f : C -> result C) (n : nat) (s : C) : result C := match n with O => Ok s | S m => bind (f s) (iterate f m) end.
