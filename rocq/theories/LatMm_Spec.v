(** * Powers of a finite matrix *)
From Coq Require Import Reals List.
From Coquelicot Require Import Coquelicot.
From Verif Require Import Base CBase LatMom_Spec LatDer_Spec Fourier_Filon.
Local Open Scope C_scope.

(** the power H^m of an N x N matrix *)
Fixpoint mpow (N : nat) (H : nat -> nat -> C) (m : nat) (i j : nat) : C :=
  match m with
  | O => if Nat.eqb i j then 1 else 0
  | S m => nsum (K := CF) N (fun l => H i l * mpow N H m l j)
  end.
Definition trace (N : nat) (A : nat -> nat -> C) : C := nsum (K := CF) N (fun i => A i i).
(** average over the wave vectors of a chain *)
Definition is_chain_average (f : R -> C) (l : C) : Prop := is_CInt f (- PI) PI (RtoC (2 * PI) * l).
(** the band of the chain at the wave vector k *)
Definition chain_band (t : R) (k : R) : C := bloch chain t (k, 0%R) 0 0.
