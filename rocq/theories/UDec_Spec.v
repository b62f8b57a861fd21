(** * Singular values, written without reference to the model *)
From Coq Require Import List Arith Reals.
From Coquelicot Require Import Coquelicot.
From Verif Require Import Base CBase.
Import ListNotations.
Local Open Scope C_scope.

Definition sumC (n : nat) (f : nat -> C) : C := nsum (K := CF) n f.
Definition delta (i j : nat) : C := if (i =? j)%nat then RtoC 1 else RtoC 0.
(** the columns k < n are orthonormal *)
Definition unitary_mat (n : nat) (U : nat -> nat -> C) : Prop :=
  forall k l, (k < n)%nat -> (l < n)%nat -> sumC n (fun i => Cconj (U i k) * U i l) = delta k l.
(** A = U diag(s) V^† with unitary U, V and non-negative s in descending order *)
Definition singular_values (n : nat) (A : nat -> nat -> C) (s : list R) : Prop :=
  length s = n /\ (forall k, (k < n)%nat -> (0 <= nth k s 0)%R) /\
  (forall k l, (k <= l)%nat -> (l < n)%nat -> (nth l s 0 <= nth k s 0)%R) /\
  exists U V, unitary_mat n U /\ unitary_mat n V /\
    forall i j, (i < n)%nat -> (j < n)%nat -> A i j = sumC n (fun k => U i k * RtoC (nth k s 0%R) * Cconj (V j k)).
(** square of the Euclidean norm *)
Definition norm2 (n : nat) (x : nat -> C) : C := sumC n (fun i => Cconj (x i) * x i).
Definition apply_mat (n : nat) (A : nat -> nat -> C) (x : nat -> C) (i : nat) : C := sumC n (fun j => A i j * x j).
Definition hermitian (n : nat) (A : nat -> nat -> C) : Prop := forall i j, (i < n)%nat -> (j < n)%nat -> A i j = Cconj (A j i).
(** the Hermitian matrix which has the lower triangle of A (and the real part of its diagonal) *)
Definition lower_hermitian (A : nat -> nat -> C) (i j : nat) : C :=
  if (j <? i)%nat then A i j else if (i <? j)%nat then Cconj (A j i) else RtoC (fst (A i i)).
