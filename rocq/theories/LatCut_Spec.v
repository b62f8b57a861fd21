(** * Values of the elliptic integral on its branch cut *)
From Coq Require Import Reals.
From Coquelicot Require Import Coquelicot.
From Verif Require Import Base LatInt_Spec.
Local Open Scope C_scope.

(** on the cut (1, oo) the elliptic integral is continuous from above, or from below *)
Definition cut_from_above (ellipk : C -> result C) : Prop := forall x, (1 < x)%R -> exists k, ellipk (RtoC x) = Ok k /\
  forall e, (0 < e)%R -> exists d, (0 < d)%R /\ forall y k', (0 < y < d)%R -> legendre_K (x, y) k' -> (Cmod (k' - k)%C < e)%R.
Definition cut_from_below (ellipk : C -> result C) : Prop := forall x, (1 < x)%R -> exists k, ellipk (RtoC x) = Ok k /\
  forall e, (0 < e)%R -> exists d, (0 < d)%R /\ forall y k', (0 < y < d)%R -> legendre_K (x, (- y)%R) k' -> (Cmod (k' - k)%C < e)%R.
