(** * Values which calc_iterator yields *)
From Coq Require Import Reals List.
From Coquelicot Require Import Coquelicot.
From Verif Require Import Base CBase Pade_Model.

(** the value of the approximant number [kappa] of calc_iterator at z *)
Definition yields (zin : list C) (a : list (option C)) (kappa : nat) (z v : C) : Prop :=
  exists l, calc_iterator (K := CF) z zin a = Ok l /\ nth_error l kappa = Some (Some v).
