(** * Data for which no inverse difference is extreme *)
From Coq Require Import Reals List.
From Coquelicot Require Import Coquelicot.
From Verif Require Import Base CBase.
Import ListNotations.
Local Open Scope C_scope.

(** the next column of inverse differences: (f0/f - 1)/(z - z0) *)
Fixpoint inv_diff (z0 f0 : C) (zs fs : list C) : list C :=
  match zs, fs with z :: zs, f :: fs => (f0 / f - 1) / (z - z0) :: inv_diff z0 f0 zs fs | _, _ => [] end.
(** in every column the magnitudes of all later entries are within the factor c of the first one, and the points differ *)
Fixpoint tame (c : R) (z f : list C) : Prop :=
  match z, f with
  | z0 :: zs, f0 :: fs =>
      (forall x, In x fs -> (c * Cmod f0 < Cmod x < Cmod f0 / c)%R) /\ (forall w, In w zs -> w <> z0) /\ tame c zs (inv_diff z0 f0 zs fs)
  | _, _ => True
  end.
(** consecutive entries of the diagonal differ by more than c: the first entry of a column and the second one *)
Fixpoint distinct (c : R) (z f : list C) : Prop :=
  match z, f with
  | z0 :: zs, f0 :: fs => match fs with x :: _ => (c < Cmod (f0 - x)%C)%R | [] => True end /\ distinct c zs (inv_diff z0 f0 zs fs)
  | _, _ => True
  end.
(** the items of l at the positions where a is not zero *)
Fixpoint kept {A} (a : list C) (l : list A) : list A :=
  match a, l with
  | x :: a, y :: l => if Ceq_dec x 0 then kept a l else y :: kept a l
  | _, _ => []
  end.
(** the items of l at the kept positions before position j *)
Definition kept_before {A} (j : nat) (a : list C) (l : list A) : list A := kept (firstn j a) (firstn j l).
(** one value x at zj, followed through the columns with leading points and coefficients [pts]: it is never extreme *)
Fixpoint regular_path (c : R) (pts : list (C * C)) (zj x : C) : Prop :=
  match pts with
  | [] => True
  | (zm, am) :: r => (c * Cmod am < Cmod x < Cmod am / c)%R /\ regular_path c r zj ((am / x - 1) / (zj - zm))
  end.
