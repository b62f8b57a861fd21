(** * Mean and sample standard deviation *)
From Coq Require Import Reals List.
From Coquelicot Require Import Coquelicot.
From Verif Require Import Base CBase.
Import ListNotations.
Local Open Scope C_scope.

(** the approximants marked valid, in order *)
Fixpoint valids {A} (valid : list bool) (l : list A) : list A :=
  match valid, l with
  | b :: valid, x :: l => if b then x :: valids valid l else valids valid l
  | _, _ => []
  end.
(** sums over positions *)
Fixpoint total (l : list R) : R := match l with [] => 0%R | x :: l => (x + total l)%R end.
Definition is_mean (l : list R) (m : R) : Prop := l <> [] /\ (m * INR (length l) = total l)%R.
(** unbiased: n - 1 in the denominator *)
Definition is_sample_std (l : list R) (s : R) : Prop :=
  (0 <= s)%R /\ exists m, is_mean l m /\ (s * s * (INR (length l) - 1) = total (map (fun x => (x - m) * (x - m))%R l))%R.
(** matrix times vector, as sums over the positions of the vector *)
Fixpoint dot (a p : list C) : C := match a, p with x :: a, y :: p => x * y + dot a p | _, _ => RtoC 0 end.
Definition mat_vec (A : list (list C)) (p : list C) : list C := map (fun a => dot a p) A.
(** [xe] is mean and error of the values v: the error is a number if and only if there are at least two values, its parts are
    the sample standard deviations of the real and of the imaginary parts *)
Definition column_spec (v : list C) (xe : option C * option C) : Prop :=
  exists x, fst xe = Some x /\ is_mean (map fst v) (fst x) /\ is_mean (map snd v) (snd x) /\
  ((2 <= length v)%nat -> exists e, snd xe = Some e /\ is_sample_std (map fst v) (fst e) /\ is_sample_std (map snd v) (snd e)) /\
  ((length v <= 1)%nat -> snd xe = None).
(** approximants without NaN *)
Definition lift_col (c : list bool * list (list C)) : list bool * list (list (option C)) := (fst c, map (map Some) (snd c)).
