(** * Specification vocabulary for Padé averaging and filters. *)
From Coq Require Import List Arith ZArith QArith Lia Bool Permutation.
From Verif Require Import Base Pade_Model PadeAvg_Model.
Import ListNotations.

(** What numpy promises about argsort: a permutation of the indices, sorting the values. *)
Definition argsort_ok (argsort : list Q -> list nat) : Prop :=
  forall l, Permutation (argsort l) (seq 0 (length l)) /\
    forall a b i j, (a <= b)%nat -> nth_error (argsort l) a = Some i -> nth_error (argsort l) b = Some j ->
      (nth i l 0 <= nth j l 0)%Q.

(** How many entries of a mask are true. *)
Definition count_true (m : list bool) : nat := length (filter (fun b => b) m).

(** The number argument as "largest imaginary part of an approximant": [m] is attained and bounds. *)
Definition is_max_imag (pade : list cQ) (m : Q) : Prop :=
  (exists v, In v pade /\ snd v = m) /\ forall v, In v pade -> (snd v <= m)%Q.

(** Positions with a true entry, increasing. *)
Definition true_positions (m : list bool) : list nat :=
  map fst (filter snd (combine (seq 0 (length m)) m)).

(** Sequential filtering of labelled approximants: every filter sees only the survivors of the
    previous ones; [None] if a filter raises or if nobody survives some stage. *)
Fixpoint survivors {A} (fs : list (list A -> result (list bool))) (l : list (nat * A))
  : option (list (nat * A)) :=
  match fs with
  | [] => Some l
  | f :: fs' =>
      match f (map snd l) with
      | Err _ => None
      | Ok m => match map snd (filter fst (combine m l)) with
                | [] => None
                | l' => survivors fs' l'
                end
      end
  end.

(** A filter answers with one boolean per approximant it was shown. *)
Definition well_behaved {A} (f : list A -> result (list bool)) : Prop :=
  forall l m, f l = Ok m -> length m = length l.

(** A concrete argsort (insertion sort of indices), used for examples. *)
Fixpoint insert_idx (key : nat -> Q) (i : nat) (l : list nat) : list nat :=
  match l with
  | [] => [i]
  | j :: l' => if Qle_bool (key i) (key j) then i :: l else j :: insert_idx key i l'
  end.
Definition argsort_ins (l : list Q) : list nat :=
  fold_right (insert_idx (fun i => nth i l 0)) [] (seq 0 (length l)).

(** What a selector with rounded minimum [m] must do: reject exactly [m < 1] or [n_max <= m], else
    select the iteration indices m-1, m+1, ... below n_max-1, consistently in every interface. *)
Definition window_spec (r : result kind) (m n_max : Z) : Prop :=
  ((m < 1)%Z \/ (n_max <= m)%Z -> r = Err ValueError) /\
  ((1 <= m)%Z -> (m < n_max)%Z ->
   exists k, r = Ok k /\
     (forall i, kind_getitem k i
        = if (m - 1 + 2 * Z.of_nat i <? n_max - 1)%Z then Ok (m - 1 + 2 * Z.of_nat i)%Z else Err IndexError) /\
     (forall A (l : list A) i, nth_error (islice k l) i
        = if (m - 1 + 2 * Z.of_nat i <? n_max - 1)%Z
          then nth_error l (Z.to_nat (m - 1 + 2 * Z.of_nat i)) else None) /\
     (forall A (l : list A), kind_slice k l = islice k l) /\
     (forall A (l : list A), (n_max - 1 <= Z.of_nat (length l))%Z -> Z.of_nat (length (islice k l)) = kind_len k)).

(** Sum over positions of the values marked valid, and how many there are, by index. *)
Section Val.
Context {K : Fld}.
Local Open Scope fld_scope.
Definition valid_sum (valid : list bool) (ps : list K) : K :=
  nsum (Nat.min (length ps) (length valid)) (fun i => if nth i valid false then nth i ps 0 else 0).
Definition valid_count (valid : list bool) (n : nat) : nat :=
  length (filter (fun b => b) (firstn n valid)).
End Val.
