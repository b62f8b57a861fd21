(** * C40 continued: the unknowns of polepade.number_poles *)
From Coq Require Import ZArith Lia.
From Verif Require Import Base NPoles_Model NPoles_Proofs.
Local Open Scope Z_scope.

(** number of coefficients of a polynomial of the given degree; none if the degree is negative *)
Definition coefficients (degree : Z) : Z := Z.max 0 (degree + 1).
(** the matrix has one column for every coefficient of the denominator and of the numerator, if the numerator has degree -1 or more *)
Theorem C40_columns : forall degree n, 0 <= n -> -1 <= n + degree -> mat_cols degree n = coefficients n + coefficients (n + degree).
Proof.
  intros degree n Hn Hd. unfold mat_cols, slice_cols, coefficients. destruct (Z.ltb_spec (n + 1) 0); [lia|]. destruct (Z.ltb_spec (n + degree + 1) 0); lia.
Qed.
Print Assumptions C40_columns.
(** below that the negative end of the slice counts from the last column: a numerator which has to vanish is fitted with
    2n+degree+3 coefficients *)
Theorem C40_columns_refuted : (forall degree n, 0 <= n -> n + degree < -1 -> 0 <= 2 * n + degree + 3 -> mat_cols degree n = coefficients n + coefficients (n + degree) + (2 * n + degree + 3)) /\
  exists degree n, 0 <= n /\ degree < 0 /\ mat_cols degree n <> coefficients n + coefficients (n + degree).
Proof.
  split.
  - intros degree n Hn Hd Hc. unfold mat_cols, slice_cols, coefficients. destruct (Z.ltb_spec (n + 1) 0); [lia|]. destruct (Z.ltb_spec (n + degree + 1) 0); lia.
  - exists (-3), 1. repeat split; discriminate.
Qed.
Print Assumptions C40_columns_refuted.
(** degree -1 (the default) and three poles: four and three columns; degree -3 and one pole: four columns for two unknowns *)
Example C40_columns_example : mat_cols (-1) 3 = 7 /\ mat_cols (-3) 1 = 4 /\ coefficients 1 + coefficients (1 + -3) = 2.
Proof. repeat split. Qed.
