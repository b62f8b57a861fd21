(** * Property C40: polepade.number_poles *)
From Coq Require Import ZArith Bool Lia List.
From Verif Require Import Base NPoles_Model NPoles_Proofs.
Local Open Scope Z_scope.

(** The rank oracle never exceeds the matrix shape; then the loop of number_poles ends for every oracle, number of
    points and start value, if the degree is not positive and the constant has a non-trivial null space.  The excluded
    cases really loop forever, see the refutations below. *)
Theorem C40_terminates_partial : forall (rank : Z -> Z) (size degree : Z),
  (forall n, rank n <= Z.min size (mat_cols degree n)) -> forall n0, degree <= 0 -> rank 0 < Z.min size (mat_cols degree 0) ->
  exists fuel, forall fuel', (fuel <= fuel')%nat -> number_poles rank fuel' size degree n0 <> Err OutOfFuel.
Proof. exact number_poles_terminates. Qed.
Print Assumptions C40_terminates_partial.

(** A returned number of poles is admissible; without warning the null space is one dimensional; with warning there is
    no solution with that many poles and more than one with one pole more. *)
Theorem C40_result : forall (rank : Z -> Z) (size degree : Z),
  (forall n, rank n <= Z.min size (mat_cols degree n)) -> forall fuel n0 m w, degree <= 0 -> number_poles rank fuel size degree n0 = Ok (m, w) ->
  let nd := fun n => Z.min size (mat_cols degree n) - rank n in
  0 <= m /\ 2 * m + degree <= size /\ (w = false -> nd m = 1)
  /\ (w = true -> nd m = 0 /\ 2 <= nd (m + 1) /\ 2 * (m + 1) + degree <= size).
Proof. exact number_poles_result. Qed.
Print Assumptions C40_result.

(** Rational data with k poles: the unknown coefficients (n+1 of the denominator, n+degree+1 of the numerator) have a
    solution space of dimension n-k+1.  With at least 2k+degree+5 points number_poles finds k, without warning. *)
Theorem C40_exact : forall (rank : Z -> Z) (size degree k : Z), (degree = 0 \/ degree = -1) -> 0 <= k ->
  (forall n, 0 <= n <= (size - degree) / 2 -> rank n = 2 * n + degree + 2 - Z.max 0 (n - k + 1)) ->
  2 * k + degree + 5 <= size ->
  forall n0, match n0 with None => 2 * Z.min ((size - degree) / 2) 50 + degree < size | Some n => 1 <= n /\ 2 * n + degree < size end ->
  exists fuel, forall fuel', (fuel <= fuel')%nat -> number_poles rank fuel' size degree n0 = Ok (k, false).
Proof. exact number_poles_exact. Qed.
Print Assumptions C40_exact.

(** The bound on the number of points is sharp.  2k+degree+1 points determine a rational function with k poles (the
    check in the code allows that), but number_poles claims that there is none; with 2k+degree+3 points it returns k+1
    poles without a warning.  The SVD of a wide matrix returns fewer singular values than there are unknowns, so
    null_dim is too small. *)
Theorem C40_tight_refuted : forall (rank : Z -> Z) (size degree k : Z), (degree = 0 \/ degree = -1) -> 0 <= k <= 48 ->
  (forall n, 0 <= n <= (size - degree) / 2 -> rank n = 2 * n + degree + 2 - Z.max 0 (n - k + 1)) ->
  forall fuel, (1 <= fuel)%nat ->
  (size = 2 * k + degree + 1 -> number_poles rank fuel size degree None = Err RuntimeError)
  /\ (size = 2 * k + degree + 3 -> number_poles rank fuel size degree None = Ok (k + 1, false)).
Proof. exact number_poles_tight. Qed.
Print Assumptions C40_tight_refuted.

(** n_poles0 = 0 and no constant solution: doubling zero never ends *)
Theorem C40_zero_start_refuted : exists (rank : Z -> Z), (forall n, 0 <= n -> rank n <= Z.min 10 (mat_cols (-1) n)) /\
  forall fuel, number_poles rank fuel 10 (-1) (Some 0) = Err OutOfFuel.
Proof.
  exists (fun n => Z.min 10 (mat_cols (-1) n)). split; [intros; lia|].
  induction fuel as [|fuel IH]; [reflexivity|]. unfold number_poles in *. change ((10 - -1) / 2) with 5 in *. cbn [Z.ltb Z.compare bind Z.mul Z.add] in *. change (-1 <? 10) with true in *.
  cbv beta iota in *. rewrite loop_S. unfold null_dim at 1 2. change (0 <? 0) with false. rewrite Z.sub_diag. exact IH.
Qed.
Print Assumptions C40_zero_start_refuted.

(** degree 1 with a two dimensional null space: the step (2 - 1)//2 is zero *)
Theorem C40_degree_refuted : exists (rank : Z -> Z), (forall n, 0 <= n -> 0 <= rank n <= Z.min 20 (mat_cols 1 n)) /\
  forall fuel, number_poles rank fuel 20 1 (Some 3) = Err OutOfFuel.
Proof.
  exists (fun n => Z.max 0 (Z.min 20 (mat_cols 1 n) - 2)). split.
  { intros n Hn. unfold mat_cols, slice_cols. destruct (Z.ltb_spec (n + 1) 0); [lia|]. destruct (Z.ltb_spec (n + 1 + 1) 0); lia. }
  intros fuel. unfold number_poles. change ((20 - 1) / 2) with 9. change (9 <? 3) with false. cbn [bind]. change (2 * 3 + 1 <? 20) with true. cbv beta iota.
  generalize 9 at 2. induction fuel as [|fuel IH]; intros mx; [reflexivity|]. rewrite loop_S.
  change (null_dim (fun n => Z.max 0 (Z.min 20 (mat_cols 1 n) - 2)) 20 1 3) with 2. change (3 <? 0) with false. change (2 =? 1) with false. change (2 =? 0) with false. cbv beta iota.
  change (3 - (2 - 1) / 2) with 3. apply IH.
Qed.
Print Assumptions C40_degree_refuted.

(** Default start value and an even number z.size - degree <= 100: the assertion fails for every oracle. *)
Theorem C40_assertion_refuted : forall rank fuel size degree q, size = 2 * q + degree -> q <= 50 ->
  number_poles rank fuel size degree None = Err AssertionError.
Proof.
  intros rank fuel size degree q -> Hq. unfold number_poles.
  assert (A : (2 * q + degree - degree) / 2 = q) by (replace (2 * q + degree - degree) with (q * 2) by lia; apply Z.div_mul; lia).
  rewrite A. rewrite Z.min_l by lia. cbn [bind]. destruct (Z.ltb_spec (2 * q + degree) (2 * q + degree)); [lia|reflexivity].
Qed.
Print Assumptions C40_assertion_refuted.

(** ** concrete cases: 3 poles, degree -1, 14 points; the search starts at 7 poles *)
Definition ex_rank (k degree n : Z) : Z := 2 * n + degree + 2 - Z.max 0 (n - k + 1).
Example C40_ex : number_poles (ex_rank 3 (-1)) 50 14 (-1) None = Ok (3, false)
  /\ number_poles (ex_rank 3 (-1)) 50 24 (-1) (Some 1) = Ok (3, false)
  /\ number_poles (ex_rank 3 (-1)) 50 8 (-1) None = Ok (4, false)
  /\ number_poles (ex_rank 3 (-1)) 50 6 (-1) None = Err RuntimeError
  /\ number_poles (ex_rank 3 (-1)) 50 13 (-1) None = Err AssertionError.
Proof. repeat split; reflexivity. Qed.
