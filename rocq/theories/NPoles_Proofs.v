(** * Proofs about number_poles *)
From Coq Require Import ZArith Bool Lia List.
From Verif Require Import Base NPoles_Model.
Local Open Scope Z_scope.

Section P.
Variable nd : Z -> Z.
Hypothesis nd_nonneg : forall n, 0 <= nd n.

Lemma loop_S fuel degree am mx n : np_loop nd (S fuel) degree am mx n =
  if n <? 0 then Err ValueError else if nd n =? 1 then Ok (n, false)
  else if nd n =? 0 then (if n =? am then Err RuntimeError else if n =? mx then Ok (n, true) else np_loop nd fuel degree am mx (Z.min (2 * n) mx))
  else np_loop nd fuel degree am (n - 1) (n - (nd n - degree) / 2).
Proof. reflexivity. Qed.

Lemma loop_terminates degree am : degree <= 0 -> nd 0 <> 0 -> forall k mx n, 1 <= n <= mx -> mx <= am ->
  mx * (am + 2) + (mx - n) < Z.of_nat k -> forall fuel, (k + 2 <= fuel)%nat -> np_loop nd fuel degree am mx n <> Err OutOfFuel.
Proof.
  intros Hd H0. induction k as [|k IH]; intros mx n Hn Hm Hk fuel Hf; [nia|].
  destruct fuel as [|fuel]; [lia|]. rewrite loop_S. destruct (Z.ltb_spec n 0); [lia|]. destruct (Z.eqb_spec (nd n) 1) as [|N1]; [discriminate|].
  destruct (Z.eqb_spec (nd n) 0) as [N0|N0].
  - destruct (Z.eqb_spec n am) as [|Na]; [discriminate|]. destruct (Z.eqb_spec n mx) as [|Nm]; [discriminate|].
    apply IH; lia.
  - assert (Hnd := nd_nonneg n). assert (Hq : 1 <= (nd n - degree) / 2) by (apply Z.div_le_lower_bound; lia).
    set (q := (nd n - degree) / 2) in *. destruct (Z.lt_trichotomy (n - q) 0) as [Hlt|[Heq|Hgt]].
    + destruct fuel as [|fuel]; [lia|]. rewrite loop_S. destruct (Z.ltb_spec (n - q) 0); [discriminate|lia].
    + rewrite Heq. destruct fuel as [|fuel]; [lia|]. rewrite loop_S. cbn [Z.ltb Z.compare]. destruct (Z.eqb_spec (nd 0) 1) as [|Z1]; [discriminate|]. destruct (Z.eqb_spec (nd 0) 0) as [|Z0]; [easy|].
      destruct fuel as [|fuel]; [lia|]. rewrite loop_S. assert (Hnd0 := nd_nonneg 0). assert (1 <= (nd 0 - degree) / 2) by (apply Z.div_le_lower_bound; lia).
      destruct (Z.ltb_spec (0 - (nd 0 - degree) / 2) 0); [discriminate|lia].
    + apply IH; first [lia | nia].
Qed.

Lemma loop_result degree am : degree <= 0 -> forall fuel mx n m w, n <= mx <= am -> (mx = am \/ 2 <= nd (mx + 1)) ->
  np_loop nd fuel degree am mx n = Ok (m, w) ->
  0 <= m <= am /\ (w = false -> nd m = 1) /\ (w = true -> nd m = 0 /\ m < am /\ 2 <= nd (m + 1)).
Proof.
  intros Hd. induction fuel as [|fuel IH]; intros mx n m w Hn Hm; [discriminate|]. rewrite loop_S.
  destruct (Z.ltb_spec n 0); [discriminate|]. destruct (Z.eqb_spec (nd n) 1) as [N1|N1].
  - intros [= <- <-]. split; [lia|]. split; [easy|discriminate].
  - destruct (Z.eqb_spec (nd n) 0) as [N0|N0].
    + destruct (Z.eqb_spec n am) as [|Na]; [discriminate|]. destruct (Z.eqb_spec n mx) as [Nm|Nm].
      * intros [= <- <-]. split; [lia|]. split; [discriminate|]. intros _. split; [exact N0|]. split; [lia|]. subst mx. destruct Hm as [|Hm]; [easy|exact Hm].
      * apply IH; [lia|exact Hm].
    + assert (Hnd := nd_nonneg n). assert (Hq : 1 <= (nd n - degree) / 2) by (apply Z.div_le_lower_bound; lia).
      apply IH; [lia|]. right. replace (n - 1 + 1) with n by lia. lia.
Qed.

End P.

Lemma mat_cols_eq degree n : 0 <= n -> 0 <= n + degree + 1 -> degree <= 0 -> mat_cols degree n = 2 * n + degree + 2.
Proof. intros Hn Hd H0. unfold mat_cols, slice_cols. destruct (Z.ltb_spec (n + 1) 0); [lia|]. destruct (Z.ltb_spec (n + degree + 1) 0); lia. Qed.

Section Q.
Variables (rank : Z -> Z) (size degree : Z).
Hypothesis rank_bound : forall n, rank n <= Z.min size (mat_cols degree n).
Lemma null_nonneg n : 0 <= null_dim rank size degree n.
Proof. unfold null_dim. specialize (rank_bound n). lia. Qed.

Theorem number_poles_terminates n0 : degree <= 0 -> rank 0 < Z.min size (mat_cols degree 0) ->
  exists fuel, forall fuel', (fuel <= fuel')%nat -> number_poles rank fuel' size degree n0 <> Err OutOfFuel.
Proof.
  intros Hd H0'. assert (H0 : null_dim rank size degree 0 <> 0) by (unfold null_dim; lia). clear H0'.
  set (am := (size - degree) / 2). set (K := (Z.to_nat (am * (am + 2) + am + 10))%nat). exists (K + 4)%nat. intros fuel Hf.
  unfold number_poles. fold am. set (nd := null_dim rank size degree) in *. assert (nd_nonneg : forall n, 0 <= nd n) by apply null_nonneg.
  assert (H : forall n, n <= am -> np_loop nd fuel degree am am n <> Err OutOfFuel).
  { intros n Hn. destruct (Z.lt_trichotomy n 0) as [Hlt|[Heq|Hgt]].
    - destruct fuel as [|fuel]; [lia|]. rewrite loop_S. destruct (Z.ltb_spec n 0); [discriminate|lia].
    - subst n. destruct fuel as [|[|fuel]]; [lia|lia|]. rewrite loop_S. cbn [Z.ltb Z.compare]. destruct (Z.eqb_spec (nd 0) 1) as [|Z1]; [discriminate|]. destruct (Z.eqb_spec (nd 0) 0) as [|Z0]; [easy|].
      rewrite loop_S. assert (Hnd0 := nd_nonneg 0). assert (1 <= (nd 0 - degree) / 2) by (apply Z.div_le_lower_bound; lia).
      destruct (Z.ltb_spec (0 - (nd 0 - degree) / 2) 0); [discriminate|lia].
    - apply (loop_terminates nd nd_nonneg degree am Hd H0 K); first [lia | unfold K; nia]. }
  destruct n0 as [n|].
  - destruct (Z.ltb_spec am n) as [|Hn]; cbn [bind]; [discriminate|]. destruct (2 * n + degree <? size); [apply H; lia|discriminate].
  - cbn [bind]. destruct (2 * Z.min am 50 + degree <? size); [apply H; lia|discriminate].
Qed.

Theorem number_poles_result fuel n0 m w : degree <= 0 -> number_poles rank fuel size degree n0 = Ok (m, w) ->
  let nd := fun n => Z.min size (mat_cols degree n) - rank n in
  0 <= m /\ 2 * m + degree <= size /\ (w = false -> nd m = 1) /\ (w = true -> nd m = 0 /\ 2 <= nd (m + 1) /\ 2 * (m + 1) + degree <= size).
Proof.
  intros Hd. change (fun n => Z.min size (mat_cols degree n) - rank n) with (null_dim rank size degree).
  unfold number_poles. set (am := (size - degree) / 2). assert (Ha : 2 * am <= size - degree) by (apply Z.mul_div_le; lia).
  set (nd := null_dim rank size degree) in *. assert (nd_nonneg : forall n, 0 <= nd n) by apply null_nonneg. cbv zeta.
  assert (H : forall n, n <= am -> np_loop nd fuel degree am am n = Ok (m, w) -> 0 <= m /\ 2 * m + degree <= size /\ (w = false -> nd m = 1) /\ (w = true -> nd m = 0 /\ 2 <= nd (m + 1) /\ 2 * (m + 1) + degree <= size)).
  { intros n Hn E. destruct (loop_result nd nd_nonneg degree am Hd fuel am n m w) as (R1 & R2 & R3); [lia|now left|exact E|]. split; [lia|]. split; [lia|]. split; [exact R2|]. intros Hw. destruct (R3 Hw) as (R4 & R5 & R6). split; [exact R4|]. split; [exact R6|lia]. }
  destruct n0 as [n|].
  - destruct (Z.ltb_spec am n) as [|Hn]; cbn [bind]; [discriminate|]. destruct (2 * n + degree <? size); [apply H; lia|discriminate].
  - cbn [bind]. destruct (2 * Z.min am 50 + degree <? size); [apply H; lia|discriminate].
Qed.
End Q.

(** ** exactly rational data with k poles: the right null space has dimension n - k + 1 *)
Section Exact.
Variables (rank : Z -> Z) (size degree k : Z).
Hypothesis Hdeg : degree = 0 \/ degree = -1.
Hypothesis Hk : 0 <= k.
Notation am := ((size - degree) / 2).
Hypothesis rank_exact : forall n, 0 <= n <= am -> rank n = 2 * n + degree + 2 - Z.max 0 (n - k + 1).
Notation nd := (null_dim rank size degree).

Lemma am_bounds : 2 * am + degree <= size < 2 * am + degree + 2.
Proof. assert (H := Z.div_mod (size - degree) 2 ltac:(lia)). assert (B := Z.mod_pos_bound (size - degree) 2 ltac:(lia)). lia. Qed.
Lemma nd_exact n : 0 <= n <= am -> nd n = Z.max 0 (n - k + 1) - Z.max 0 (2 * n + degree + 2 - size).
Proof. intros Hn. unfold null_dim. rewrite rank_exact by exact Hn. rewrite mat_cols_eq by lia. lia. Qed.

Hypothesis Hsize : 2 * k + degree + 5 <= size.
Lemma loop_exact : forall j mx n, k <= mx <= am -> (1 <= n <= mx) ->
  mx * (am + 2) + (mx - n) < Z.of_nat j -> forall fuel, (j < fuel)%nat -> np_loop nd fuel degree am mx n = Ok (k, false).
Proof.
  assert (B := am_bounds).
  induction j as [|j IH]; intros mx n Hm Hn Hj fuel Hf; [nia|]. destruct fuel as [|fuel]; [lia|]. rewrite loop_S. destruct (Z.ltb_spec n 0); [lia|].
  assert (E := nd_exact n ltac:(lia)). assert (Hlt : n = am \/ n < am) by lia.
  destruct (Z.eqb_spec (nd n) 1) as [N1|N1]; [f_equal; f_equal; lia|].
  destruct (Z.eqb_spec (nd n) 0) as [N0|N0].
  - destruct (Z.eqb_spec n am); [lia|]. destruct (Z.eqb_spec n mx); [lia|]. apply IH; lia.
  - assert (Hq : k <= n - (nd n - degree) / 2) by (assert ((nd n - degree) / 2 < n - k + 1); [apply Z.div_lt_upper_bound; lia|lia]).
    assert (Hq1 : 1 <= (nd n - degree) / 2) by (apply Z.div_le_lower_bound; lia).
    set (q := (nd n - degree) / 2) in *.
    destruct (Z.eq_dec (n - q) 0) as [Hz|Hz].
    + assert (k = 0) by lia. rewrite Hz. destruct fuel as [|fuel]; [lia|]. rewrite loop_S. destruct (Z.ltb_spec 0 0); [lia|].
      assert (E0 := nd_exact 0 ltac:(lia)). destruct (Z.eqb_spec (nd 0) 1) as [Z1|Z1]; [f_equal; f_equal; lia|lia].
    + apply IH; first [lia | nia].
Qed.

Theorem number_poles_exact n0 : match n0 with None => 2 * Z.min am 50 + degree < size | Some n => 1 <= n /\ 2 * n + degree < size end ->
  exists fuel, forall fuel', (fuel <= fuel')%nat -> number_poles rank fuel' size degree n0 = Ok (k, false).
Proof.
  intros H0. assert (B := am_bounds).
  exists (Z.to_nat (am * (am + 2) + am + 10) + 1)%nat. intros fuel' Hf.
  assert (Hrun : exists n, 1 <= n <= am /\ number_poles rank fuel' size degree n0 = np_loop nd fuel' degree am am n).
  { unfold number_poles. destruct n0 as [n|].
    - exists n. split; [lia|]. destruct (Z.ltb_spec am n); [lia|]. cbn [bind]. destruct (Z.ltb_spec (2 * n + degree) size); [reflexivity|lia].
    - exists (Z.min am 50). split; [lia|]. cbn [bind]. destruct (Z.ltb_spec (2 * Z.min am 50 + degree) size); [reflexivity|lia]. }
  destruct Hrun as (n & Hn & ->). apply (loop_exact (Z.to_nat (am * (am + 2) + am + 10))); first [lia | nia].
Qed.
End Exact.

(** the number of points is just enough: wrong answers *)
Theorem number_poles_tight rank size degree k : (degree = 0 \/ degree = -1) -> 0 <= k <= 48 ->
  (forall n, 0 <= n <= (size - degree) / 2 -> rank n = 2 * n + degree + 2 - Z.max 0 (n - k + 1)) ->
  forall fuel, (1 <= fuel)%nat ->
  (size = 2 * k + degree + 1 -> number_poles rank fuel size degree None = Err RuntimeError)
  /\ (size = 2 * k + degree + 3 -> number_poles rank fuel size degree None = Ok (k + 1, false)).
Proof.
  intros Hd Hk Hr fuel Hf. destruct fuel as [|fuel]; [lia|]. split; intros ->.
  - assert (A : (2 * k + degree + 1 - degree) / 2 = k) by (replace (2 * k + degree + 1 - degree) with (1 + k * 2) by lia; rewrite Z.div_add by lia; reflexivity).
    unfold number_poles. rewrite !A. rewrite Z.min_l by lia. cbn [bind]. destruct (Z.ltb_spec (2 * k + degree) (2 * k + degree + 1)); [|lia].
    rewrite loop_S. destruct (Z.ltb_spec k 0); [lia|].
    assert (E : null_dim rank (2 * k + degree + 1) degree k = 0) by (unfold null_dim; rewrite Hr by (rewrite A; lia); rewrite mat_cols_eq by lia; lia).
    rewrite E. cbn [Z.eqb]. now rewrite Z.eqb_refl.
  - assert (A : (2 * k + degree + 3 - degree) / 2 = k + 1) by (replace (2 * k + degree + 3 - degree) with (1 + (k + 1) * 2) by lia; rewrite Z.div_add by lia; reflexivity).
    unfold number_poles. rewrite !A. rewrite Z.min_l by lia. cbn [bind]. destruct (Z.ltb_spec (2 * (k + 1) + degree) (2 * k + degree + 3)); [|lia].
    rewrite loop_S. destruct (Z.ltb_spec (k + 1) 0); [lia|].
    assert (E : null_dim rank (2 * k + degree + 3) degree (k + 1) = 1) by (unfold null_dim; rewrite Hr by (rewrite A; lia); rewrite mat_cols_eq by lia; lia).
    rewrite E. reflexivity.
Qed.
