(** * The continued fraction of tanh: truncation error *)
From Coq Require Import Arith Reals Lia Lra Psatz.
From Coquelicot Require Import Coquelicot.
Local Open Scope R_scope.

Section Y.
Variable y : R.
Definition gint (n : nat) (t : R) : R := (1 - t ^ 2) ^ n * cosh (y * t).
Definition J (n : nat) : R := RInt (gint n) 0 1.
Lemma cosh_derive t : is_derive cosh t (sinh t).
Proof. unfold cosh, sinh. auto_derive; [trivial|]. field. Qed.
Lemma sinh_derive t : is_derive sinh t (cosh t).
Proof. unfold cosh, sinh. auto_derive; [trivial|]. field. Qed.
Lemma cosh_pos t : 0 < cosh t.
Proof. unfold cosh. assert (A := exp_pos t). assert (B := exp_pos (- t)). lra. Qed.
Lemma gint_cont n t : continuous (gint n) t.
Proof. apply (ex_derive_continuous (gint n)). unfold gint, cosh. auto_derive. trivial. Qed.
Lemma J_int n : is_RInt (gint n) 0 1 (J n).
Proof. apply (RInt_correct (gint n)), ex_RInt_continuous. intros t _. apply gint_cont. Qed.
Lemma J_pos n : 0 < J n.
Proof.
  apply RInt_gt_0; [lra| |intros t _; apply gint_cont]. intros t Ht. apply Rmult_lt_0_compat; [apply pow_lt; nra|apply cosh_pos].
Qed.
(** the derivative of this function vanishes on the boundary after integration *)
Lemma J_rec n : y ^ 2 * J (S (S n)) = 4 * INR (S n) * INR (S (S n)) * J n - 2 * INR (S (S n)) * (2 * INR (S n) + 1) * J (S n).
Proof.
  set (F := fun t => (1 - t ^ 2) ^ (S (S n)) * (y * sinh (y * t)) + 2 * INR (S (S n)) * (t * (1 - t ^ 2) ^ S n * cosh (y * t))).
  assert (I : is_RInt (fun t => y ^ 2 * gint (S (S n)) t + (2 * INR (S (S n)) * (2 * INR (S n) + 1) * gint (S n) t - 4 * INR (S n) * INR (S (S n)) * gint n t)) 0 1 (F 1 - F 0)).
  { apply (is_RInt_derive F).
    - intros t _. unfold F, gint, cosh, sinh. auto_derive; [trivial|]. cbn [Nat.pred pow]. change (match n with O => 1 | S _ => INR n + 1 end) with (INR (S n)). rewrite !S_INR. replace (1 + - (t * (t * 1))) with (1 - t * (t * 1)) by ring. set (q := (1 - t * (t * 1)) ^ n). field.
    - intros t _. unfold gint, cosh. apply (ex_derive_continuous (V := R_NormedModule)). auto_derive. trivial. }
  assert (K : is_RInt (fun t => y ^ 2 * gint (S (S n)) t + (2 * INR (S (S n)) * (2 * INR (S n) + 1) * gint (S n) t - 4 * INR (S n) * INR (S (S n)) * gint n t)) 0 1
     (y ^ 2 * J (S (S n)) + (2 * INR (S (S n)) * (2 * INR (S n) + 1) * J (S n) - 4 * INR (S n) * INR (S (S n)) * J n))).
  { apply (is_RInt_plus (V := R_NormedModule)); [apply (is_RInt_scal (V := R_NormedModule)), J_int|]. apply (is_RInt_minus (V := R_NormedModule)); apply (is_RInt_scal (V := R_NormedModule)), J_int. }
  assert (E := is_RInt_unique _ _ _ _ I). rewrite (is_RInt_unique _ _ _ _ K) in E. unfold F in E. replace (1 - 1 ^ 2) with 0 in E by ring. replace (0 ^ S (S n)) with 0 in E by (cbn; ring). replace (0 ^ S n) with 0 in E by (cbn; ring). replace (y * 0) with 0 in E by ring. rewrite sinh_0 in E. lra.
Qed.
Lemma J_1 : y ^ 2 * J 1 = 2 * (cosh y - J 0).
Proof.
  set (F := fun t => (1 - t ^ 2) * (y * sinh (y * t)) + 2 * (t * cosh (y * t))).
  assert (I : is_RInt (fun t => y ^ 2 * gint 1 t + 2 * gint 0 t) 0 1 (F 1 - F 0)).
  { apply (is_RInt_derive F).
    - intros t _. unfold F, gint, cosh, sinh. auto_derive; [trivial|]. cbn [pow]. field.
    - intros t _. unfold gint, cosh. apply (ex_derive_continuous (V := R_NormedModule)). auto_derive. trivial. }
  assert (K : is_RInt (fun t => y ^ 2 * gint 1 t + 2 * gint 0 t) 0 1 (y ^ 2 * J 1 + 2 * J 0)).
  { apply (is_RInt_plus (V := R_NormedModule)); apply (is_RInt_scal (V := R_NormedModule)), J_int. }
  assert (E := is_RInt_unique _ _ _ _ I). rewrite (is_RInt_unique _ _ _ _ K) in E. unfold F in E. rewrite Rmult_1_r in E. rewrite Rmult_0_r, sinh_0 in E. lra.
Qed.
Lemma J_0 : y * J 0 = sinh y.
Proof.
  assert (I : is_RInt (fun t => y * gint 0 t) 0 1 (sinh (y * 1) - sinh (y * 0))).
  { apply (is_RInt_derive (fun t => sinh (y * t))).
    - intros t _. unfold gint, cosh, sinh. auto_derive; [trivial|]. cbn [pow]. field.
    - intros t _. unfold gint, cosh. apply (ex_derive_continuous (V := R_NormedModule)). auto_derive. trivial. }
  assert (K : is_RInt (fun t => y * gint 0 t) 0 1 (y * J 0)) by (apply (is_RInt_scal (V := R_NormedModule)), J_int).
  assert (E := is_RInt_unique _ _ _ _ I). rewrite (is_RInt_unique _ _ _ _ K) in E. rewrite Rmult_1_r, Rmult_0_r, sinh_0 in E. lra.
Qed.
(** exact remainders *)
Definition tt (n : nat) : R := match n with O => cosh y / J 0 | S m => 2 * INR (S m) * J m / J (S m) end.
Lemma tt_pos n : 0 < tt n.
Proof.
  assert (A := J_pos n). destruct n as [|n]; cbn [tt]; apply Rdiv_lt_0_compat; try exact A; [apply cosh_pos|]. apply Rmult_lt_0_compat; [|apply J_pos]. assert (B := lt_0_INR (S n) ltac:(lia)). lra.
Qed.
Lemma tt_rec n : tt n = 2 * INR n + 1 + y ^ 2 / tt (S n).
Proof.
  assert (A := J_pos n). assert (B := J_pos (S n)). assert (I := lt_0_INR (S n) ltac:(lia)). destruct n as [|n].
  - cbn [tt]. assert (E := J_1). replace (y ^ 2 / (2 * INR 1 * J 0 / J 1)) with (y ^ 2 * J 1 / (2 * J 0)) by (cbn [INR]; field; lra). rewrite E. cbn [INR]. field. lra.
  - cbn [tt]. assert (E := J_rec n). assert (I2 := lt_0_INR (S (S n)) ltac:(lia)). replace (y ^ 2 / (2 * INR (S (S n)) * J (S n) / J (S (S n)))) with (y ^ 2 * J (S (S n)) / (2 * INR (S (S n)) * J (S n))) by (field; lra). rewrite E. field. lra.
Qed.
Lemma tt_ge n : 2 * INR n + 1 <= tt n.
Proof. rewrite tt_rec. assert (A := tt_pos (S n)). assert (0 <= y ^ 2 / tt (S n)) by (apply Rmult_le_pos; [apply pow2_ge_0|apply Rlt_le, Rinv_0_lt_compat, A]). lra. Qed.
Theorem tanh_tt : tanh y = y / tt 0.
Proof. unfold tanh. cbn [tt]. rewrite <- J_0. assert (A := J_pos 0). assert (B := cosh_pos y). field. lra. Qed.

(** truncated continued fraction with the levels n..n+m *)
Fixpoint cf (m n : nat) : R := match m with O => 2 * INR n + 1 | S m => 2 * INR n + 1 + y ^ 2 / cf m (S n) end.
Lemma cf_ge m n : 2 * INR n + 1 <= cf m n.
Proof.
  revert n. induction m as [|m IH]; intros n; cbn [cf]; [lra|]. assert (H := IH (S n)). assert (I := pos_INR (S n)). assert (0 <= y ^ 2 / cf m (S n)) by (apply Rmult_le_pos; [apply pow2_ge_0|apply Rlt_le, Rinv_0_lt_compat; lra]). lra.
Qed.
Fixpoint bd (m n : nat) : R := match m with O => y ^ 2 / (2 * INR n + 3) | S m => y ^ 2 / (2 * INR n + 3) ^ 2 * bd m (S n) end.
Lemma inv_diff a b c : 0 < c -> c <= a -> c <= b -> Rabs (/ a - / b) <= Rabs (a - b) / c ^ 2.
Proof.
  intros Hc Ha Hb. replace (/ a - / b) with ((b - a) * / (a * b)) by (field; lra). rewrite Rabs_mult, <- (Rabs_Ropp (b - a)). replace (- (b - a)) with (a - b) by ring. apply Rmult_le_compat_l; [apply Rabs_pos|].
  rewrite Rabs_pos_eq by (apply Rlt_le, Rinv_0_lt_compat; nra). apply Rinv_le_contravar; nra.
Qed.
Theorem cf_error m n : Rabs (tt n - cf m n) <= bd m n.
Proof.
  revert n. induction m as [|m IH]; intros n; rewrite tt_rec; cbn [cf bd]; assert (I := pos_INR n).
  - assert (A := tt_ge (S n)). rewrite S_INR in A. match goal with |- Rabs ?l <= _ => replace l with (y ^ 2 / tt (S n)) by ring end. rewrite Rabs_pos_eq by (apply Rmult_le_pos; [apply pow2_ge_0|apply Rlt_le, Rinv_0_lt_compat; lra]).
    apply Rmult_le_compat_l; [apply pow2_ge_0|]. apply Rinv_le_contravar; lra.
  - assert (A := tt_ge (S n)). assert (B := cf_ge m (S n)). rewrite S_INR in A, B. match goal with |- Rabs ?l <= _ => replace l with (y ^ 2 * (/ tt (S n) - / cf m (S n))) by (unfold Rdiv; ring) end. rewrite Rabs_mult, (Rabs_pos_eq (y ^ 2)) by apply pow2_ge_0.
    unfold Rdiv. rewrite Rmult_assoc. apply Rmult_le_compat_l; [apply pow2_ge_0|]. eapply Rle_trans; [apply (inv_diff _ _ (2 * INR n + 3)); lra|]. unfold Rdiv. rewrite Rmult_comm. apply Rmult_le_compat_l; [apply Rlt_le, Rinv_0_lt_compat; nra|]. apply IH.
Qed.
End Y.
Fixpoint odd_fact (M : nat) : R := match M with O => 1 | S M => odd_fact M * (2 * INR M + 1) end.
Lemma odd_fact_pos M : 0 < odd_fact M.
Proof. induction M as [|M IH]; cbn [odd_fact]; [lra|]. apply Rmult_lt_0_compat; [exact IH|]. assert (I := pos_INR M). lra. Qed.
Lemma bd_closed y m n : bd y m n = y ^ (2 * S m) * odd_fact (S n) ^ 2 / odd_fact (S n + m) ^ 2 / (2 * INR (n + m) + 3).
Proof.
  revert n. induction m as [|m IH]; intros n; cbn [bd].
  - rewrite !Nat.add_0_r. assert (A := odd_fact_pos (S n)). assert (I := pos_INR n). change (2 * 1)%nat with 2%nat. field. lra.
  - rewrite IH. replace (S (S n) + m)%nat with (S n + S m)%nat by lia. replace (S n + m)%nat with (n + S m)%nat by lia. change (odd_fact (S (S n))) with (odd_fact (S n) * (2 * INR (S n) + 1)). rewrite S_INR.
    replace (2 * S (S m))%nat with (2 * S m + 2)%nat by lia. rewrite pow_add. assert (A := odd_fact_pos (S n + S m)). assert (I := pos_INR n). assert (I' := pos_INR (n + S m)). field. lra.
Qed.
(** M levels: the error of the convergent of tanh *)
Theorem tanh_cf y M : Rabs (tanh y - y / cf y M 0) <= Rabs y ^ (2 * M + 3) / (odd_fact (S M) ^ 2 * (2 * INR M + 3)).
Proof.
  rewrite tanh_tt. assert (A := tt_ge y 0). assert (B := cf_ge y M 0). cbn [INR] in A, B. replace (y / tt y 0 - y / cf y M 0) with (y * (/ tt y 0 - / cf y M 0)) by (unfold Rdiv; ring). rewrite Rabs_mult.
  assert (E := inv_diff (tt y 0) (cf y M 0) 1 ltac:(lra) ltac:(lra) ltac:(lra)). rewrite pow1, Rdiv_1 in E. assert (F := cf_error y M 0). rewrite bd_closed in F. cbn [Nat.add] in F. replace (odd_fact 1) with 1 in F by (cbn; ring). change (S 0 + M)%nat with (S M) in F.
  replace (Rabs y ^ (2 * M + 3) / (odd_fact (S M) ^ 2 * (2 * INR M + 3))) with (Rabs y * (y ^ (2 * S M) * 1 ^ 2 / odd_fact (S M) ^ 2 / (2 * INR M + 3))).
  - apply Rmult_le_compat_l; [apply Rabs_pos|lra].
  - replace (2 * M + 3)%nat with (S (2 * S M)) by lia. cbn [pow]. rewrite !(pow_mult _ 2), <- !Rsqr_pow2, <- Rsqr_abs. assert (P := odd_fact_pos (S M)). assert (I := pos_INR M). field. lra.
Qed.
