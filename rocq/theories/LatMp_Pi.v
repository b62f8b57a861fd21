(** * The floating point constant of triangular.dos_mp is larger than 2/pi^2 *)
From Coq Require Import Reals QArith Qreals Machin Lra Lia.
Local Open Scope R_scope.

(** [2 / np.pi**2] in double precision: 0x1.9f02f6222c720p-3 *)
Definition float_c : R := 228155022448185 / 1125899906842624.

Fixpoint qpow (q : Q) (n : nat) : Q := match n with O => 1%Q | S m => Qred (q * qpow q m) end.
Lemma qpow_R q n : Q2R (qpow q n) = Q2R q ^ n.
Proof.
  induction n as [|n IH]; [unfold Q2R; cbn; field|]. cbn [qpow pow]. rewrite <- IH, <- Q2R_mult. apply Qeq_eqR, Qred_correct.
Qed.
Definition qterm (n : nat) : Q := Qred (qpow (-1) n * (2 * (qpow (1 # 3) (2 * n + 1) / inject_Z (Z.of_nat (2 * n + 1))) + qpow (1 # 7) (2 * n + 1) / inject_Z (Z.of_nat (2 * n + 1)))).
Fixpoint qsum (n : nat) : Q := match n with O => qterm O | S m => Qred (qsum m + qterm n) end.
Lemma Q2R_INR n : Q2R (inject_Z (Z.of_nat n)) = INR n.
Proof. rewrite INR_IZR_INZ. unfold Q2R, inject_Z. cbn. field. Qed.
Lemma qterm_R n : Q2R (qterm n) = tg_alt PI_2_3_7_tg n.
Proof.
  unfold qterm. assert (N : INR (2 * n + 1) <> 0) by (apply not_0_INR; lia). assert (NQ : ~ (inject_Z (Z.of_nat (2 * n + 1)) == 0)%Q).
  { intros E. apply N. rewrite <- Q2R_INR. rewrite (Qeq_eqR _ _ E). unfold Q2R. cbn. ring. }
  rewrite (Qeq_eqR _ _ (Qred_correct _)), Q2R_mult, Q2R_plus, Q2R_mult, !Q2R_div, !qpow_R, Q2R_INR by exact NQ.
  unfold tg_alt, PI_2_3_7_tg, Ratan_seq. replace (Q2R (-1)) with (-1) by (unfold Q2R; cbn; field). replace (Q2R 2) with 2 by (unfold Q2R; cbn; field).
  replace (Q2R (1 # 3)) with (/ 3) by (unfold Q2R; cbn; field). replace (Q2R (1 # 7)) with (/ 7) by (unfold Q2R; cbn; field). reflexivity.
Qed.
Lemma qsum_R n : Q2R (qsum n) = sum_f_R0 (tg_alt PI_2_3_7_tg) n.
Proof. induction n as [|n IH]; [apply qterm_R|]. cbn [qsum sum_f_R0]. rewrite (Qeq_eqR _ _ (Qred_correct _)), Q2R_plus, IH, qterm_R. reflexivity. Qed.
Lemma float_c_gt : 2 < float_c * (PI * PI).
Proof.
  destruct (PI_2_3_7_ineq 8) as [H _]. rewrite <- qsum_R in H. set (q := qsum (S (2 * 8))) in *.
  assert (L : (2 < (228155022448185 # 1125899906842624) * (4 * q * (4 * q)))%Q) by (vm_compute; reflexivity). assert (L0 : (0 < q)%Q) by (vm_compute; reflexivity).
  apply Qlt_Rlt in L, L0. rewrite !Q2R_mult in L. replace (Q2R 4) with 4 in L by (unfold Q2R; cbn; field). replace (Q2R 2) with 2 in L by (unfold Q2R; cbn; field). replace (Q2R 0) with 0 in L0 by (unfold Q2R; cbn; field).
  replace (Q2R (228155022448185 # 1125899906842624)) with float_c in L by (unfold float_c, Q2R; cbn [Qnum Qden]; field). assert (C0 : 0 < float_c) by (unfold float_c; lra).
  set (r := Q2R q) in *. clearbody r. apply Rlt_le_trans with (1 := L). apply Rmult_le_compat_l; [lra|]. apply Rmult_le_compat; lra.
Qed.
