(** * Analysis of the principal square root: continuity, derivative, reality, conjugation *)
From Coq Require Import Reals Lra Psatz Field.
From Coquelicot Require Import Coquelicot.
From Verif Require Import Base CBase CExp.
Local Open Scope C_scope.

Definition offcut (z : C) : Prop := snd z <> 0%R \/ (0 < fst z)%R.

Lemma csqrt_pos z : offcut z -> (0 < fst (csqrt z))%R.
Proof. apply csqrt_re_pos. Qed.
Lemma csqrt_neq0 (z : C) : z <> 0 -> csqrt z <> 0.
Proof. intros H E. apply H. rewrite <- (csqrt_sqr z), E. ring. Qed.
Lemma re_pos_neq0 (z : C) : (0 < fst z)%R -> z <> 0.
Proof. intros H E. rewrite E in H. cbn in H. lra. Qed.
Lemma Cmod_csqrt_sqr z : (Cmod (csqrt z)%C * Cmod (csqrt z)%C)%R = Cmod z.
Proof. rewrite <- Cmod_mult, csqrt_sqr. reflexivity. Qed.
Lemma csqrt_R (x : R) : (0 <= x)%R -> csqrt (RtoC x) = RtoC (sqrt x).
Proof.
  intros H. unfold csqrt. cbn [fst snd RtoC]. assert (M : Cmod (RtoC x)%C = x) by (rewrite Cmod_R; apply Rabs_pos_eq, H). rewrite M.
  replace ((x + x) / 2)%R with x by field. replace ((x - x) / 2)%R with 0%R by field. rewrite sqrt_0. apply C_ext; cbn; ring.
Qed.
Lemma csqrt_neg (x : R) : (0 <= x)%R -> csqrt (RtoC (- x)) = (0%R, sqrt x).
Proof.
  intros H. unfold csqrt. cbn [fst snd RtoC]. assert (M : Cmod (RtoC (- x))%C = x) by (rewrite Cmod_R, Rabs_Ropp; apply Rabs_pos_eq, H). rewrite M.
  replace ((x + - x) / 2)%R with 0%R by field. replace ((x - - x) / 2)%R with x by field. rewrite sqrt_0. destruct (Rle_dec 0 0); [|lra]. apply C_ext; cbn; ring.
Qed.
Lemma csqrt_conj z : offcut z -> csqrt (Cconj z) = Cconj (csqrt z).
Proof.
  intros H. apply csqrt_unique; [|cbn; apply csqrt_pos, H].
  transitivity (Cconj (csqrt z * csqrt z)); [|now rewrite csqrt_sqr]. apply C_ext; cbn; ring.
Qed.

Lemma re_sum_ge (s t : C) : (0 <= fst s)%R -> (0 <= fst t)%R -> (fst t <= Cmod (s + t)%C)%R.
Proof.
  intros Hs Ht. eapply Rle_trans; [|apply Cmod_ge_re]. cbn. rewrite Rabs_pos_eq by lra. lra.
Qed.

(** Lipschitz bound away from the cut *)
Lemma csqrt_lip z w : (0 < fst (csqrt z))%R -> (Cmod (csqrt w - csqrt z)%C <= Cmod (w - z)%C / fst (csqrt z))%R.
Proof.
  intros H. assert (Hs := csqrt_re_nonneg w). set (s := csqrt w) in *. set (t := csqrt z) in *.
  assert (E : (s - t) * (s + t) = w - z) by (transitivity (s * s - t * t); [ring|unfold s, t; now rewrite !csqrt_sqr]).
  assert (B : (fst t <= Cmod (s + t)%C)%R) by (apply re_sum_ge; lra).
  rewrite <- E, Cmod_mult. apply (Rmult_le_reg_r (fst t)); [lra|]. unfold Rdiv. rewrite !Rmult_assoc, Rinv_l, Rmult_1_r by lra.
  apply Rmult_le_compat_l; [apply Cmod_ge_0|exact B].
Qed.

Lemma is_cderive_csqrt z : offcut z -> is_cderive csqrt z (/ (2 * csqrt z)).
Proof.
  intros H. assert (Hp := csqrt_pos z H). apply is_cderive_alt. set (t := csqrt z) in *.
  assert (Ht : t <> 0) by now apply re_pos_neq0.
  assert (H2 : 2 * t <> 0) by (apply Cmult_neq_0; [intros E; apply RtoC_inj in E; lra|exact Ht]).
  intros eps He. exists (Rmin 1 (eps * (2 * fst t * fst t * fst t) / 2))%R. 
  assert (Hc : (0 < 2 * fst t * fst t * fst t)%R) by (repeat apply Rmult_lt_0_compat; lra).
  split. { apply Rmin_glb_lt; [lra|]. nra. }
  intros h Hh Hd. assert (Hd2 : (Cmod h < eps * (2 * fst t * fst t * fst t) / 2)%R) by (eapply Rlt_le_trans; [exact Hd|apply Rmin_r]).
  assert (Hs := csqrt_re_nonneg (z + h)). set (s := csqrt (z + h)) in *.
  assert (B : (fst t <= Cmod (s + t)%C)%R) by (apply re_sum_ge; lra).
  assert (Hst : s + t <> 0) by (apply re_pos_neq0; change (0 < fst s + fst t)%R; lra).
  assert (E : (s - t) * (s + t) = h) by (transitivity (s * s - t * t); [ring|unfold s, t; rewrite !csqrt_sqr; ring]).
  replace ((s - t) / h - / (2 * t)) with (- (h / ((s + t) * (s + t) * (2 * t)))).
  2:{ assert (Hm : s - t <> 0) by (intros E0; apply Hh; rewrite <- E, E0; ring).
      replace h with ((s - t) * (s + t)) by exact E. replace (RtoC 2) with (RtoC 1 + RtoC 1) in * by (rewrite <- RtoC_plus; f_equal; lra).
      field. repeat split; try assumption. intros E0. apply H2. transitivity ((RtoC 1 + RtoC 1) * t); [reflexivity|]. match type of E0 with ?a = _ => transitivity (a * t); [reflexivity|] end. rewrite E0. ring. }
  rewrite Cmod_opp, Cmod_div by (repeat apply Cmult_neq_0; assumption || (intros E0; apply RtoC_inj in E0; lra)).
  rewrite !Cmod_mult. replace (Cmod 2) with 2%R by (rewrite Cmod_R, Rabs_pos_eq; lra).
  assert (Bt : (fst t <= Cmod t)%R) by (eapply Rle_trans; [apply Rle_abs|apply Cmod_ge_re]).
  assert (Hden : (2 * fst t * fst t * fst t <= Cmod (s + t)%C * Cmod (s + t)%C * (2 * Cmod t))%R).
  { assert (fst t * fst t <= Cmod (s + t)%C * Cmod (s + t)%C)%R by nra. nra. }
  apply (Rmult_lt_reg_r (Cmod (s + t)%C * Cmod (s + t)%C * (2 * Cmod t))%R); [lra|]. unfold Rdiv. rewrite Rmult_assoc, Rinv_l, Rmult_1_r by lra.
  eapply Rlt_le_trans; [exact Hd2|]. assert (0 <= Cmod h)%R by apply Cmod_ge_0. nra.
Qed.
