(** * Proofs about gftool/statistics.py *)
From Coq Require Import Reals ZArith Lra Lia Psatz.
From Coquelicot Require Import Coquelicot.
From Verif Require Import Base CBase CExp Stat_Model.
Local Open Scope R_scope.

Lemma fermi_def eps beta : fermi_fct eps beta = / (exp (beta * eps) + 1).
Proof. unfold fermi_fct, expit. f_equal. rewrite Rplus_comm. do 2 f_equal. ring. Qed.

Lemma fermi_bounds eps beta : 0 < fermi_fct eps beta < 1.
Proof.
  rewrite fermi_def. assert (H := exp_pos (beta * eps)). split; [apply Rinv_0_lt_compat; lra|].
  rewrite <- Rinv_1. apply Rinv_lt_contravar; lra.
Qed.

Lemma fermi_decreasing beta e1 e2 : 0 < beta -> e1 < e2 -> fermi_fct e2 beta < fermi_fct e1 beta.
Proof.
  intros Hb H. rewrite !fermi_def. assert (H1 := exp_pos (beta * e1)). assert (H2 := exp_pos (beta * e2)).
  assert (exp (beta * e1) < exp (beta * e2)) by (apply exp_increasing; nra). apply Rinv_lt_contravar; [nra|lra].
Qed.

Lemma fermi_symmetric eps beta : fermi_fct eps beta + fermi_fct (- eps) beta = 1.
Proof.
  rewrite !fermi_def. replace (beta * - eps) with (- (beta * eps)) by ring. rewrite exp_Ropp.
  assert (H := exp_pos (beta * eps)). field. repeat split; lra.
Qed.

Lemma fermi_inv_left eps beta : beta <> 0 -> fermi_fct_inv (fermi_fct eps beta) beta = eps.
Proof.
  intros Hb. unfold fermi_fct_inv, logit. rewrite fermi_def. assert (H := exp_pos (beta * eps)).
  replace (/ (exp (beta * eps) + 1) / (1 - / (exp (beta * eps) + 1))) with (exp (- (beta * eps))).
  - rewrite ln_exp. field. exact Hb.
  - rewrite exp_Ropp. field. split; lra.
Qed.

Lemma fermi_inv_right f beta : beta <> 0 -> 0 < f < 1 -> fermi_fct (fermi_fct_inv f beta) beta = f.
Proof.
  intros Hb Hf. rewrite fermi_def. unfold fermi_fct_inv, logit.
  replace (beta * (- ln (f / (1 - f)) / beta)) with (- ln (f / (1 - f))) by (field; exact Hb).
  rewrite exp_Ropp, exp_ln by (apply Rdiv_lt_0_compat; lra). field. lra.
Qed.

Lemma fermi_derive eps beta : is_derive (fun e => fermi_fct e beta) eps (fermi_fct_d1 eps beta).
Proof.
  apply (is_derive_ext (fun e => / (exp (beta * e) + 1))); [intros; symmetry; apply fermi_def|].
  assert (H := exp_pos (beta * eps)). auto_derive; [lra|]. unfold fermi_fct_d1. rewrite fermi_def. field. lra.
Qed.

Lemma fermi_c_def eps beta v : fermi_fct_c eps beta = Ok v <->
  Cplus (cexp (Cmult (RtoC beta) eps)) 1 <> 0 /\ v = Cdiv 1 (Cplus (cexp (Cmult (RtoC beta) eps)) 1).
Proof.
  unfold fermi_fct_c, fermi_exparg. replace (Cmult eps (RtoC beta)) with (Cmult (RtoC beta) eps) by ring.
  set (z := Cmult _ _). assert (N := cexp_neq_0 z).
  destruct (Rlt_dec 0 (fst z)) as [P|P].
  - rewrite cexp_opp. destruct (Ceq_dec _ _) as [E|E].
    + split; [discriminate|]. intros (H & _). exfalso. apply H.
      transitivity (Cmult (Cplus 1 (/ cexp z)) (cexp z))%C; [field; exact N|rewrite E; ring].
    + assert (N2 : (cexp z + 1 <> 0)%C).
      { intros E2. apply E. transitivity (Cmult (Cplus (cexp z) 1) (/ cexp z))%C; [field; exact N|rewrite E2; ring]. }
      split.
      * intros [= <-]. split; [exact N2|]. field. repeat split; assumption.
      * intros (_ & ->). f_equal. field. repeat split; assumption.
  - destruct (Ceq_dec _ _) as [E|E].
    + split; [discriminate|]. intros (H & _). contradiction.
    + split; [intros [= <-]; now split|intros (_ & ->); reflexivity].
Qed.

(** on the real axis the complex branch is the real function *)
Lemma fermi_c_real eps beta : fermi_fct_c (RtoC eps) beta = Ok (RtoC (fermi_fct eps beta)).
Proof.
  apply fermi_c_def. rewrite <- RtoC_mult, cexp_R. assert (H := exp_pos (beta * eps)).
  split.
  - rewrite <- RtoC_plus. intros E. injection E. lra.
  - rewrite fermi_def, RtoC_inv, RtoC_plus by lra. unfold Cdiv. ring.
Qed.

Lemma fermi_exparg_bounded z : fst (fermi_exparg z) <= 0 /\ Cmod (cexp (fermi_exparg z)) <= 1.
Proof.
  assert (H : fst (fermi_exparg z) <= 0) by (unfold fermi_exparg; destruct (Rlt_dec 0 (fst z)); cbn; lra).
  split; [exact H|]. rewrite Cmod_cexp, <- exp_0. destruct H as [H|H]; [left; now apply exp_increasing|right; now rewrite H].
Qed.

(** ** Bose function *)
Definition floaty (x y : num) : Prop := match x, y with NInt _, NInt _ => False | _, _ => True end.

Lemma nval_nmul x y : nval (nmul x y) = nval x * nval y.
Proof. destruct x, y; cbn; try reflexivity. apply mult_IZR. Qed.

Lemma expm1_neq0 x : x <> 0 -> expm1 x <> 0.
Proof.
  intros H E. unfold expm1 in E. apply H. apply exp_inv. rewrite exp_0. lra.
Qed.
Lemma bose_branch x : x <> 0 -> - exp (- x) / expm1 (- x) = 1 / (exp x - 1).
Proof.
  intros H. assert (N := expm1_neq0 (- x) ltac:(lra)). assert (N2 := expm1_neq0 x H). unfold expm1 in *.
  rewrite exp_Ropp in *. assert (P := exp_pos x). field. repeat split; lra.
Qed.

Theorem bose_float eps beta : floaty beta eps -> nval beta * nval eps <> 0 ->
  bose_fct eps beta = Ok (NFlt (/ (exp (nval beta * nval eps) - 1))).
Proof.
  intros F N. unfold bose_fct. rewrite nval_nmul.
  assert (Hc : forall r, cast_like (nmul beta eps) r = NFlt r) by (intros r; destruct beta, eps; try destruct F; reflexivity).
  rewrite !Hc. destruct (Rlt_dec _ _).
  - destruct (Req_EM_T _ _) as [E|_]; [exfalso; exact (expm1_neq0 _ N E)|]. unfold expm1, Rdiv. now rewrite Rmult_1_l.
  - rewrite bose_branch by exact N. unfold Rdiv. now rewrite Rmult_1_l.
Qed.

Theorem bose_zero eps beta : nval beta * nval eps = 0 -> bose_fct eps beta = Err NonFinite.
Proof.
  intros E. unfold bose_fct. rewrite nval_nmul, E. destruct (Rlt_dec 0 700); [|lra].
  unfold expm1. rewrite exp_0. destruct (Req_EM_T (1 - 1) 0); [reflexivity|lra].
Qed.

Theorem bose_symmetric (e b n1 n2 : R) : bose_fct (NFlt e) (NFlt b) = Ok (NFlt n1) -> bose_fct (NFlt (- e)) (NFlt b) = Ok (NFlt n2) ->
  n2 = -1 - n1.
Proof.
  intros H1 H2. destruct (Req_dec (b * e) 0) as [E|N].
  - rewrite bose_zero in H1 by exact E. discriminate.
  - rewrite bose_float in H1 by (exact I || exact N). rewrite bose_float in H2 by (exact I || (cbn; intros E; apply N; nra)).
    cbn in *. injection H1 as <-. injection H2 as <-. replace (b * - e) with (- (b * e)) by ring. rewrite exp_Ropp.
    assert (N2 := expm1_neq0 _ N). unfold expm1 in N2. assert (P := exp_pos (b * e)). field. split; lra.
Qed.

Theorem bose_positive (e b n : R) : 0 < b * e -> bose_fct (NFlt e) (NFlt b) = Ok (NFlt n) -> 0 < n.
Proof.
  intros P H. rewrite bose_float in H by (exact I || (cbn; lra)). cbn in H. injection H as <-.
  apply Rinv_0_lt_compat. assert (exp 0 < exp (b * e)) by now apply exp_increasing. rewrite exp_0 in *. lra.
Qed.

Lemma trunc_unit r : 0 <= r < 1 -> trunc r = 0%Z.
Proof.
  intros H. unfold trunc. destruct (Rle_dec 0 r); [|lra].
  unfold Int_part. assert (E : up r = 1%Z) by (symmetry; apply tech_up; cbn; lra). rewrite E. lia.
Qed.

(** Integer arguments: the result is truncated; for positive products it is always zero. *)
Theorem bose_int_zero (e b : Z) : (0 < b * e)%Z -> bose_fct (NInt e) (NInt b) = Ok (NInt 0).
Proof.
  intros P. unfold bose_fct. cbn [nmul nval cast_like]. set (x := IZR (b * e)). assert (Hx : 1 <= x) by (apply (IZR_le 1); lia).
  assert (Hv : 0 <= 1 / (exp x - 1) < 1).
  { assert (H2 : 2 < exp x) by (assert (T := exp_ineq1 x ltac:(lra)); lra).
    unfold Rdiv. rewrite Rmult_1_l. split; [left; apply Rinv_0_lt_compat; lra|]. rewrite <- Rinv_1. apply Rinv_lt_contravar; lra. }
  destruct (Rlt_dec x 700).
  - destruct (Req_EM_T _ _) as [E|_]; [exfalso; apply (expm1_neq0 x); [lra|exact E]|]. unfold expm1. now rewrite (trunc_unit _ Hv).
  - rewrite bose_branch by lra. now rewrite (trunc_unit _ Hv).
Qed.

(** ** Matsubara frequencies *)
Lemma matsubara_arg n beta : beta <> 0 -> Cmult (RtoC beta) (matsubara_frequencies n beta) = (0, IZR (2 * n + 1) * PI)%R.
Proof. intros H. unfold matsubara_frequencies. apply C_ext; cbn; field; exact H. Qed.
Lemma matsubara_b_arg n beta : beta <> 0 -> Cmult (RtoC beta) (matsubara_frequencies_b n beta) = (0, 2 * IZR n * PI)%R.
Proof. intros H. unfold matsubara_frequencies_b. apply C_ext; cbn; field; exact H. Qed.

Lemma matsubara_im n beta : beta <> 0 -> matsubara_frequencies n beta = (0, (2 * IZR n + 1) * PI / beta)%R.
Proof. intros H. unfold matsubara_frequencies. rewrite plus_IZR, mult_IZR. apply C_ext; cbn; field; exact H. Qed.
Lemma matsubara_b_im n beta : beta <> 0 -> matsubara_frequencies_b n beta = (0, 2 * IZR n * PI / beta)%R.
Proof. intros H. unfold matsubara_frequencies_b. apply C_ext; cbn; field; exact H. Qed.

Theorem matsubara_pole n beta : beta <> 0 -> cexp (Cmult (RtoC beta) (matsubara_frequencies n beta)) = Copp 1.
Proof.
  intros H. rewrite matsubara_arg by exact H. unfold cexp. cbn [fst snd]. rewrite exp_0, cos_odd_pi, sin_Zpi.
  apply C_ext; cbn; ring.
Qed.
Theorem matsubara_b_pole n beta : beta <> 0 -> cexp (Cmult (RtoC beta) (matsubara_frequencies_b n beta)) = 1.
Proof.
  intros H. rewrite matsubara_b_arg by exact H. unfold cexp. cbn [fst snd]. rewrite exp_0, cos_2Zpi.
  replace (2 * IZR n * PI) with (IZR (2 * n) * PI) by (rewrite mult_IZR; ring). rewrite sin_Zpi. apply C_ext; cbn; ring.
Qed.

(** every solution of exp(beta z) = -1 is a fermionic Matsubara frequency *)
Theorem matsubara_complete z beta : beta <> 0 -> cexp (Cmult (RtoC beta) z) = Copp 1 -> exists n, z = matsubara_frequencies n beta.
Proof.
  intros Hb E. assert (M := f_equal Cmod E). rewrite Cmod_cexp, Cmod_opp, Cmod_1 in M.
  assert (E0 : fst (RtoC beta * z)%C = 0) by (apply exp_inv; now rewrite exp_0).
  assert (Es := f_equal snd E). assert (Ec := f_equal fst E). unfold cexp in Es, Ec. cbn [fst snd] in Es, Ec.
  rewrite E0, exp_0 in Es, Ec. cbn in E0, Es, Ec.
  set (y := (beta * snd z + 0 * fst z)) in *.
  assert (S0 : sin y = 0) by lra. assert (C0 : cos y = -1) by lra.
  destruct (sin_eq_0_0 y S0) as (k & Hk).
  assert (Hodd : Z.odd k = true).
  { destruct (Z.odd k) eqn:O; [reflexivity|exfalso]. assert (Hev : Z.Even k) by (apply Z.even_spec; now rewrite <- Z.negb_odd, O).
    destruct Hev as (m & ->). rewrite Hk, mult_IZR, cos_2Zpi in C0. lra. }
  apply Z.odd_spec in Hodd. destruct Hodd as (m & ->). exists m. rewrite matsubara_im by exact Hb.
  rewrite plus_IZR, mult_IZR in Hk. unfold y in Hk. clear -Hk E0 Hb.
  destruct z as [x w]. cbn [fst snd] in *. apply C_ext; cbn.
  - apply Rmult_eq_reg_l with beta; [lra|exact Hb].
  - apply Rmult_eq_reg_l with beta; [|exact Hb]. replace (beta * ((2 * IZR m + 1) * PI / beta)) with ((2 * IZR m + 1) * PI) by (field; exact Hb). lra.
Qed.

Theorem matsubara_symmetric n beta : matsubara_frequencies (-1 - n) beta = Copp (matsubara_frequencies n beta).
Proof.
  unfold matsubara_frequencies. replace (2 * (-1 - n) + 1)%Z with (- (2 * n + 1))%Z by lia. rewrite opp_IZR, RtoC_opp. ring.
Qed.
Theorem matsubara_spacing n beta : beta <> 0 ->
  Cminus (matsubara_frequencies (n + 1) beta) (matsubara_frequencies n beta) = Cmult Ci (RtoC (2 * PI / beta)).
Proof.
  intros H. rewrite !matsubara_im by exact H. rewrite plus_IZR. apply C_ext; cbn; field; exact H.
Qed.
