(** * Properties C27-C29: statistics. *)
From Coq Require Import Reals ZArith Lra.
From Coquelicot Require Import Coquelicot.
From Verif Require Import Base CBase CExp Stat_Model Stat_Proofs.
Local Open Scope R_scope.

(** C27 *)
Theorem C27_fermi_definition : forall eps beta, fermi_fct eps beta = / (exp (beta * eps) + 1).
Proof. exact fermi_def. Qed.
Print Assumptions C27_fermi_definition.
Theorem C27_fermi_bounds : forall eps beta, 0 < fermi_fct eps beta < 1.
Proof. exact fermi_bounds. Qed.
Print Assumptions C27_fermi_bounds.
Theorem C27_fermi_decreasing : forall beta e1 e2, 0 < beta -> e1 < e2 -> fermi_fct e2 beta < fermi_fct e1 beta.
Proof. exact fermi_decreasing. Qed.
Print Assumptions C27_fermi_decreasing.
Theorem C27_fermi_symmetric : forall eps beta, fermi_fct eps beta + fermi_fct (- eps) beta = 1.
Proof. exact fermi_symmetric. Qed.
Print Assumptions C27_fermi_symmetric.
Theorem C27_fermi_inv_left : forall eps beta, beta <> 0 -> fermi_fct_inv (fermi_fct eps beta) beta = eps.
Proof. exact fermi_inv_left. Qed.
Print Assumptions C27_fermi_inv_left.
Theorem C27_fermi_inv_right : forall f beta, beta <> 0 -> 0 < f < 1 -> fermi_fct (fermi_fct_inv f beta) beta = f.
Proof. exact fermi_inv_right. Qed.
Print Assumptions C27_fermi_inv_right.
Theorem C27_fermi_derivative : forall eps beta, is_derive (fun e => fermi_fct e beta) eps (fermi_fct_d1 eps beta).
Proof. exact fermi_derive. Qed.
Print Assumptions C27_fermi_derivative.
(** complex arguments: both branches compute 1/(exp(beta eps)+1); only its poles are non-finite *)
Theorem C27_fermi_complex : forall eps beta v, fermi_fct_c eps beta = Ok v <->
  Cplus (cexp (Cmult (RtoC beta) eps)) 1 <> 0 /\ v = Cdiv 1 (Cplus (cexp (Cmult (RtoC beta) eps)) 1).
Proof. exact fermi_c_def. Qed.
Print Assumptions C27_fermi_complex.
Theorem C27_fermi_complex_on_reals : forall eps beta, fermi_fct_c (RtoC eps) beta = Ok (RtoC (fermi_fct eps beta)).
Proof. exact fermi_c_real. Qed.
Print Assumptions C27_fermi_complex_on_reals.
(** the exponential is never evaluated at an argument with positive real part *)
Theorem C27_no_overflow : forall z, fst (fermi_exparg z) <= 0 /\ Cmod (cexp (fermi_exparg z)) <= 1.
Proof. exact fermi_exparg_bounded. Qed.
Print Assumptions C27_no_overflow.

Example C27_example : fermi_fct 0 3 = 1/2 /\ fermi_fct (ln 2) 1 = 1/3 /\ fermi_fct_inv (1/3) 1 = ln 2.
Proof.
  assert (H : fermi_fct (ln 2) 1 = 1/3) by (rewrite fermi_def, Rmult_1_l, exp_ln by lra; field).
  repeat split; [|exact H|].
  - rewrite fermi_def, Rmult_0_r, exp_0. field.
  - rewrite <- H. apply fermi_inv_left. lra.
Qed.

(** C28 *)
Theorem C28_bose_definition_partial : forall eps beta, floaty beta eps -> nval beta * nval eps <> 0 ->
  bose_fct eps beta = Ok (NFlt (/ (exp (nval beta * nval eps) - 1))).
Proof. exact bose_float. Qed.
Print Assumptions C28_bose_definition_partial.
Theorem C28_bose_zero : forall eps beta, nval beta * nval eps = 0 -> bose_fct eps beta = Err NonFinite.
Proof. exact bose_zero. Qed.
Print Assumptions C28_bose_zero.
Theorem C28_bose_symmetric : forall e b n1 n2 : R,
  bose_fct (NFlt e) (NFlt b) = Ok (NFlt n1) -> bose_fct (NFlt (- e)) (NFlt b) = Ok (NFlt n2) -> n2 = -1 - n1.
Proof. exact bose_symmetric. Qed.
Print Assumptions C28_bose_symmetric.
Theorem C28_bose_positive : forall e b n : R, 0 < b * e -> bose_fct (NFlt e) (NFlt b) = Ok (NFlt n) -> 0 < n.
Proof. exact bose_positive. Qed.
Print Assumptions C28_bose_positive.
(** Integer eps and beta: the result array is an integer array, every value is truncated to 0. *)
Theorem C28_bose_integers_truncated : forall e b : Z, (0 < b * e)%Z -> bose_fct (NInt e) (NInt b) = Ok (NInt 0).
Proof. exact bose_int_zero. Qed.
Print Assumptions C28_bose_integers_truncated.
Theorem C28_bose_definition_refuted : exists (eps beta v : num),
  0 < nval beta /\ 0 < nval eps /\ bose_fct eps beta = Ok v /\ nval v <> / (exp (nval beta * nval eps) - 1).
Proof.
  exists (NInt 1), (NInt 1), (NInt 0). repeat split; try (cbn; lra).
  - now apply bose_int_zero.
  - cbn [nval]. intros E. assert (P := exp_ineq1 (1 * 1) ltac:(lra)).
    assert (0 < / (exp (1 * 1) - 1)) by (apply Rinv_0_lt_compat; lra). lra.
Qed.
Print Assumptions C28_bose_definition_refuted.

Example C28_example : bose_fct (NFlt (ln 2)) (NInt 2) = Ok (NFlt (1/3)) /\ floaty (NInt 2) (NFlt (ln 2)).
Proof.
  split; [|exact I]. assert (L : 0 < ln 2) by (apply ln_lt_0 || (rewrite <- ln_1; apply ln_increasing; lra)).
  rewrite bose_float by (exact I || (cbn; lra)). do 2 f_equal. cbn [nval].
  replace (2 * ln 2) with (ln 2 + ln 2) by ring. rewrite exp_plus, exp_ln by lra. field.
Qed.

(** C29 *)
Theorem C29_matsubara_fermionic : forall n beta, beta <> 0 -> cexp (Cmult (RtoC beta) (matsubara_frequencies n beta)) = Copp 1.
Proof. exact matsubara_pole. Qed.
Print Assumptions C29_matsubara_fermionic.
Theorem C29_matsubara_bosonic : forall n beta, beta <> 0 -> cexp (Cmult (RtoC beta) (matsubara_frequencies_b n beta)) = 1.
Proof. exact matsubara_b_pole. Qed.
Print Assumptions C29_matsubara_bosonic.
Theorem C29_matsubara_complete : forall z beta, beta <> 0 -> cexp (Cmult (RtoC beta) z) = Copp 1 ->
  exists n, z = matsubara_frequencies n beta.
Proof. exact matsubara_complete. Qed.
Print Assumptions C29_matsubara_complete.
Theorem C29_matsubara_symmetric : forall n beta, matsubara_frequencies (-1 - n) beta = Copp (matsubara_frequencies n beta).
Proof. exact matsubara_symmetric. Qed.
Print Assumptions C29_matsubara_symmetric.
Theorem C29_matsubara_spacing : forall n beta, beta <> 0 ->
  Cminus (matsubara_frequencies (n + 1) beta) (matsubara_frequencies n beta) = Cmult Ci (RtoC (2 * PI / beta)).
Proof. exact matsubara_spacing. Qed.
Print Assumptions C29_matsubara_spacing.
Example C29_example : matsubara_frequencies 1 2 = (0, 3 * PI / 2).
Proof. rewrite matsubara_im by lra. f_equal. field. Qed.
