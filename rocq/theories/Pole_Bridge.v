(** * The model functions agree with the specification *)
From Coq Require Import List Arith ZArith Reals Lia Lra.
From Coquelicot Require Import Coquelicot.
From Verif Require Import Base FSum CBase CExp Stat_Model Stat_Proofs Herm_Proofs Linalg_Model Pole_Model Pole_Spec Pole_Proofs Pole_Proofs2 Pole_Time Pole_Fit.
Import ListNotations.

Lemma moments_spec (K : Fld) (poles resid : list K) k : moments poles resid (S k) = moment poles resid k.
Proof.
  unfold moments. replace (S k - 1)%nat with k by lia. revert resid.
  induction poles as [|p ps IH]; intros [|r rs]; try reflexivity. cbn [combine map moment fst snd]. rewrite lsum_cons. now rewrite IH.
Qed.
Lemma gfun_spec z poles resid : gfun z poles resid = green_z z poles resid.
Proof.
  unfold gfun. revert resid. induction poles as [|p ps IH]; intros [|r rs]; try reflexivity.
  cbn [combine map green_z fst snd]. rewrite (lsum_cons CF). now rewrite IH.
Qed.
Local Open Scope R_scope.
Lemma occ_spec poles resid beta : pole_occ poles resid beta = occupation poles resid beta.
Proof.
  unfold pole_occ. revert resid. induction poles as [|p ps IH]; intros [|r rs]; try reflexivity.
  cbn [combine map occupation fst snd]. rewrite (lsum_cons RF). rewrite IH, fermi_def. reflexivity.
Qed.
Lemma gf_tau_spec tau poles resid beta : 0 <= tau <= beta -> gf_tau tau poles resid beta = Ok (green_tau tau poles resid beta).
Proof.
  intros H. rewrite gf_tau_formula by exact H. apply (f_equal Ok). revert resid. induction poles as [|p ps IH]; intros [|r rs]; try reflexivity.
  cbn [combine map green_tau fst snd]. rewrite (lsum_cons RF). rewrite IH, fermi_def. cbn [Fadd RF]. f_equal.
  assert (E1 := exp_pos (beta * p)). assert (E2 := exp_pos (- (beta * p))).
  assert (M : exp (beta * p) * exp (- (beta * p)) = 1) by (rewrite <- exp_plus, Rplus_opp_r; apply exp_0).
  replace (- tau * p) with (- (tau * p)) by ring.
  assert (X : 1 - / (exp (beta * p) + 1) = / (1 + exp (- (beta * p)))).
  { apply (Rmult_eq_reg_r ((exp (beta * p) + 1) * (1 + exp (- (beta * p))))); [|nra]. field_simplify; [|lra|lra]. nra. }
  rewrite X. unfold Rdiv. ring.
Qed.
Lemma wt_spec w i : wt w i = weight_at w i.
Proof. reflexivity. Qed.
Lemma z_cost_spec z gfz w poles resid : z_cost z gfz w poles resid = dist_z z gfz w poles resid.
Proof. unfold z_cost, dist_z. apply (nsum_ext RF). intros i _. now rewrite gfun_spec, wt_spec. Qed.
Lemma tau_cost_spec g beta w poles resid : 0 <= beta -> tau_cost g beta w poles resid = dist_tau g beta w poles resid.
Proof.
  intros H. unfold tau_cost, dist_tau. apply (nsum_ext RF). intros i Hi. rewrite gf_tau_spec; [now rewrite wt_spec|].
  destruct (Nat.eq_dec (length g) 1) as [E|E].
  - rewrite E in *. replace i with 0%nat by lia. cbn. unfold Rdiv. rewrite Rmult_0_l, Rmult_0_r. lra.
  - assert (0 <= INR i <= INR (length g - 1)) by (split; [apply pos_INR|apply le_INR; lia]).
    assert (0 < INR (length g - 1)) by (apply lt_0_INR; lia).
    assert (0 <= INR i / INR (length g - 1) <= 1).
    { split; [apply Rdiv_le_0_compat; lra|]. apply (Rmult_le_reg_r (INR (length g - 1))); [lra|]. unfold Rdiv. rewrite Rmult_assoc, Rinv_l; lra. }
    split; [apply Rmult_le_pos; lra|]. rewrite <- (Rmult_1_r beta) at 2. apply Rmult_le_compat_l; lra.
Qed.
Lemma cheb_spec n i : (i < n)%nat -> cheb n i = cheb_node n i.
Proof.
  intros H. unfold cheb, cheb_node. rewrite <- cos_shift. f_equal.
  rewrite !minus_INR by lia. cbn [INR]. field. apply not_0_INR. lia.
Qed.

(** ** as equalities of functions, for rewriting below binders *)
From Coq Require Import FunctionalExtensionality.
From Verif Require Import FourierMom_Proofs.
Lemma moment_fn (K : Fld) : @moment K = fun p r k => moments p r (S k).
Proof. extensionality p. extensionality r. extensionality k. symmetry. apply moments_spec. Qed.
Lemma green_z_fn : green_z = gfun.
Proof. extensionality z. extensionality p. extensionality r. symmetry. apply gfun_spec. Qed.
Lemma occupation_fn : occupation = pole_occ.
Proof. extensionality p. extensionality r. extensionality b. symmetry. apply occ_spec. Qed.
Lemma nodes_fn : nodes = poles_of.
Proof.
  extensionality w. extensionality n. unfold nodes, poles_of. rewrite map_map. apply map_ext_in. intros i Hi.
  apply in_seq in Hi. rewrite cheb_spec by lia. reflexivity.
Qed.
Lemma node_scale_eq width moms n : (1 <= n)%nat -> node_scale width moms n = fit_width width moms n.
Proof.
  intros H. unfold node_scale, fit_width, pick_width. destruct width; [reflexivity|]. destruct moms as [|m0 [|m1 ms]]; try reflexivity.
  cbn [length Nat.leb nth]. rewrite cheb_max by exact H. rewrite cheb_spec by lia. reflexivity.
Qed.
Lemma iw_fn : iw = fun beta j => matsubara_frequencies (Z.of_nat j) beta.
Proof.
  extensionality b. extensionality j. unfold iw, matsubara_frequencies, Cdiv. rewrite plus_IZR, mult_IZR, <- INR_IZR_INZ, RtoC_mult.
  rewrite !RtoC_plus, !RtoC_mult. ring.
Qed.
Lemma iv_fn : iv = fun beta j => matsubara_frequencies_b (Z.of_nat j) beta.
Proof.
  extensionality b. extensionality j. unfold iv, matsubara_frequencies_b, Cdiv. rewrite <- INR_IZR_INZ, !RtoC_mult. ring.
Qed.
Lemma tau_pt_fn : tau_pt = fun beta n k => linspace 0 beta n k.
Proof. extensionality b. extensionality n. extensionality k. unfold tau_pt, linspace. ring. Qed.
Lemma green_tau_eq p r beta tau : green_tau tau p r beta = ptau p r beta tau.
Proof.
  unfold ptau. revert r. induction p as [|x p IH]; intros [|y r].
  - reflexivity.
  - reflexivity.
  - symmetry. apply (nsum_0' RF). intros i _. destruct i; cbn; unfold Rdiv; ring.
  - cbn [green_tau length]. rewrite (nsum_S_l RF). cbn [nth]. rewrite IH. change (@Fadd RF) with Rplus. f_equal.
    assert (E1 := exp_pos (beta * x)). assert (E2 := exp_pos (- (beta * x))).
    assert (M : exp (beta * x) * exp (- (beta * x)) = 1) by (rewrite <- exp_plus, Rplus_opp_r; apply exp_0).
    replace (- tau * x) with (- (tau * x)) by ring. rewrite fermi_def.
    assert (X : 1 - / (exp (beta * x) + 1) = / (1 + exp (- (beta * x)))).
    { apply (Rmult_eq_reg_r ((exp (beta * x) + 1) * (1 + exp (- (beta * x))))); [|nra]. field_simplify; [|lra|lra]. nra. }
    rewrite X. unfold Rdiv. ring.
Qed.
Lemma green_tau_fn : green_tau = fun tau p r beta => ptau p r beta tau.
Proof. extensionality t. extensionality p. extensionality r. extensionality b. apply green_tau_eq. Qed.
Ltac unspec := rewrite ?(moment_fn RF), ?green_z_fn, ?occupation_fn, ?nodes_fn, ?iw_fn, ?iv_fn, ?tau_pt_fn, ?green_tau_fn.
