(** * Matsubara sums of functions given by poles *)
From Coq Require Import List Reals Lia Lra Psatz.
From Coquelicot Require Import Coquelicot.
From Verif Require Import Base CBase CExp Pole_Spec Matsu_Lim Matsu_Ser.
Import ListNotations.
Local Open Scope R_scope.

Lemma exp_1p x : 0 < 1 + exp x.
Proof. assert (H := exp_pos x). lra. Qed.
Section Pole.
  Variables (x t : R).
  Let th (s : R) : R := PI * (s - t).
  (** antiderivative of exp(-x s) cos(k (s - t)) *)
  Lemma expcos_int (k A : R) : 0 < x * x + k * k ->
    is_RInt (fun s => A * exp (- (x * s)) * cos (k * (s - t))) 0 1
      (A * (exp (- x) * (- x * cos (k * (1 - t)) + k * sin (k * (1 - t))) - (- x * cos (k * t) - k * sin (k * t))) / (x * x + k * k)).
  Proof.
    intros H. set (F := fun s => A * exp (- (x * s)) * (- x * cos (k * (s - t)) + k * sin (k * (s - t))) / (x * x + k * k)).
    apply (is_RInt_eq _ _ _ (minus (F 1) (F 0))).
    - apply (is_RInt_derive (V := R_CompleteNormedModule)).
      + intros s _. unfold F. auto_derive; [exact I|]. unfold Rminus. field. lra.
      + intros s _. apply (ex_derive_continuous (V := R_NormedModule)). auto_derive. exact I.
    - unfold minus, plus, opp; cbn. unfold F. rewrite Rmult_1_r, Rmult_0_r, Ropp_0, exp_0. replace (k * (0 - t)) with (- (k * t)) by ring. rewrite cos_neg, sin_neg. field. lra.
  Qed.
  Let w (n : nat) : R := (2 * INR n + 1) * PI.
  Let v (n : nat) : R := 2 * INR n * PI.
  Lemma w_pos n : 0 < w n.
  Proof. assert (P := PI_RGT_0). assert (N := pos_INR n). unfold w. apply Rmult_lt_0_compat; lra. Qed.
  Lemma cos_w n y : cos (w n * (1 - y)) = - cos (w n * y) /\ sin (w n * (1 - y)) = sin (w n * y).
  Proof.
    assert (E : w n * (1 - y) = PI - w n * y + 2 * INR n * PI) by (unfold w; ring). rewrite E, cos_period, sin_period, cos_minus, sin_minus, cos_PI, sin_PI. split; ring.
  Qed.
  Lemma cos_v n y : cos (v n * (1 - y)) = cos (v n * y) /\ sin (v n * (1 - y)) = - sin (v n * y).
  Proof.
    assert (E : v n * (1 - y) = - (v n * y) + 2 * INR n * PI) by (unfold v; ring). rewrite E, cos_period, sin_period, cos_neg, sin_neg. split; reflexivity.
  Qed.
  Definition gf (s : R) : R := - exp (- (x * s)) / (1 + exp (- x)).
  Definition gb (s : R) : R := - exp (- (x * s)) / (1 - exp (- x)).
  Definition cf (n : nat) : R := 2 * (- (x * cos (w n * t) + w n * sin (w n * t)) / (x * x + w n * w n)).
  Definition cb (n : nat) : R := match n with O => - / x | S _ => 2 * (- (x * cos (v n * t) + v n * sin (v n * t)) / (x * x + v n * v n)) end.
  Lemma cf_int n : is_RInt (fun s => gf s * (2 * cos ((2 * INR n + 1) * th s))) 0 1 (cf n).
  Proof.
    assert (H := w_pos n). assert (E1 := exp_1p (- x)). assert (K : 0 < x * x + w n * w n) by nra.
    apply (is_RInt_ext (fun s => -2 / (1 + exp (- x)) * exp (- (x * s)) * cos (w n * (s - t)))).
    { intros s _. eqR. unfold gf, th. replace ((2 * INR n + 1) * (PI * (s - t))) with (w n * (s - t)) by (unfold w; ring). field. lra. }
    eapply is_RInt_eq; [apply expcos_int; exact K|]. destruct (cos_w n t) as [-> ->]. unfold cf. eqR. field. split; lra.
  Qed.
  Lemma cb_int n : x <> 0 -> is_RInt (fun s => gb s * kb (th s) n) 0 1 (cb n).
  Proof.
    intros Hx. assert (E1 : 1 - exp (- x) <> 0) by (intros E; assert (Z : exp (- x) = exp 0) by (rewrite exp_0; lra); apply exp_inv in Z; lra). assert (K : 0 < x * x + v n * v n) by (assert (0 < x * x) by (apply Rsqr_pos_lt in Hx; exact Hx); nra).
    destruct n as [|n].
    - apply (is_RInt_ext (fun s => -1 / (1 - exp (- x)) * exp (- (x * s)) * cos (v 0 * (s - t)))).
      { intros s _. eqR. unfold gb, kb, v. cbn [INR]. rewrite Rmult_0_r, !Rmult_0_l, cos_0. field. exact E1. }
      eapply is_RInt_eq; [apply expcos_int; exact K|]. unfold v. cbn [INR]. rewrite Rmult_0_r, !Rmult_0_l, cos_0. unfold cb. eqR. field. split; [exact Hx|exact E1].
    - apply (is_RInt_ext (fun s => -2 / (1 - exp (- x)) * exp (- (x * s)) * cos (v (S n) * (s - t)))).
      { intros s _. eqR. unfold gb, kb, th. replace (2 * INR (S n) * (PI * (s - t))) with (v (S n) * (s - t)) by (unfold v; ring). field. exact E1. }
      eapply is_RInt_eq; [apply expcos_int; exact K|]. destruct (cos_v (S n) t) as [-> ->]. unfold cb. eqR. field. split; lra.
  Qed.
  Lemma gf_derive s : is_derive gf s (x * exp (- (x * s)) / (1 + exp (- x))).
  Proof. assert (E1 := exp_1p (- x)). unfold gf. auto_derive; [exact I|]. field. lra. Qed.
  Lemma gb_derive s : is_derive gb s (x * exp (- (x * s)) / (1 - exp (- x))).
  Proof. unfold gb. auto_derive; [exact I|]. unfold Rdiv. ring. Qed.
  Lemma th_zero s : 0 <= s <= 1 -> 0 < t < 1 -> sin (th s) = 0 -> s = t.
  Proof.
    intros Hs Ht Z. assert (P := PI_RGT_0). unfold th in Z. destruct (Rtotal_order s t) as [L|[E|G]]; [|exact E|].
    - exfalso. assert (Q : 0 < sin (PI * (t - s))) by (apply sin_gt_0; nra). replace (PI * (s - t)) with (- (PI * (t - s))) in Z by ring. rewrite sin_neg in Z. lra.
    - exfalso. assert (Q : 0 < sin (PI * (s - t))) by (apply sin_gt_0; nra). lra.
  Qed.
  Lemma th_zero0 s : 0 <= s <= 1 -> t = 0 -> sin (th s) = 0 -> s = 0 \/ s = 1.
  Proof.
    intros Hs Ht Z. assert (P := PI_RGT_0). unfold th in Z. rewrite Ht, Rminus_0_r in Z. destruct (Req_dec s 0) as [|N0]; [left; assumption|]. destruct (Req_dec s 1) as [|N1]; [right; assumption|]. exfalso.
    assert (Q : 0 < sin (PI * s)) by (apply sin_gt_0; nra). lra.
  Qed.
  Lemma th_t : th t = 0.
  Proof. unfold th. ring. Qed.
  Theorem fermi_inside : 0 < t < 1 -> is_lim_seq (fun N => nsum (K := RF) N cf) (gf t).
  Proof.
    intros Ht. apply (fermi_series gf _ t gf_derive (gf t) 0 cf cf_int); [left; reflexivity|]. intros s Hs Z. apply (th_zero s Hs Ht) in Z. subst s. fold (th t). rewrite th_t, cos_0. ring.
  Qed.
  Theorem fermi_jump : t = 0 -> is_lim_seq (fun N => nsum (K := RF) N cf) ((gf 0 - gf 1) / 2).
  Proof.
    intros Ht. apply (fermi_series gf _ t gf_derive ((gf 0 - gf 1) / 2) ((gf 0 + gf 1) / 2) cf cf_int); [right; exact Ht|]. intros s Hs Z. apply (th_zero0 s Hs Ht) in Z. rewrite Ht. destruct Z as [-> | ->].
    - rewrite Rminus_0_r, Rmult_0_r, cos_0. field.
    - rewrite Rminus_0_r, Rmult_1_r, cos_PI. field.
  Qed.
  Theorem bose_inside : x <> 0 -> 0 < t < 1 -> is_lim_seq (fun N => nsum (K := RF) (S N) cb) (gb t).
  Proof.
    intros Hx Ht. apply (bose_series gb _ t gb_derive (gb t) 0 cb (fun n => cb_int n Hx)); [left; reflexivity|]. intros s Hs Z. apply (th_zero s Hs Ht) in Z. subst s. ring.
  Qed.
  Theorem bose_jump : x <> 0 -> t = 0 -> is_lim_seq (fun N => nsum (K := RF) (S N) cb) ((gb 0 + gb 1) / 2).
  Proof.
    intros Hx Ht. apply (bose_series gb _ t gb_derive ((gb 0 + gb 1) / 2) ((gb 0 - gb 1) / 2) cb (fun n => cb_int n Hx)); [right; exact Ht|]. intros s Hs Z. apply (th_zero0 s Hs Ht) in Z. rewrite Ht. destruct Z as [-> | ->].
    - rewrite Rminus_0_r, Rmult_0_r, cos_0. field.
    - rewrite Rminus_0_r, Rmult_1_r, cos_PI. field.
  Qed.
End Pole.

(** ** In terms of Matsubara frequencies *)
(** twice the real part of the terms with non-negative index: the sum over the indices -N, ..., N - 1 *)
Definition msum (G : C -> C) (beta tau : R) (N : nat) : R :=
  2 / beta * nsum (K := RF) N (fun n => fst (G (iw beta n) * cexp (- (iw beta n * RtoC tau)))%C).
(** indices -N, ..., N *)
Definition msum_b (G : C -> C) (beta tau : R) (N : nat) : R :=
  / beta * (fst (G (iv beta 0)) + 2 * nsum (K := RF) N (fun n => fst (G (iv beta (S n)) * cexp (- (iv beta (S n) * RtoC tau)))%C)).
Definition g1 (p : R) (z : C) : C := (1 / (z - RtoC p))%C.
Lemma g1_term (p k beta tau : R) : 0 < beta -> 0 < beta * p * (beta * p) + k * k -> 
  fst (g1 p (Ci * RtoC k / RtoC beta) * cexp (- (Ci * RtoC k / RtoC beta * RtoC tau)))%C
  = beta * (- (beta * p * cos (k * (tau / beta)) + k * sin (k * (tau / beta))) / (beta * p * (beta * p) + k * k)).
Proof.
  intros Hb K. unfold g1. replace (Ci * RtoC k / RtoC beta)%C with (0, k / beta)%R by (apply C_ext; cbn; field; lra).
  replace ((0, (k / beta)%R) - RtoC p)%C with (- p, k / beta)%R by (apply C_ext; cbn; ring). replace (- ((0, (k / beta)%R) * RtoC tau))%C with (0, - (k * (tau / beta)))%R by (apply C_ext; cbn; field; lra).
  unfold cexp. cbn [fst snd]. rewrite exp_0, cos_neg, sin_neg. cbn. field. repeat split; nra.
Qed.
Lemma nsum_ext_R N (f g : nat -> R) : (forall n, f n = g n) -> nsum (K := RF) N f = nsum (K := RF) N g.
Proof. intros H. induction N as [|N IH]; [reflexivity|]. cbn [nsum]. rewrite IH, H. reflexivity. Qed.
Lemma msum_g1 p beta tau N : 0 < beta -> msum (g1 p) beta tau N = nsum (K := RF) N (cf (beta * p) (tau / beta)).
Proof.
  intros Hb. unfold msum. rewrite nsum_scal_l. apply nsum_ext_R. intros n. unfold iw. assert (W := w_pos n). rewrite g1_term by (first [exact Hb|nra]). unfold cf. field. split; nra.
Qed.
Lemma msum_b_g1 p beta tau N : 0 < beta -> p <> 0 -> msum_b (g1 p) beta tau N = nsum (K := RF) (S N) (cb (beta * p) (tau / beta)).
Proof.
  intros Hb Hp. assert (X : beta * p <> 0) by (apply Rmult_integral_contrapositive; split; lra). assert (X2 : 0 < beta * p * (beta * p)) by (apply Rsqr_pos_lt in X; exact X).
  induction N as [|N IH].
  - unfold msum_b. cbn [nsum]. unfold iv, g1. cbn [INR]. replace (Ci * RtoC (2 * 0 * PI) / RtoC beta - RtoC p)%C with (RtoC (- p)) by (apply C_ext; cbn; field; lra). cbn. field. split; lra.
  - change (nsum (K := RF) (S (S N)) (cb (beta * p) (tau / beta))) with (nsum (K := RF) (S N) (cb (beta * p) (tau / beta)) + cb (beta * p) (tau / beta) (S N)). rewrite <- IH. unfold msum_b. cbn [nsum]. change (@Fadd RF) with Rplus.
    assert (T := g1_term p (2 * INR (S N) * PI) beta tau Hb ltac:(nra)). fold (iv beta (S N)) in T. rewrite T. clear T IH. set (rest := nsum _ _). clearbody rest. cbv zeta. unfold cb. set (h := 2 * INR (S N) * PI). clearbody h. set (c := cos _). set (si := sin _). clearbody c si. eqR. assert (K : 0 < beta * p * (beta * p) + h * h) by nra. change (RF : Type) with R in rest. field. repeat split; nra.
Qed.

Lemma msum_lin (G H : C -> C) (a : R) beta tau N : msum (fun z => RtoC a * G z + H z)%C beta tau N = a * msum G beta tau N + msum H beta tau N.
Proof.
  unfold msum. replace (a * (2 / beta * nsum (K := RF) N (fun n => fst (G (iw beta n) * cexp (- (iw beta n * RtoC tau)))%C)) + 2 / beta * nsum (K := RF) N (fun n => fst (H (iw beta n) * cexp (- (iw beta n * RtoC tau)))%C))
    with (2 / beta * (a * nsum (K := RF) N (fun n => fst (G (iw beta n) * cexp (- (iw beta n * RtoC tau)))%C) + nsum (K := RF) N (fun n => fst (H (iw beta n) * cexp (- (iw beta n * RtoC tau)))%C))) by (unfold Rdiv; ring).
  f_equal. induction N as [|N IH]; cbn [nsum]; [cbn; eqR; ring|]. change (@Fadd RF) with Rplus. rewrite IH. set (x := cexp _). cbn [fst snd Cmult Cplus RtoC]. eqR. ring.
Qed.
Lemma msum_ext (G H : C -> C) beta tau N : (forall n, G (iw beta n) = H (iw beta n)) -> msum G beta tau N = msum H beta tau N.
Proof. intros E. unfold msum. f_equal. apply nsum_ext_R. intros n. rewrite E. reflexivity. Qed.
Lemma msum_b_lin (G H : C -> C) (a : R) beta tau N : msum_b (fun z => RtoC a * G z + H z)%C beta tau N = a * msum_b G beta tau N + msum_b H beta tau N.
Proof.
  unfold msum_b. assert (E : nsum (K := RF) N (fun n => fst ((RtoC a * G (iv beta (S n)) + H (iv beta (S n))) * cexp (- (iv beta (S n) * RtoC tau)))%C)
    = a * nsum (K := RF) N (fun n => fst (G (iv beta (S n)) * cexp (- (iv beta (S n) * RtoC tau)))%C) + nsum (K := RF) N (fun n => fst (H (iv beta (S n)) * cexp (- (iv beta (S n) * RtoC tau)))%C)).
  { induction N as [|N IH]; cbn [nsum]; [cbn; eqR; ring|]. change (@Fadd RF) with Rplus. rewrite IH. set (x := cexp _). cbn [fst snd Cmult Cplus RtoC]. eqR. ring. }
  rewrite E. cbn [fst snd Cmult Cplus RtoC]. eqR. ring.
Qed.
Lemma msum_zero beta tau N : msum (fun _ => RtoC 0) beta tau N = 0.
Proof.
  unfold msum. rewrite nsum_zero; [ring|]. intros n. cbn [fst snd Cmult RtoC]. ring.
Qed.
Lemma msum_b_zero beta tau N : msum_b (fun _ => RtoC 0) beta tau N = 0.
Proof.
  unfold msum_b. rewrite nsum_zero; [cbn; ring|]. intros n. cbn [fst snd Cmult RtoC]. ring.
Qed.
(** at tau = beta every phase is -1 *)
Lemma iw_beta beta n : beta <> 0 -> cexp (- (iw beta n * RtoC beta))%C = (-1)%C.
Proof.
  intros Hb. unfold iw. replace (- (Ci * RtoC ((2 * INR n + 1) * PI) / RtoC beta * RtoC beta))%C with (0, - ((2 * INR n + 1) * PI))%R by (apply C_ext; cbn; field; exact Hb).
  unfold cexp. cbn [fst snd]. rewrite exp_0, cos_neg, sin_neg, sin_odd. replace ((2 * INR n + 1) * PI) with (PI + 2 * INR n * PI) by ring. rewrite cos_period, cos_PI. apply C_ext; cbn; ring.
Qed.
Lemma msum_at_beta G beta N : beta <> 0 -> msum G beta beta N = - msum G beta 0 N.
Proof.
  intros Hb. unfold msum. replace (- (2 / beta * nsum (K := RF) N (fun n => fst (G (iw beta n) * cexp (- (iw beta n * RtoC 0)))%C))) with (2 / beta * (-1 * nsum (K := RF) N (fun n => fst (G (iw beta n) * cexp (- (iw beta n * RtoC 0)))%C))) by ring.
  f_equal. rewrite nsum_scal_l. apply nsum_ext_R. intros n. rewrite iw_beta by exact Hb. replace (- (iw beta n * RtoC 0))%C with (RtoC 0) by ring. rewrite cexp_0. cbn. ring.
Qed.

Theorem matsubara_inside P W beta tau : 0 < beta -> 0 < tau < beta -> is_lim_seq (msum (fun z => green_z z P W) beta tau) (green_tau tau P W beta).
Proof.
  intros Hb Ht. revert W. induction P as [|p P IH]; intros W; [|destruct W as [|r W]]; cbn [green_z green_tau].
  - apply (is_lim_seq_ext (fun _ => 0)); [intros N; symmetry; apply msum_zero|apply is_lim_seq_const].
  - apply (is_lim_seq_ext (fun _ => 0)); [intros N; symmetry; apply msum_zero|apply is_lim_seq_const].
  - assert (T : 0 < tau / beta < 1). { split; [apply Rdiv_lt_0_compat; lra|]. apply Rlt_div_l; lra. }
    assert (L := fermi_inside (beta * p) (tau / beta) T). apply (is_lim_seq_ext _ (msum (g1 p) beta tau)) in L; [|intros N; symmetry; apply msum_g1; exact Hb].
    refine (is_lim_seq_ext _ _ _ (fun N => eq_sym (eq_trans (msum_ext _ (fun z => RtoC r * g1 p z + green_z z P W)%C beta tau N _) (msum_lin _ _ r beta tau N))) _); [intros n; unfold g1, Cdiv; ring|].
    replace (- r * exp (- (tau * p)) / (1 + exp (- (beta * p)))) with (r * gf (beta * p) (tau / beta)). 2:{ unfold gf. replace (beta * p * (tau / beta)) with (tau * p) by (field; lra). unfold Rdiv. ring. }
    apply is_lim_seq_plus'; [|apply IH]. apply (is_lim_seq_scal_l _ r _ L).
Qed.
(** at equal times the mean of the two limits *)
Theorem matsubara_equal P W beta : 0 < beta -> length P = length W -> is_lim_seq (msum (fun z => green_z z P W) beta 0) (occupation P W beta - lsum (K := RF) W / 2).
Proof.
  intros Hb. revert W. induction P as [|p P IH]; intros [|r W] HL; try discriminate HL; cbn [green_z occupation].
  - match goal with |- is_lim_seq _ ?l => replace l with (Finite 0) by (apply f_equal; cbn; field) end. apply (is_lim_seq_ext (fun _ => 0)); [intros N; symmetry; apply msum_zero|apply is_lim_seq_const].
  - injection HL as HL. assert (L := fermi_jump (beta * p) (0 / beta) ltac:(field; lra)). apply (is_lim_seq_ext _ (msum (g1 p) beta 0)) in L; [|intros N; symmetry; apply msum_g1; exact Hb].
    refine (is_lim_seq_ext _ _ _ (fun N => eq_sym (eq_trans (msum_ext _ (fun z => RtoC r * g1 p z + green_z z P W)%C beta 0 N _) (msum_lin _ _ r beta 0 N))) _); [intros n; unfold g1, Cdiv; ring|].
    match goal with |- is_lim_seq _ ?l => replace l with (Finite (r * ((gf (beta * p) 0 - gf (beta * p) 1) / 2) + (occupation P W beta - lsum (K := RF) W / 2))) end.
    + apply is_lim_seq_plus'; [|apply IH; exact HL]. apply (is_lim_seq_scal_l _ r _ L).
    + apply f_equal. change (lsum (K := RF) (r :: W)) with (r + lsum (K := RF) W). unfold gf. rewrite Rmult_0_r, Rmult_1_r, Ropp_0, exp_0, exp_Ropp. assert (E := exp_pos (beta * p)). set (l := lsum (K := RF) W). change (car RF) with R in l. clearbody l. field. repeat split; try lra. 
Qed.
(** bosons *)
Fixpoint green_tau_b (tau : R) (poles resid : list R) (beta : R) : R :=
  match poles, resid with
  | p :: ps, r :: rs => - r * exp (- (tau * p)) / (1 - exp (- (beta * p))) + green_tau_b tau ps rs beta
  | _, _ => 0
  end.
Theorem matsubara_bose P W beta tau : 0 < beta -> 0 < tau < beta -> ~ In 0 P -> is_lim_seq (msum_b (fun z => green_z z P W) beta tau) (green_tau_b tau P W beta).
Proof.
  intros Hb Ht. revert W. induction P as [|p P IH]; intros W H0; [|destruct W as [|r W]]; cbn [green_z green_tau_b].
  - apply (is_lim_seq_ext (fun _ => 0)); [intros N; symmetry; apply msum_b_zero|apply is_lim_seq_const].
  - apply (is_lim_seq_ext (fun _ => 0)); [intros N; symmetry; apply msum_b_zero|apply is_lim_seq_const].
  - assert (T : 0 < tau / beta < 1). { split; [apply Rdiv_lt_0_compat; lra|]. apply Rlt_div_l; lra. } assert (Hp : p <> 0) by (intros ->; apply H0; left; reflexivity).
    assert (L := bose_inside (beta * p) (tau / beta) ltac:(apply Rmult_integral_contrapositive; split; lra) T). apply (is_lim_seq_ext _ (msum_b (g1 p) beta tau)) in L; [|intros N; symmetry; apply msum_b_g1; assumption].
    apply (is_lim_seq_ext (fun N => r * msum_b (g1 p) beta tau N + msum_b (fun z => green_z z P W) beta tau N)).
    { intros N. rewrite <- msum_b_lin. unfold msum_b. replace (RtoC r * g1 p (iv beta 0))%C with (RtoC r / (iv beta 0 - RtoC p))%C by (unfold g1, Cdiv; ring). do 3 f_equal. apply nsum_ext_R. intros n. unfold g1. do 3 f_equal. unfold Cdiv. ring. }
    replace (- r * exp (- (tau * p)) / (1 - exp (- (beta * p)))) with (r * gb (beta * p) (tau / beta)). 2:{ unfold gb. replace (beta * p * (tau / beta)) with (tau * p) by (field; lra). unfold Rdiv. ring. }
    apply is_lim_seq_plus'; [|apply IH; intros H; apply H0; right; exact H]. apply (is_lim_seq_scal_l _ r _ L).
Qed.
