(** * Integrals of the resolvent over a cosine band *)
From Coq Require Import Reals Lra Lia.
From Coquelicot Require Import Coquelicot.
From Verif Require Import Base CBase CExp CSqrt Bethe_Proofs Fourier_Filon LatMom_Int.
From Verif Require Export LatInt_Spec.
Local Open Scope C_scope.

(** continuous functions R -> C, component by component *)
Definition ccont (f : R -> C) (x : R) : Prop := continuous (fun t => fst (f t)) x /\ continuous (fun t => snd (f t)) x.
Lemma CInt_ok f a b : (forall x, (Rmin a b <= x <= Rmax a b)%R -> ccont f x) -> is_CInt f a b (CInt f a b).
Proof. intros H. split; apply (RInt_correct (V := R_CompleteNormedModule)), (ex_RInt_continuous (V := R_CompleteNormedModule)); intros z Hz; apply (H z Hz). Qed.
Lemma CInt_val f a b l : is_CInt f a b l -> CInt f a b = l.
Proof. intros [A B]. apply C_ext; cbn [fst snd CInt]; apply (is_RInt_unique (V := R_CompleteNormedModule)); assumption. Qed.
Lemma is_CInt_minus f g a b l m : is_CInt f a b l -> is_CInt g a b m -> is_CInt (fun t => f t - g t) a b (l - m).
Proof. intros [H1 H2] [H3 H4]. split; cbn [fst snd Cminus Cplus Copp]; now apply (is_RInt_minus (V := R_NormedModule)). Qed.
Lemma is_CInt_const c a b : is_CInt (fun _ => c) a b (RtoC (b - a) * c).
Proof. split; evar_last; try apply (is_RInt_const (V := R_NormedModule)); cbn; unfold scal; cbn; unfold mult; cbn; ring. Qed.
Lemma is_CInt_R (f : R -> R) a b l : is_RInt f a b l -> is_CInt (fun t => RtoC (f t)) a b (RtoC l).
Proof. intros H. split; [exact H|]. change (is_RInt (V := R_NormedModule) (fun _ => 0%R) a b 0%R). evar_last; [apply (is_RInt_const (V := R_NormedModule))|]. unfold scal; cbn. unfold mult; cbn. ring. Qed.
Lemma ccont_mult f g x : ccont f x -> ccont g x -> ccont (fun t => f t * g t) x.
Proof.
  intros [A B] [A' B']. split; cbn [fst snd Cmult].
  - apply (continuous_minus (V := R_NormedModule)); apply (continuous_mult (K := R_AbsRing)); assumption.
  - apply (continuous_plus (V := R_NormedModule)); apply (continuous_mult (K := R_AbsRing)); assumption.
Qed.
Lemma ccont_R (f : R -> R) x : continuous f x -> ccont (fun t => RtoC (f t)) x.
Proof. intros H. split; [exact H|]. apply continuous_const. Qed.
Lemma ccont_const c x : ccont (fun _ => c) x. Proof. split; apply continuous_const. Qed.
Lemma ccont_plus f g x : ccont f x -> ccont g x -> ccont (fun t => f t + g t) x.
Proof. intros [A B] [A' B']. split; cbn [fst snd Cplus]; now apply (continuous_plus (V := R_NormedModule)). Qed.
Lemma ccont_minus f g x : ccont f x -> ccont g x -> ccont (fun t => f t - g t) x.
Proof. intros [A B] [A' B']. split; cbn [fst snd Cminus Cplus Copp]; now apply (continuous_minus (V := R_NormedModule)). Qed.
Lemma fst_inv (z : C) : fst (/ z) = (fst z / (fst z * fst z + snd z * snd z))%R.
Proof. unfold Cinv; cbn [fst snd]. do 2 f_equal; ring. Qed.
Lemma snd_inv (z : C) : snd (/ z) = (- snd z / (fst z * fst z + snd z * snd z))%R.
Proof. unfold Cinv; cbn [fst snd]. do 2 f_equal; ring. Qed.
Lemma norm2_neq0 (z : C) : z <> 0 -> (fst z * fst z + snd z * snd z <> 0)%R.
Proof. intros H E. apply H. apply C_ext; cbn; nra. Qed.
Lemma ccont_inv f x : ccont f x -> f x <> 0 -> ccont (fun t => / f t) x.
Proof.
  intros [A B] N. apply norm2_neq0 in N.
  assert (Q : continuous (fun t => / (fst (f t) * fst (f t) + snd (f t) * snd (f t)))%R x).
  { apply (continuous_comp (fun t => (fst (f t) * fst (f t) + snd (f t) * snd (f t))%R) Rinv).
    - apply (continuous_plus (V := R_NormedModule)); apply (continuous_mult (K := R_AbsRing)); assumption.
    - apply continuous_Rinv. exact N. }
  split.
  - apply (continuous_ext (fun t => fst (f t) * / (fst (f t) * fst (f t) + snd (f t) * snd (f t)))%R); [intros t; rewrite fst_inv; reflexivity|].
    apply (continuous_mult (K := R_AbsRing)); assumption.
  - apply (continuous_ext (fun t => (- snd (f t)) * / (fst (f t) * fst (f t) + snd (f t) * snd (f t)))%R); [intros t; rewrite snd_inv; reflexivity|].
    apply (continuous_mult (K := R_AbsRing)); [apply (continuous_opp (V := R_NormedModule))|]; assumption.
Qed.
Lemma ccont_ext f g x : (forall t, f t = g t) -> ccont f x -> ccont g x.
Proof. intros E [A B]. split; [revert A|revert B]; apply continuous_ext; intros t; now rewrite E. Qed.

(** bound *)
Lemma CInt_bound f a b l M : (a <= b)%R -> (forall x, (a <= x <= b)%R -> (Cmod (f x) <= M)%R) -> is_CInt f a b l -> (Cmod l <= 2 * (M * (b - a)))%R.
Proof.
  intros Hab HM [A B].
  assert (X : forall g l, is_RInt (V := R_NormedModule) g a b l -> (forall x, (a <= x <= b)%R -> (Rabs (g x) <= M)%R) -> (Rabs l <= M * (b - a))%R).
  { intros g l0 Hg Hb. replace (M * (b - a))%R with ((b - a) * M)%R by ring.
    apply (norm_RInt_le_const (V := R_NormedModule) g a b l0 M Hab); [exact Hb|exact Hg]. }
  assert (P : forall w : C, (Rabs (fst w) <= Cmod w)%R /\ (Rabs (snd w) <= Cmod w)%R).
  { intros w. assert (H := Rmax_Cmod w). assert (Q1 := Rmax_l (Rabs (fst w)) (Rabs (snd w))). assert (Q2 := Rmax_r (Rabs (fst w)) (Rabs (snd w))). lra. }
  assert (X1 : (Rabs (fst l) <= M * (b - a))%R) by (apply (X _ _ A); intros x Hx; apply Rle_trans with (Cmod (f x)); [apply P|apply HM, Hx]).
  assert (X2 : (Rabs (snd l) <= M * (b - a))%R) by (apply (X _ _ B); intros x Hx; apply Rle_trans with (Cmod (f x)); [apply P|apply HM, Hx]).
  replace l with (RtoC (fst l) + Ci * RtoC (snd l)) by (apply C_ext; cbn; ring).
  apply Rle_trans with (Cmod (RtoC (fst l)) + Cmod (Ci * RtoC (snd l))%C)%R; [apply Cmod_triangle|].
  rewrite Cmod_mult, !Cmod_R. replace (Cmod Ci) with 1%R; [lra|]. unfold Ci, Cmod; cbn. rewrite <- sqrt_1 at 1. f_equal. ring.
Qed.

Fixpoint Cpow (z : C) (n : nat) : C := match n with O => 1 | S k => z * Cpow z k end.

Section Kernel.
Variable w : C.
Hypothesis Hc : cutfree w.
Lemma w_neq0 : w <> 0.
Proof. intros ->. destruct Hc as [H|H]; cbn in H; [lra|rewrite Rabs_R0 in H; lra]. Qed.
Lemma wcos_neq0 x : (-1 <= x <= 1)%R -> w - RtoC x <> 0.
Proof.
  intros Hx E. assert (E1 := f_equal fst E). assert (E2 := f_equal snd E). cbn in E1, E2.
  destruct Hc as [H|H]; [lra|]. replace (fst w) with x in H by lra. assert (Rabs x <= 1)%R by (apply Rabs_le; lra). lra.
Qed.
Definition dw : R := (Rmax 0 (Rabs (fst w) - 1) + Rabs (snd w))%R.
Lemma dw_pos : (0 < dw)%R.
Proof. unfold dw. assert (A := Rmax_l 0 (Rabs (fst w) - 1)). assert (B := Rmax_r 0 (Rabs (fst w) - 1)). assert (D := Rabs_pos (snd w)). destruct Hc as [H|H]; [apply Rabs_pos_lt in H; lra|lra]. Qed.
Lemma dw_le x : (-1 <= x <= 1)%R -> (dw / 2 <= Cmod (w - RtoC x)%C)%R.
Proof.
  intros Hx. assert (H := Rmax_Cmod (w - RtoC x)%C). cbn [fst snd Cminus Cplus Copp RtoC] in H.
  assert (Q1 := Rmax_l (Rabs (fst w + - x)) (Rabs (snd w + - 0))). assert (Q2 := Rmax_r (Rabs (fst w + - x)) (Rabs (snd w + - 0))).
  rewrite Ropp_0, Rplus_0_r in *.
  assert (T : (Rabs (fst w) - 1 <= Rabs (fst w + - x))%R) by (unfold Rabs; repeat destruct Rcase_abs; lra).
  assert (P := Rabs_pos (fst w + - x)).
  unfold dw. apply Rmax_case_strong; intros; lra.
Qed.
Definition cosk (m : nat) (p : R) : C := RtoC (cos (INR m * p)) / (w - RtoC (cos p)).
Lemma cosk_cont m x : ccont (cosk m) x.
Proof.
  unfold cosk, Cdiv. apply ccont_mult; [apply ccont_R|apply ccont_inv].
  - apply (ex_derive_continuous (fun p => cos (INR m * p))). auto_derive. trivial.
  - apply ccont_minus; [apply ccont_const|apply ccont_R]. apply (ex_derive_continuous cos). auto_derive. trivial.
  - apply wcos_neq0. assert (H := COS_bound x). lra.
Qed.
Definition Ik (m : nat) : C := CInt (cosk m) 0 PI.
Lemma Ik_is m : is_CInt (cosk m) 0 PI (Ik m).
Proof. apply CInt_ok. intros x _. apply cosk_cont. Qed.
Lemma Ik_bound m : (Cmod (Ik m) <= 2 * (2 / dw * (PI - 0)))%R.
Proof.
  assert (HP := PI_RGT_0). assert (D := dw_pos).
  apply (CInt_bound (cosk m) 0 PI); [lra| |apply Ik_is]. intros x _. unfold cosk.
  assert (N := wcos_neq0 (cos x) (COS_bound x)). rewrite Cmod_div, Cmod_R by exact N.
  assert (B : (Rabs (cos (INR m * x)) <= 1)%R) by (apply Rabs_le; destruct (COS_bound (INR m * x)); lra).
  assert (L := dw_le (cos x) (COS_bound x)).
  replace (2 / dw)%R with (1 / (dw / 2))%R by (field; lra). unfold Rdiv at 1 2.
  apply Rmult_le_compat; [apply Rabs_pos|left; apply Rinv_0_lt_compat; lra|exact B|apply Rinv_le_contravar; lra].
Qed.
Lemma Ik_1 : Ik 1 = w * Ik 0 - RtoC PI.
Proof.
  apply (is_CInt_unique (cosk 1) 0 PI); [apply Ik_is|].
  apply (is_CInt_ext (fun t => w * cosk 0 t - 1)).
  - intros t _. unfold cosk. rewrite Rmult_0_l, cos_0, Rmult_1_l. field. apply wcos_neq0, COS_bound.
  - apply (is_CInt_eq _ _ _ (w * Ik 0 - RtoC (PI - 0) * 1)); [|rewrite Rminus_0_r; ring].
    apply is_CInt_minus; [apply is_CInt_scal, Ik_is|apply is_CInt_const].
Qed.
Lemma cos_int m : (1 <= m)%nat -> is_RInt (fun p => cos (INR m * p)) 0 PI 0.
Proof.
  intros Hm. assert (M : INR m <> 0%R) by (apply not_0_INR; lia).
  replace 0%R with ((fun p => sin (INR m * p) / INR m)%R PI - (fun p => sin (INR m * p) / INR m)%R 0%R)%R at 2.
  - apply (ftc (fun p => sin (INR m * p) / INR m)%R); intros x.
    + auto_derive; [trivial|field; exact M].
    + apply (ex_derive_continuous (fun p => cos (INR m * p))). auto_derive. trivial.
  - rewrite Rmult_0_r, sin_0. replace (sin (INR m * PI)) with 0%R; [field; exact M|].
    symmetry. apply sin_eq_0_1. exists (Z.of_nat m). now rewrite <- INR_IZR_INZ.
Qed.
Lemma Ik_S m : Ik (S (S m)) = 2 * w * Ik (S m) - Ik m.
Proof.
  apply (is_CInt_unique (cosk (S (S m))) 0 PI); [apply Ik_is|].
  apply (is_CInt_ext (fun t => 2 * w * cosk (S m) t - cosk m t - 2 * RtoC (cos (INR (S m) * t)))).
  - intros t _. unfold cosk.
    assert (E : RtoC (cos (INR (S (S m)) * t)) = 2 * RtoC (cos (INR (S m) * t)) * RtoC (cos t) - RtoC (cos (INR m * t))).
    { rewrite <- !RtoC_mult, <- RtoC_minus. f_equal. rewrite !S_INR.
      replace ((INR m + 1 + 1) * t)%R with ((INR m + 1) * t + t)%R by ring. replace (INR m * t)%R with ((INR m + 1) * t - t)%R by ring. rewrite cos_plus, cos_minus. ring. }
    rewrite E. field. apply wcos_neq0, COS_bound.
  - apply (is_CInt_eq _ _ _ (2 * w * Ik (S m) - Ik m - 2 * RtoC 0)); [|ring].
    apply is_CInt_minus; [apply is_CInt_minus; [apply is_CInt_scal|]; apply Ik_is|].
    apply is_CInt_scal, is_CInt_R, cos_int. lia.
Qed.
(** the defect of the geometric sequence grows like u^-m unless it vanishes *)
Lemma Ik_defect m : Ik 1 - uu w * Ik 0 = Cpow (uu w) m * (Ik (S m) - uu w * Ik m).
Proof.
  induction m as [|m IH]; [cbn; ring|]. rewrite IH, Ik_S. cbn [Cpow].
  assert (Q := uu_quad w w_neq0). 
  transitivity (Cpow (uu w) m * (Ik (S m) - uu w * Ik m) + Cpow (uu w) m * Ik (S m) * - (uu w * uu w - 2 * w * uu w + 1)); [rewrite Q; ring|ring].
Qed.
Lemma pow_to_0 (a B : R) : (0 <= a < 1)%R -> (0 <= B)%R -> forall e, (0 < e)%R -> exists n, (a ^ n * B < e)%R.
Proof.
  intros Ha HB e He. destruct (pow_lt_1_zero a) with (y := (e / (B + 1))%R) as [n Hn].
  - rewrite Rabs_pos_eq; lra.
  - apply Rdiv_lt_0_compat; lra.
  - exists n. assert (H := Hn n (le_n n)). rewrite Rabs_pos_eq in H by (apply pow_le; lra).
    assert (P : (0 <= a ^ n)%R) by (apply pow_le; lra). apply Rmult_lt_compat_r with (r := (B + 1)%R) in H; [|lra].
    unfold Rdiv in H. rewrite Rmult_assoc, Rinv_l, Rmult_1_r in H by lra. nra.
Qed.
Lemma Cmod_Cpow (z : C) n : Cmod (Cpow z n) = (Cmod z ^ n)%R.
Proof. induction n as [|n IH]; cbn [Cpow pow]; [apply Cmod_1|]. now rewrite Cmod_mult, IH. Qed.
Lemma Ik_geo1 : Ik 1 = uu w * Ik 0.
Proof.
  assert (U := uu_lt w w_neq0 Hc). assert (HP := PI_RGT_0). assert (D := dw_pos).
  set (M := (2 * (2 / dw * (PI - 0)))%R). assert (HM : (0 < M)%R). { unfold M. apply Rmult_lt_0_compat; [lra|]. apply Rmult_lt_0_compat; [apply Rdiv_lt_0_compat; lra|lra]. }
  assert (Z : Cmod (Ik 1 - uu w * Ik 0)%C = 0%R).
  { destruct (Req_dec (Cmod (Ik 1 - uu w * Ik 0)%C) 0) as [E|E]; [exact E|exfalso].
    assert (P : (0 < Cmod (Ik 1 - uu w * Ik 0)%C)%R) by (assert (H := Cmod_ge_0 (Ik 1 - uu w * Ik 0)%C); lra).
    destruct (pow_to_0 (Cmod (uu w)) (2 * M) (conj (Cmod_ge_0 _) U) ltac:(lra) _ P) as [n Hn].
    rewrite (Ik_defect n), Cmod_mult, Cmod_Cpow in Hn.
    assert (B : (Cmod (Ik (S n) - uu w * Ik n)%C <= 2 * M)%R).
    { unfold Cminus. eapply Rle_trans; [apply Cmod_triangle|]. rewrite Cmod_opp, Cmod_mult. assert (A1 := Ik_bound (S n)). assert (A2 := Ik_bound n). fold M in A1, A2.
      assert (0 <= Cmod (uu w))%R by apply Cmod_ge_0. assert (0 <= Cmod (Ik n))%R by apply Cmod_ge_0. nra. }
    assert (0 <= Cmod (uu w) ^ n)%R by (apply pow_le, Cmod_ge_0). nra. }
  apply Cmod_eq_0 in Z. transitivity (Ik 1 - uu w * Ik 0 + uu w * Ik 0); [ring|]. rewrite Z. ring.
Qed.
Lemma Ik_geo m : Ik (S m) = uu w * Ik m.
Proof.
  assert (E := Ik_defect m). rewrite Ik_geo1 in E.
  assert (N : Cpow (uu w) m <> 0). { clear E. induction m as [|m IH]; cbn; [apply C1_neq0|apply Cmult_neq_0; [apply uu_neq0, w_neq0|exact IH]]. }
  destruct (Ceq_dec (Ik (S m) - uu w * Ik m) 0) as [Z|Z].
  - transitivity (Ik (S m) - uu w * Ik m + uu w * Ik m); [ring|]. rewrite Z. ring.
  - exfalso. apply (Cmult_neq_0 _ _ N Z). rewrite <- E. ring.
Qed.
Lemma sq_neq0 : sq w <> 0.
Proof. intros E. assert (H := sq_pos w w_neq0 Hc). rewrite E in H. cbn in H. lra. Qed.
Lemma Ik_0 : Ik 0 = RtoC PI / (w * sq w).
Proof.
  assert (E := Ik_1). rewrite Ik_geo1 in E. unfold uu in E. assert (N1 := w_neq0). assert (N2 := sq_neq0).
  transitivity (w * sq w * Ik 0 / (w * sq w)); [field; split; assumption|]. f_equal.
  transitivity (w * Ik 0 - (w * (1 - sq w)) * Ik 0); [ring|]. rewrite E. ring.
Qed.
Lemma Ik_all m : Ik m = Cpow (uu w) m * (RtoC PI / (w * sq w)).
Proof. induction m as [|m IH]; [rewrite Ik_0; cbn; ring|]. rewrite Ik_geo, IH. cbn. ring. Qed.
End Kernel.
