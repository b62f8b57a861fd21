(** * Retarded-time Green's functions of the box and of the Bethe lattice as Fourier integrals of the density of states *)
From Coq Require Import Reals List ZArith Bool Lia Lra.
From Coquelicot Require Import Coquelicot.
From Verif Require Import Base CBase CExp Lattice_Model Fourier_Filon LatMom_Int.
Import ListNotations.
Local Open Scope R_scope.

Lemma odd_int (f : R -> R) a : (forall x, continuous f x) -> (forall x, f (- x) = - f x) -> is_RInt f (- a) a 0.
Proof.
  intros Hc Ho.
  assert (E : ex_RInt f (- a) a) by (apply (ex_RInt_continuous (V := R_CompleteNormedModule)); intros; apply Hc).
  assert (H := RInt_correct (V := R_CompleteNormedModule) f _ _ E). set (I := RInt f (- a) a) in *.
  assert (H' : is_RInt f (- a) a (- I)).
  { assert (G : is_RInt (fun y => scal (-1) (f (-1 * y + 0))) a (- a) I).
    { apply (is_RInt_comp_lin (V := R_NormedModule) f (-1) 0). replace (-1 * a + 0) with (- a) by ring. replace (-1 * - a + 0) with a by ring. exact H. }
    apply (is_RInt_swap (V := R_NormedModule)) in G. apply (is_RInt_ext (fun y => scal (-1) (f (-1 * y + 0)))); [|exact G].
    intros x _. replace (-1 * x + 0) with (- x) by ring. rewrite Ho. unfold scal; cbn; unfold mult; cbn. ring. }
  apply (is_RInt_unique (V := R_CompleteNormedModule)) in H'. assert (HI : I = 0) by (unfold I in *; lra).
  rewrite <- HI. exact H.
Qed.
Lemma CInt_cos_sin (d : R -> R) a b t x y : is_RInt (fun e => d e * cos (e * t)) a b x -> is_RInt (fun e => d e * sin (e * t)) a b y ->
  is_CInt (fun e => RtoC (d e) * cexp (- Ci * RtoC (e * t)))%C a b (x, - y).
Proof.
  intros Hx Hy. split; cbn.
  - apply (is_RInt_ext (fun e => d e * cos (e * t))); [|exact Hx]. intros e _.
    cbn. replace (- (0) * (e * t) - - (1) * 0) with 0 by ring. replace (- (0) * 0 + - (1) * (e * t)) with (- (e * t)) by ring.
    rewrite exp_0, cos_neg, sin_neg. ring.
  - apply (is_RInt_ext (fun e => opp (d e * sin (e * t)))); [|apply (is_RInt_opp (V := R_NormedModule)), Hy]. intros e _.
    cbn. replace (- (0) * (e * t) - - (1) * 0) with 0 by ring. replace (- (0) * 0 + - (1) * (e * t)) with (- (e * t)) by ring.
    rewrite exp_0, cos_neg, sin_neg. unfold opp; cbn. ring.
Qed.

(** ** box *)
Definition sinc (x : R) : R := if Req_EM_T x 0 then 1 else sin x / x.
Lemma box_int D (d : R -> R) t : 0 < D -> (forall e, box_dos e D = Ok (d e)) ->
  is_CInt (fun e => RtoC (d e) * cexp (- Ci * RtoC (e * t)))%C (- D) D (RtoC (sinc (D * t))).
Proof.
  intros HD Hd.
  assert (Hin : forall e, Rmin (- D) D < e < Rmax (- D) D -> 1 / 2 / D = d e).
  { intros e [H1 H2]. rewrite Rmin_left in H1 by lra. rewrite Rmax_right in H2 by lra.
    specialize (Hd e). unfold box_dos, rdiv in Hd. destruct (Req_EM_T D 0); [lra|]. cbn [bind] in Hd. injection Hd as <-.
    destruct (Rlt_dec (Rabs e) D) as [H|H]; [reflexivity|]. exfalso. apply H. apply Rabs_def1; lra. }
  replace (RtoC (sinc (D * t))) with (sinc (D * t), - 0) by (unfold RtoC; f_equal; ring).
  apply CInt_cos_sin.
  - apply (is_RInt_ext (fun e => 1 / 2 / D * cos (e * t))); [intros e He; rewrite (Hin e He); reflexivity|].
    unfold sinc. destruct (Req_EM_T (D * t) 0) as [E|E].
    + assert (t = 0) by (apply Rmult_integral in E; destruct E; lra). subst t.
      evar_last. { apply (ftc (fun e => e * (1 / 2 / D))).
        - intros x. auto_derive; [trivial|]. rewrite Rmult_0_r, cos_0. ring.
        - intros x. apply (ex_derive_continuous (fun e => 1 / 2 / D * cos (e * 0))). auto_derive. trivial. }
      cbv beta. field. lra.
    + assert (t <> 0) by (intros ->; apply E; ring).
      evar_last. { apply (ftc (fun e => 1 / 2 / D * (sin (e * t) / t))).
        - intros x. auto_derive; [trivial|]. field. split; assumption || lra.
        - intros x. apply (ex_derive_continuous (fun e => 1 / 2 / D * cos (e * t))). auto_derive. trivial. }
      cbv beta. replace (- D * t) with (- (D * t)) by ring. rewrite sin_neg. field. split; assumption || lra.
  - apply (is_RInt_ext (fun e => 1 / 2 / D * sin (e * t))); [intros e He; rewrite (Hin e He); reflexivity|].
    apply odd_int.
    + intros x. apply (ex_derive_continuous (fun e => 1 / 2 / D * sin (e * t))). auto_derive. trivial.
    + intros x. replace (- x * t) with (- (x * t)) by ring. rewrite sin_neg. ring.
Qed.
Lemma sinc_taylor x : 0 <= x <= 1 -> Rabs (sinc x - (1 - 1 / 6 * (x * x) + 1 / 120 * (x * x * (x * x)))) <= x ^ 6 / 5040.
Proof.
  intros Hx. unfold sinc. destruct (Req_EM_T x 0) as [->|Hn].
  - match goal with |- Rabs ?a <= _ => replace a with 0 by ring end. rewrite Rabs_R0. lra.
  - assert (HP := PI2_1). assert (L := proj1 (SIN x ltac:(lra) ltac:(lra))).
    destruct (pre_sin_bound x 0 ltac:(lra) ltac:(lra)) as [_ U]. destruct (pre_sin_bound x 1 ltac:(lra) ltac:(lra)) as [L' _].
    unfold sin_approx in U, L'. cbn in U, L'. unfold sin_term in U, L'. cbn in U, L'.
    assert (Hs : sin x = sin x / x * x) by (field; lra). set (s := sin x / x) in *.
    assert (U' : s * x <= (1 - 1 / 6 * (x * x) + 1 / 120 * (x * x * (x * x))) * x) by (rewrite <- Hs; eapply Rle_trans; [exact U|]; right; field).
    assert (L2 : (1 - 1 / 6 * (x * x) + 1 / 120 * (x * x * (x * x)) - x ^ 6 / 5040) * x <= s * x) by (rewrite <- Hs; eapply Rle_trans; [|exact L']; right; field).
    apply Rmult_le_reg_r in U', L2; try lra. assert (0 <= x ^ 6) by (apply pow_le; lra). apply Rabs_le. lra.
Qed.

(** ** Bethe *)
Definition bess (x : R) : R -> R := fun p => cos p * cos p * cos (x * sin p).
Lemma bess_cont x p : continuous (bess x) p.
Proof. apply (ex_derive_continuous (bess x)). unfold bess. auto_derive. trivial. Qed.
Lemma bess_ex x a b : ex_RInt (bess x) a b.
Proof. apply (ex_RInt_continuous (V := R_CompleteNormedModule)). intros. apply bess_cont. Qed.
Definition B (x : R) : R := RInt (bess x) (- (PI / 2)) (PI / 2).
Lemma B_is x : is_RInt (bess x) (- (PI / 2)) (PI / 2) (B x).
Proof. apply (RInt_correct (V := R_CompleteNormedModule)), bess_ex. Qed.
Lemma bethe_int D (d : R -> R) t : 0 < D -> (forall e, bethe_dos e D = Ok (d e)) ->
  is_CInt (fun e => RtoC (d e) * cexp (- Ci * RtoC (e * t)))%C (- D) D (RtoC (2 / PI * B (D * t))).
Proof.
  intros HD Hd. assert (HP := PI_RGT_0).
  set (g := fun e => 2 / (PI * D) * sqrt (1 - e / D * (e / D))).
  assert (Hg : forall x, continuous g x).
  { intros x. apply (continuous_mult (K := R_AbsRing)); [apply continuous_const|].
    apply (continuous_comp (fun e => 1 - e / D * (e / D)) sqrt).
    + apply (ex_derive_continuous (fun e => 1 - e / D * (e / D))). auto_derive. trivial.
    + apply continuous_sqrt. }
  assert (Hdg : forall e, g e = d e) by (intros e; unfold g; rewrite (bethe_dos_sqrt D e (d e) HD (Hd e)); reflexivity).
  replace (RtoC (2 / PI * B (D * t))) with (2 / PI * B (D * t), - 0) by (unfold RtoC; f_equal; ring).
  apply CInt_cos_sin.
  - set (f := fun e => g e * cos (e * t)).
    assert (Hf : forall x, continuous f x).
    { intros x. apply (continuous_mult (K := R_AbsRing)); [apply Hg|]. apply (ex_derive_continuous (fun e => cos (e * t))). auto_derive. trivial. }
    apply (is_RInt_ext f). { intros x _. unfold f. rewrite Hdg. reflexivity. }
    assert (H : is_RInt (fun y => scal (D * cos y) (f (D * sin y))) (- (PI / 2)) (PI / 2) (RInt f (D * sin (- (PI / 2))) (D * sin (PI / 2)))).
    { apply (is_RInt_comp (V := R_CompleteNormedModule) f (fun x => D * sin x) (fun x => D * cos x)).
      - intros x _. apply Hf.
      - intros x _. split; [auto_derive; [trivial|ring]|]. apply (ex_derive_continuous (fun y => D * cos y)). auto_derive. trivial. }
    rewrite sin_neg, sin_PI2 in H. replace (D * - (1)) with (- D) in H by ring. rewrite Rmult_1_r in H.
    assert (H' : is_RInt (fun y => scal (D * cos y) (f (D * sin y))) (- (PI / 2)) (PI / 2) (2 / PI * B (D * t))).
    { apply (is_RInt_ext (fun y => 2 / PI * bess (D * t) y)); [|apply (is_RInt_scal (V := R_NormedModule)); apply B_is].
      intros x [Hx1 Hx2]. rewrite Rmin_left in Hx1 by lra. rewrite Rmax_right in Hx2 by lra.
      unfold scal; cbn. unfold mult; cbn. unfold f, g, bess.
      replace (D * sin x / D) with (sin x) by (field; lra). rewrite <- cos2_sin2, sqrt_square by (apply cos_ge_0; lra).
      replace (D * sin x * t) with (D * t * sin x) by ring. field. split; lra. }
    apply (is_RInt_unique (V := R_CompleteNormedModule)) in H, H'. rewrite H in H'.
    evar_last. { apply (RInt_correct (V := R_CompleteNormedModule)). apply (ex_RInt_continuous (V := R_CompleteNormedModule)). intros. apply Hf. }
    exact H'.
  - apply (is_RInt_ext (fun e => g e * sin (e * t))); [intros x _; rewrite Hdg; reflexivity|].
    apply odd_int.
    + intros x. apply (continuous_mult (K := R_AbsRing)); [apply Hg|]. apply (ex_derive_continuous (fun e => sin (e * t))). auto_derive. trivial.
    + intros x. replace (- x * t) with (- (x * t)) by ring. rewrite sin_neg. unfold g. replace (- x / D * (- x / D)) with (x / D * (x / D)) by (field; lra). ring.
Qed.
(** Bessel's integral for the Bessel function of order one *)
Definition bessel_J1 (x : R) : R := RInt (fun th => cos (th - x * sin th)) 0 PI / PI.
Lemma B_half x : is_RInt (bess x) 0 PI (B x).
Proof.
  assert (P : is_RInt (bess x) (PI / 2) PI (RInt (bess x) (- (PI / 2)) 0)).
  { apply (is_RInt_ext (fun y => scal 1 (bess x (1 * y + - PI)))).
    - intros y _. unfold scal; cbn; unfold mult; cbn. unfold bess. replace (1 * y + - PI) with (- (PI - y)) by ring.
      rewrite cos_neg, sin_neg. rewrite sin_PI_x. replace (PI - y) with (- y + PI) by ring. rewrite neg_cos, cos_neg.
      replace (x * - sin y) with (- (x * sin y)) by ring. rewrite cos_neg. ring.
    - apply (is_RInt_comp_lin (V := R_NormedModule) (bess x) 1 (- PI)).
      replace (1 * (PI / 2) + - PI) with (- (PI / 2)) by field. replace (1 * PI + - PI) with 0 by ring.
      apply (RInt_correct (V := R_CompleteNormedModule)), bess_ex. }
  assert (Q : is_RInt (bess x) 0 (PI / 2) (RInt (bess x) 0 (PI / 2))) by (apply (RInt_correct (V := R_CompleteNormedModule)), bess_ex).
  assert (C := is_RInt_Chasles (V := R_NormedModule) _ _ _ _ _ _ Q P).
  evar_last; [exact C|]. assert (E := RInt_Chasles (V := R_CompleteNormedModule) (bess x) (- (PI / 2)) 0 (PI / 2) (bess_ex _ _ _) (bess_ex _ _ _)).
  unfold B. etransitivity; [|exact E]. unfold plus; cbn. ring.
Qed.
Lemma bessel_B x : x <> 0 -> 2 * bessel_J1 x / x = 2 / PI * B x.
Proof.
  intros Hx. assert (HP := PI_RGT_0). unfold bessel_J1.
  assert (H : is_RInt (fun th => cos (th - x * sin th)) 0 PI (x * B x)).
  { apply (is_RInt_ext (fun th => plus (x * bess x th) (cos th * cos (x * sin th) + (sin th * sin (x * sin th) - x * bess x th)))).
    - intros th _. rewrite cos_minus. unfold plus; cbn. ring.
    - evar_last.
      + apply (is_RInt_plus (V := R_NormedModule)); [apply (is_RInt_scal (V := R_NormedModule)), B_half|].
        apply (ftc (fun th => sin (x * sin th) / x - cos th * sin (x * sin th))).
        * intros th. unfold bess. auto_derive; [trivial|]. field. exact Hx.
        * intros th. unfold bess. apply (ex_derive_continuous (fun th => cos th * cos (x * sin th) + (sin th * sin (x * sin th) - x * (cos th * cos th * cos (x * sin th))))). auto_derive. trivial.
      + cbv beta. rewrite sin_PI, sin_0, Rmult_0_r, sin_0. unfold plus, scal; cbn; unfold mult; cbn. field. exact Hx. }
  apply (is_RInt_unique (V := R_CompleteNormedModule)) in H. rewrite H. field. split; lra.
Qed.
Lemma cos_taylor u : -1 <= u <= 1 -> Rabs (cos u - (1 - 1 / 2 * (u * u) + 1 / 24 * (u * u * (u * u)))) <= u ^ 6 / 720.
Proof.
  intros Hu. destruct (pre_cos_bound u 0 ltac:(lra) ltac:(lra)) as [_ U]. destruct (pre_cos_bound u 1 ltac:(lra) ltac:(lra)) as [L _].
  unfold cos_approx in U, L. cbn in U, L. unfold cos_term in U, L. cbn in U, L.
  assert (0 <= u ^ 6) by (replace (u ^ 6) with ((u * (u * u)) * (u * (u * u))) by ring; apply Rle_0_sqr).
  assert (U' : cos u <= 1 - 1 / 2 * (u * u) + 1 / 24 * (u * u * (u * u))) by (eapply Rle_trans; [exact U|]; right; field).
  assert (L' : 1 - 1 / 2 * (u * u) + 1 / 24 * (u * u * (u * u)) - u ^ 6 / 720 <= cos u) by (eapply Rle_trans; [|exact L]; right; field).
  apply Rabs_le. lra.
Qed.
Lemma B_taylor x : 0 <= x <= 1 -> Rabs (2 / PI * B x - (1 - 1 / 8 * (x * x) + 1 / 192 * (x * x * (x * x)))) <= x ^ 6 / 9216.
Proof.
  intros Hx. assert (HP := PI_RGT_0).
  assert (J2 : J 2 = PI / 8) by (assert (H := J_rec 0); rewrite J_0 in H; cbn [INR Nat.add] in H; lra).
  assert (J4 : J 4 = PI / 16) by (assert (H := J_rec 2); rewrite J2 in H; cbn [INR Nat.add] in H; lra).
  assert (J6 : J 6 = 5 * PI / 128) by (assert (H := J_rec 4); rewrite J4 in H; cbn [INR Nat.add] in H; lra).
  set (P := fun p => wallis 0 p - 1 / 2 * (x * x) * wallis 2 p + 1 / 24 * (x * x * (x * x)) * wallis 4 p).
  assert (HPi : is_RInt P (- (PI / 2)) (PI / 2) (J 0 - 1 / 2 * (x * x) * J 2 + 1 / 24 * (x * x * (x * x)) * J 4)).
  { apply (is_RInt_plus (V := R_NormedModule)); [apply (is_RInt_minus (V := R_NormedModule)); [apply J_is|]|]; apply (is_RInt_scal (V := R_NormedModule)); apply J_is. }
  assert (HDi : is_RInt (fun p => bess x p - P p) (- (PI / 2)) (PI / 2) (B x - (J 0 - 1 / 2 * (x * x) * J 2 + 1 / 24 * (x * x * (x * x)) * J 4))).
  { apply (is_RInt_minus (V := R_NormedModule)); [apply B_is|exact HPi]. }
  assert (HEi : is_RInt (fun p => x ^ 6 / 720 * wallis 6 p) (- (PI / 2)) (PI / 2) (x ^ 6 / 720 * J 6)) by (apply (is_RInt_scal (V := R_NormedModule)); apply J_is).
  assert (pt : forall p, Rabs (bess x p - P p) <= x ^ 6 / 720 * wallis 6 p).
  { intros p. unfold bess, P, wallis. 
    assert (Hs : -1 <= x * sin p <= 1) by (assert (S := SIN_bound p); split; nra).
    assert (T := cos_taylor (x * sin p) Hs).
    replace (cos p * cos p * cos (x * sin p) - (sin p ^ 0 * (cos p * cos p) - 1 / 2 * (x * x) * (sin p ^ 2 * (cos p * cos p)) + 1 / 24 * (x * x * (x * x)) * (sin p ^ 4 * (cos p * cos p))))
      with (cos p * cos p * (cos (x * sin p) - (1 - 1 / 2 * (x * sin p * (x * sin p)) + 1 / 24 * (x * sin p * (x * sin p) * (x * sin p * (x * sin p)))))) by field.
    rewrite Rabs_mult, (Rabs_pos_eq (cos p * cos p)) by apply Rle_0_sqr.
    replace (x ^ 6 / 720 * (sin p ^ 6 * (cos p * cos p))) with (cos p * cos p * ((x * sin p) ^ 6 / 720)) by field.
    apply Rmult_le_compat_l; [apply Rle_0_sqr|exact T]. }
  assert (Hab : - (PI / 2) <= PI / 2) by lra.
  assert (HU : B x - (J 0 - 1 / 2 * (x * x) * J 2 + 1 / 24 * (x * x * (x * x)) * J 4) <= x ^ 6 / 720 * J 6).
  { apply (is_RInt_le _ _ _ _ _ _ Hab HDi HEi). intros p _. specialize (pt p). apply Rabs_le_between in pt. lra. }
  assert (HL : - (x ^ 6 / 720 * J 6) <= B x - (J 0 - 1 / 2 * (x * x) * J 2 + 1 / 24 * (x * x * (x * x)) * J 4)).
  { apply (is_RInt_le (fun p => - (x ^ 6 / 720 * wallis 6 p)) _ (- (PI / 2)) (PI / 2) _ _ Hab (is_RInt_opp (V := R_NormedModule) _ _ _ _ HEi) HDi). intros p _. specialize (pt p). apply Rabs_le_between in pt. lra. }
  rewrite J_0, J2, J4, J6 in HU, HL. 
  assert (HB : B x = PI / 2 * (2 / PI * B x)) by (field; lra). set (b := 2 / PI * B x) in *. rewrite HB in HU, HL.
  apply Rabs_le. split.
  - apply (Rmult_le_reg_l (PI / 2)); [exact PI2_RGT_0|]. eapply Rle_trans; [|eapply Rle_trans; [exact HL|]]; right; field.
  - apply (Rmult_le_reg_l (PI / 2)); [exact PI2_RGT_0|]. eapply Rle_trans; [|eapply Rle_trans; [exact HU|]]; right; field.
Qed.
