(** * The density of states of the chain *)
From Coq Require Import Reals Lra Lia List FunctionalExtensionality.
From Coquelicot Require Import Coquelicot.
From Verif Require Import Base CBase CExp Fourier_Filon Lattice_Model Bethe_Proofs LatMom_Spec LatDer_Spec LatInt_Spec LatInt_Proofs LatInt_Real LatHil_Spec LatHil_Avg LatMm_Spec LatMm_Trace LatMm_Walk LatMm_Inst.
Import ListNotations.
Local Open Scope R_scope.

Lemma chain_band_eq t k : chain_band t k = RtoC (2 * t * cos k).
Proof.
  unfold chain_band, bloch. cbn [map fold_right chain bravais origin snd fst Nat.eqb phase]. unfold cexp. apply C_ext; cbn [fst snd Cplus Cmult Ci RtoC].
  - replace (0 * (IZR (0 + 1) * k + IZR (0 + 0) * 0) - 1 * 0) with 0 by ring. replace (0 * (IZR (0 + -1) * k + IZR (0 + 0) * 0) - 1 * 0) with 0 by ring. rewrite exp_0. cbn [Z.add Pos.add Z.opp Z.pos_sub].
    replace (0 * 0 + 1 * (1 * k + 0 * 0)) with k by ring. replace (0 * 0 + 1 * (-1 * k + 0 * 0)) with (- k) by ring. rewrite cos_neg, sin_neg. ring.
  - replace (0 * (IZR (0 + 1) * k + IZR (0 + 0) * 0) - 1 * 0) with 0 by ring. replace (0 * (IZR (0 + -1) * k + IZR (0 + 0) * 0) - 1 * 0) with 0 by ring. rewrite exp_0. cbn [Z.add Pos.add Z.opp Z.pos_sub].
    replace (0 * 0 + 1 * (1 * k + 0 * 0)) with k by ring. replace (0 * 0 + 1 * (-1 * k + 0 * 0)) with (- k) by ring. rewrite cos_neg, sin_neg. ring.
Qed.

Section Chain.
Variable D : R.
Hypothesis HD : 0 < D.
Definition cd (e : R) : R := if Rle_dec (Rabs (e / D)) 1 then 1 / (PI * D) / sqrt (1 - e / D * (e / D)) else 0.
Lemma cd_ok e : ~ In e [- D; D] -> onedim_dos e D = Ok (cd e).
Proof.
  intros He. unfold onedim_dos, cd. rewrite rdiv_ok by lra. cbn [bind]. destruct (Rle_dec (Rabs (e / D)) 1) as [L|L]; [|reflexivity]. assert (HP := PI_RGT_0). rewrite rdiv_ok by (apply Rmult_integral_contrapositive; lra). cbn [bind]. apply rdiv_ok.
  assert (A : Rabs (e / D) <> 1). { intros X. apply He. unfold Rabs in X. destruct (Rcase_abs (e / D)); [left|right; left]; apply Rmult_eq_reg_r with (/ D); try (apply Rinv_neq_0_compat; lra); unfold Rdiv in X; [replace (- D * / D) with (-1) by (field; lra)|replace (D * / D) with 1 by (field; lra)]; lra. }
  apply Rgt_not_eq, sqrt_lt_R0. apply Rabs_le_between in L. assert (B : - 1 < e / D < 1) by (unfold Rabs in A; destruct (Rcase_abs (e / D)); lra). nra.
Qed.
Section Psi.
Variable psi : R -> R.
Hypothesis Cp : forall x, - D <= x <= D -> continuous psi x.
Let h (k : R) := psi (- D * cos k).
Lemma h_cont k : continuous h k.
Proof.
  apply (continuous_comp (fun k => - D * cos k) psi).
  - apply (ex_derive_continuous (fun k => - D * cos k)). auto_derive. exact Logic.I.
  - apply Cp. assert (B := COS_bound k). nra.
Qed.
Lemma h_int a b : is_RInt h a b (RInt (V := R_CompleteNormedModule) h a b).
Proof. apply (RInt_correct (V := R_CompleteNormedModule)), ex_RInt_continuous. intros; apply h_cont. Qed.
Lemma int_eq f a b l l' : is_RInt (V := R_NormedModule) f a b l -> l = l' -> is_RInt (V := R_NormedModule) f a b l'.
Proof. intros H <-. exact H. Qed.
Lemma chain_mean : is_RInt (fun k => psi (D * cos k)) (- PI) PI (2 * RInt (V := R_CompleteNormedModule) h 0 PI).
Proof.
  set (L := RInt (V := R_CompleteNormedModule) h 0 PI). assert (H := h_int 0 PI). fold L in H.
  assert (H1 : is_RInt (V := R_NormedModule) (fun k => psi (D * cos k)) 0 PI L).
  { apply is_RInt_swap in H. assert (X := is_RInt_comp_lin (V := R_NormedModule) h (-1) PI 0 PI (opp L)). replace (-1 * 0 + PI) with PI in X by ring. replace (-1 * PI + PI) with 0 in X by ring. specialize (X H).
    apply is_RInt_opp in X. rewrite opp_opp in X. apply (is_RInt_ext (fun y => opp (scal (-1) (h (-1 * y + PI))))); [|exact X]. intros k _. unfold opp, scal; cbn. unfold mult; cbn. unfold h.
    replace (-1 * k + PI) with (PI - k) by ring. rewrite Rtrigo_facts.cos_pi_minus. replace (- D * - cos k) with (D * cos k) by ring. ring. }
  assert (H2 : is_RInt (V := R_NormedModule) (fun k => psi (D * cos k)) (- PI) 0 L).
  { apply is_RInt_swap in H1. assert (X := is_RInt_comp_lin (V := R_NormedModule) (fun k => psi (D * cos k)) (-1) 0 (- PI) 0 (opp L)). replace (-1 * - PI + 0) with PI in X by ring. replace (-1 * 0 + 0) with 0 in X by ring. specialize (X H1).
    apply is_RInt_opp in X. rewrite opp_opp in X. refine (is_RInt_ext _ _ _ _ _ _ X). intros k _. unfold opp, scal; cbn. unfold mult; cbn. replace (-1 * k + 0) with (- k) by ring. rewrite cos_neg. ring. }
  apply (int_eq _ _ _ (plus L L)); [exact (is_RInt_Chasles _ _ _ _ _ _ H2 H1)|]. unfold plus; cbn. ring.
Qed.
Lemma cd_cont e : - D < e < D -> continuous cd e.
Proof.
  intros He. assert (HP := PI_RGT_0). assert (Y : - 1 < e / D < 1) by (split; [apply Rmult_lt_reg_r with D|apply Rmult_lt_reg_r with D]; try lra; unfold Rdiv; rewrite Rmult_assoc, Rinv_l; lra).
  apply (continuous_ext_loc _ (fun e => 1 / (PI * D) / sqrt (1 - e / D * (e / D)))).
  - assert (Hr : 0 < Rmin (D - e) (D + e)) by (apply Rmin_pos; lra). exists (mkposreal _ Hr). intros y By. unfold ball in By; cbn in By. unfold AbsRing_ball, abs, minus, plus, opp in By; cbn in By. apply Rabs_def2 in By. assert (m1 := Rmin_l (D - e) (D + e)). assert (m2 := Rmin_r (D - e) (D + e)).
    unfold cd. destruct (Rle_dec (Rabs (y / D)) 1) as [_|L]; [reflexivity|]. exfalso. apply L. apply Rabs_le. split; [apply Rmult_le_reg_r with D|apply Rmult_le_reg_r with D]; try lra; unfold Rdiv; rewrite Rmult_assoc, Rinv_l; lra.
  - apply (ex_derive_continuous (fun e => 1 / (PI * D) / sqrt (1 - e / D * (e / D)))). auto_derive. assert (Z : 0 < 1 - e * / D * (e * / D)) by (unfold Rdiv in Y; nra). repeat split; try exact Z; apply Rgt_not_eq; try exact (sqrt_lt_R0 _ Z); try lra; try (apply Rmult_lt_0_compat; lra).
Qed.
Lemma chain_sub dl : 0 < dl < D -> is_RInt (fun e => cd e * psi e) (- D + dl) (D - dl) (RInt (V := R_CompleteNormedModule) h (acos (1 - dl / D)) (PI - acos (1 - dl / D)) / PI).
Proof.
  intros Hd. assert (HP := PI_RGT_0). set (c := 1 - dl / D). assert (Hc : 0 < c < 1).
  { unfold c. assert (0 < dl / D) by (apply Rdiv_lt_0_compat; lra). assert (dl / D < 1) by (apply Rmult_lt_reg_r with D; [lra|]; unfold Rdiv; rewrite Rmult_assoc, Rinv_l; lra). lra. }
  set (a := acos c). assert (Ca : cos a = c) by (apply cos_acos; lra). assert (Ba : 0 <= a <= PI) by (apply acos_bound).
  assert (A0 : 0 < a). { destruct (Rle_lt_or_eq_dec 0 a (proj1 Ba)) as [X|X]; [exact X|]. rewrite <- X, cos_0 in Ca. lra. }
  assert (A1 : a < PI / 2). { destruct (Rlt_le_dec a (PI / 2)) as [X|X]; [exact X|]. assert (Y := cos_le_0 a X ltac:(lra)). lra. }
  assert (G : forall k, a <= k <= PI - a -> - D < - D * cos k < D).
  { intros k Hk. assert (X1 : cos k <= c) by (rewrite <- Ca; apply cos_decr_1; lra). assert (X2 : - c <= cos k). { rewrite <- Ca, <- Rtrigo_facts.cos_pi_minus. apply cos_decr_1; lra. } nra. }
  assert (F : forall k, a <= k <= PI - a -> continuous (fun e => cd e * psi e) (- D * cos k)).
  { intros k Hk. assert (X := G k Hk). apply (continuous_mult cd psi); [apply cd_cont; exact X|apply Cp; lra]. }
  assert (K := is_RInt_comp (V := R_CompleteNormedModule) (fun e => cd e * psi e) (fun k => - D * cos k) (fun k => D * sin k) a (PI - a)). rewrite Rmin_left, Rmax_right in K by lra. specialize (K F).
  assert (Dg : forall x, a <= x <= PI - a -> is_derive (fun k => - D * cos k) x (D * sin x) /\ continuous (fun k => D * sin k) x).
  { intros x _. split; [auto_derive; [exact Logic.I|ring]|]. apply (ex_derive_continuous (fun k => D * sin k)). auto_derive. exact Logic.I. }
  specialize (K Dg). rewrite Rtrigo_facts.cos_pi_minus, Ca in K. replace (- D * c) with (- D + dl) in K by (unfold c; field; lra). replace (- D * - c) with (D - dl) in K by (unfold c; field; lra).
  assert (V : RInt (V := R_CompleteNormedModule) (fun e => cd e * psi e) (- D + dl) (D - dl) = RInt (V := R_CompleteNormedModule) h a (PI - a) / PI).
  { apply (is_RInt_unique (V := R_CompleteNormedModule)) in K. rewrite <- K. apply (is_RInt_unique (V := R_CompleteNormedModule)). apply (is_RInt_ext (fun k => scal (/ PI) (h k))).
    - intros k Hk. rewrite Rmin_left, Rmax_right in Hk by lra. assert (X := G k ltac:(lra)). unfold scal; cbn. unfold mult; cbn. unfold h, cd.
      replace (- D * cos k / D) with (- cos k) by (field; lra). destruct (Rle_dec (Rabs (- cos k)) 1) as [_|L]; [|exfalso; apply L; apply Rabs_le; assert (B := COS_bound k); lra].
      assert (S0 : 0 < sin k) by (apply sin_gt_0; lra). replace (1 - - cos k * - cos k) with (sin k * sin k) by (assert (E := sin2_cos2 k); unfold Rsqr in E; lra). rewrite sqrt_square by lra. field. repeat split; lra.
    - unfold Rdiv. rewrite Rmult_comm. apply (is_RInt_scal (V := R_NormedModule)), h_int. }
  rewrite <- V. apply (RInt_correct (V := R_CompleteNormedModule)), ex_RInt_continuous. intros e He. rewrite Rmin_left, Rmax_right in He by lra. apply (continuous_mult cd psi); [apply cd_cont; lra|apply Cp; lra].
Qed.
Lemma chain_lim t : 0 < t -> exists r, 0 < r < D /\ forall dl, 0 < dl < r -> exists I, is_RInt (fun e => cd e * psi e) (- D + dl) (D - dl) I /\ Rabs (I - RInt (V := R_CompleteNormedModule) h 0 PI / PI) < t.
Proof.
  intros Ht. assert (HP := PI_RGT_0). destruct (cont_bounded h 0 PI ltac:(lra) (fun x _ => h_cont x)) as (M & HM & BM).
  set (w := Rmin 1 (t / (2 * (M + 1)))). assert (Hw : 0 < w <= 1). { unfold w. split; [apply Rmin_pos; [lra|apply Rdiv_lt_0_compat; lra]|apply Rmin_l]. } assert (Hwt : w * (M + 1) * 2 <= t). { assert (X := Rmin_r 1 (t / (2 * (M + 1)))). fold w in X. apply Rmult_le_compat_r with (r := 2 * (M + 1)) in X; [|lra]. replace (t / (2 * (M + 1)) * (2 * (M + 1))) with t in X by (field; lra). lra. }
  assert (P1 : 1 < PI / 2) by (assert (X := PI2_1); lra).
  assert (Cw : 0 < cos w < 1). { split; [apply cos_gt_0; lra|]. rewrite <- cos_0. apply cos_decreasing_1; lra. }
  exists (D * (1 - cos w)). split; [nra|]. intros dl Hd. assert (Hd2 : 0 < dl < D) by nra. eexists. split; [exact (chain_sub dl Hd2)|]. set (c := 1 - dl / D).
  assert (Hc : cos w < c < 1). { unfold c. assert (0 < dl / D) by (apply Rdiv_lt_0_compat; lra). assert (dl / D < 1 - cos w) by (apply Rmult_lt_reg_r with D; [lra|]; unfold Rdiv; rewrite Rmult_assoc, Rinv_l; lra). lra. }
  set (a := acos c). assert (Ca : cos a = c) by (apply cos_acos; lra). assert (Ba : 0 <= a <= PI) by (apply acos_bound).
  assert (Aw : a < w) by (apply cos_decreasing_0; lra).
  assert (E : RInt (V := R_CompleteNormedModule) h 0 PI = RInt (V := R_CompleteNormedModule) h 0 a + RInt (V := R_CompleteNormedModule) h a (PI - a) + RInt (V := R_CompleteNormedModule) h (PI - a) PI).
  { symmetry. apply eq_sym, (is_RInt_unique (V := R_CompleteNormedModule)). exact (is_RInt_Chasles _ _ _ _ _ _ (is_RInt_Chasles _ _ _ _ _ _ (h_int 0 a) (h_int a (PI - a))) (h_int (PI - a) PI)). }
  rewrite E. assert (B1 : Rabs (RInt (V := R_CompleteNormedModule) h 0 a) <= (a - 0) * M) by (apply (norm_RInt_le_const (V := R_NormedModule) h 0 a); [lra|intros x Hx; apply BM; lra|apply h_int]).
  assert (B2 : Rabs (RInt (V := R_CompleteNormedModule) h (PI - a) PI) <= (PI - (PI - a)) * M) by (apply (norm_RInt_le_const (V := R_NormedModule) h (PI - a) PI); [lra|intros x Hx; apply BM; lra|apply h_int]).
  set (x := RInt _ 0 a) in *. set (y := RInt _ (PI - a) PI) in *. set (u := RInt _ a (PI - a)) in *. replace (u / PI - (x + u + y) / PI) with (- (x + y) / PI) by (field; lra).
  unfold Rdiv. rewrite Rabs_mult, Rabs_Ropp, (Rabs_pos_eq (/ PI)) by (left; apply Rinv_0_lt_compat; lra). assert (T := Rabs_triang x y). apply Rmult_lt_reg_r with PI; [lra|]. rewrite Rmult_assoc, Rinv_l, Rmult_1_r by lra. nra.
Qed.
End Psi.
Lemma chain_dist : distribution is_chain_average (chain_band (D / 2)) cd (- D) [D].
Proof.
  intros phi Cp. cbn [final] in Cp. assert (HP := PI_RGT_0).
  assert (C1 : forall x, - D <= x <= D -> continuous (fun y => fst (phi y)) x) by (intros x Hx; apply (Cp x Hx)). assert (C2 : forall x, - D <= x <= D -> continuous (fun y => snd (phi y)) x) by (intros x Hx; apply (Cp x Hx)).
  set (L1 := RInt (V := R_CompleteNormedModule) (fun k => fst (phi (- D * cos k))) 0 PI). set (L2 := RInt (V := R_CompleteNormedModule) (fun k => snd (phi (- D * cos k))) 0 PI).
  exists (L1 / PI, L2 / PI). assert (Eb : forall k, fst (chain_band (D / 2) k) = D * cos k) by (intros k; rewrite chain_band_eq; cbn; field). split.
  - split.
    + apply (is_RInt_ext (fun k => fst (phi (D * cos k)))); [intros k _; rewrite Eb; reflexivity|]. apply (int_eq _ _ _ (2 * L1)); [exact (chain_mean _ C1)|]. cbn. field. lra.
    + apply (is_RInt_ext (fun k => snd (phi (D * cos k)))); [intros k _; rewrite Eb; reflexivity|]. apply (int_eq _ _ _ (2 * L2)); [exact (chain_mean _ C2)|]. cbn. field. lra.
  - intros t Ht. destruct (chain_lim _ C1 (t / 2) ltac:(lra)) as (r1 & Hr1 & Q1). destruct (chain_lim _ C2 (t / 2) ltac:(lra)) as (r2 & Hr2 & Q2). exists (Rmin r1 r2). split; [apply Rmin_pos; lra|]. intros dl Hd. assert (m1 := Rmin_l r1 r2). assert (m2 := Rmin_r r1 r2).
    destruct (Q1 dl ltac:(lra)) as (I1 & A1 & B1). destruct (Q2 dl ltac:(lra)) as (I2 & A2 & B2). exists (I1, I2). split.
    + exists (I1, I2), (RtoC 0). split; [|split; [reflexivity|symmetry; apply Cplus_0_r]]. split; [refine (is_RInt_ext _ _ _ _ _ _ A1)|refine (is_RInt_ext _ _ _ _ _ _ A2)]; intros e _; cbn [fst snd Cmult RtoC]; match goal with |- ?x = ?y => change (@eq R x y) end; ring.
    + eapply Rle_lt_trans; [apply Cmod_2Rmax|]. cbn [fst snd Cminus Cplus Copp]. fold L1 in B1. fold L2 in B2. unfold Rminus in B1, B2.
      assert (S2 : sqrt 2 < 2) by (rewrite <- (sqrt_square 2) at 2 by lra; apply sqrt_lt_1; lra). assert (S0 := sqrt_pos 2). assert (Mx : Rmax (Rabs (I1 + - (L1 / PI))) (Rabs (I2 + - (L2 / PI))) < t / 2) by (apply Rmax_lub_lt; assumption).
      assert (M0 : 0 <= Rmax (Rabs (I1 + - (L1 / PI))) (Rabs (I2 + - (L2 / PI)))) by (eapply Rle_trans; [apply Rabs_pos|apply Rmax_l]). nra.
Qed.
End Chain.
(** averages over the wave vectors of the chain *)
Lemma chain_bz f l : is_bz_average (fun k => f (fst k)) l -> is_chain_average f l.
Proof.
  intros (i & I1 & I2). assert (HP := PI_RGT_0). assert (E : forall k1, i k1 = (RtoC (2 * PI) * f k1)%C).
  { intros k1. apply (is_CInt_unique _ _ _ _ _ (I1 k1)). cbn [fst]. apply (is_CInt_eq _ _ _ (RtoC (PI - - PI) * f k1)%C); [apply is_CInt_const|]. f_equal. f_equal. ring. }
  assert (X := is_CInt_scal (RtoC (/ (2 * PI))) _ _ _ _ I2). unfold is_chain_average. apply (is_CInt_ext _ f) in X.
  - apply (is_CInt_eq _ _ _ _ _ X). rewrite Cmult_assoc, <- RtoC_mult. f_equal. f_equal. field. lra.
  - intros k _. rewrite E, Cmult_assoc, <- RtoC_mult. replace (/ (2 * PI) * (2 * PI)) with 1 by (field; lra). ring.
Qed.
Lemma chain_uniq f l l' : is_chain_average f l -> is_chain_average f l' -> l = l'.
Proof.
  intros A B. assert (E := is_CInt_unique _ _ _ _ _ A B). assert (HP := PI_RGT_0). apply (f_equal (fun c => (RtoC (/ (2 * PI)) * c)%C)) in E. rewrite !Cmult_assoc, <- RtoC_mult in E. replace (/ (2 * PI) * (2 * PI)) with 1 in E by (field; lra). rewrite !Cmult_1_l in E. exact E.
Qed.
Lemma chain_cl : closed 1 (fun c => c = 0%Z) chain. Proof. cl. Qed.
Lemma chain_trace t m : is_chain_average (fun k => RtoC (fst (chain_band t k) ^ m)) (RtoC (dos_moment_of chain [origin 0] t m)).
Proof.
  rewrite <- dmo1. assert (A := bz_trace 1 chain t m (bravais_inv _) chain_cl). apply chain_bz. replace (fun k : R * R => RtoC (fst (chain_band t (fst k)) ^ m)) with (fun k => trace 1 (mpow 1 (bloch chain t k) m)); [exact A|].
  apply functional_extensionality; intros [k1 k2]. assert (E : bloch chain t (k1, k2) 0 0 = chain_band t k1).
  { unfold chain_band, bloch. cbn [map fold_right chain bravais origin snd fst Nat.eqb phase]. do 2 f_equal; [f_equal; f_equal; f_equal; cbn; ring|]. f_equal. f_equal. f_equal. f_equal. cbn. ring. }
  cbn [fst]. rewrite <- E. apply (trace1 (bloch chain t (k1, k2))). rewrite E, chain_band_eq. reflexivity.
Qed.
