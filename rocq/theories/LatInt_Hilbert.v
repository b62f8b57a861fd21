(** * The Green's functions of the chain, the Bethe lattices and the box as integrals *)
From Coq Require Import Reals Lra Lia.
From Coquelicot Require Import Coquelicot.
From Verif Require Import Base CBase CExp CSqrt Lattice_Model Bethe_Proofs Bethe_Main Fourier_Filon LatMom_Int LatInt_Proofs.
Local Open Scope C_scope.

Lemma C2_neq0 : (2 : C) <> 0. Proof. apply RtoC_neq0. lra. Qed.
Lemma is_CInt_opp_var f a b l : is_CInt f a b l -> is_CInt (fun x => f (- x)%R) (- b) (- a) l.
Proof.
  intros [A B].
  assert (X : forall g m, is_RInt (V := R_NormedModule) g a b m -> is_RInt (V := R_NormedModule) (fun x => g (- x)%R) (- b) (- a) m).
  { intros g m H. apply (is_RInt_swap (V := R_NormedModule)) in H.
    rewrite <- (Ropp_involutive a), <- (Ropp_involutive b) in H. apply (is_RInt_comp_opp (V := R_NormedModule)) in H.
    apply (is_RInt_opp (V := R_NormedModule)) in H.
    evar_last; [apply (is_RInt_ext (V := R_NormedModule)) with (2 := H)|]; [|apply (opp_opp m)]. intros x _. apply (opp_opp (g (- x)%R)). }
  split; [exact (X (fun t => fst (f t)) _ A)|exact (X (fun t => snd (f t)) _ B)].
Qed.
Lemma is_CInt_shift f a b l c : is_CInt f a b l -> is_CInt (fun x => f (x - c)%R) (a + c) (b + c) l.
Proof.
  intros [A B].
  assert (X : forall g m, is_RInt (V := R_NormedModule) g a b m -> is_RInt (V := R_NormedModule) (fun x => g (x - c)%R) (a + c) (b + c) m).
  { intros g m Hg. replace a with (1 * (a + c) + - c)%R in Hg by ring. replace b with (1 * (b + c) + - c)%R in Hg by ring.
    apply (is_RInt_comp_lin (V := R_NormedModule)) in Hg. apply (is_RInt_ext (V := R_NormedModule)) with (2 := Hg). intros x _. unfold scal; cbn. unfold mult; cbn. rewrite !Rmult_1_l. f_equal. }
  split; [exact (X (fun t => fst (f t)) _ A)|exact (X (fun t => snd (f t)) _ B)].
Qed.
(** substitution e = D cos x *)
Lemma cos_subst_part (f : R -> C) (D a b : R) (l : C) : (0 < D)%R -> (0 <= a <= b)%R -> (b <= PI)%R -> (forall e, (D * cos b <= e <= D * cos a)%R -> ccont f e) ->
  is_CInt (fun x => RtoC (D * sin x) * f (D * cos x)%R) a b l -> is_CInt f (D * cos b) (D * cos a) l.
Proof.
  intros HD Ha Hb Hf [L1 L2]. assert (HP := PI_RGT_0).
  assert (B : forall x, (a <= x <= b)%R -> (D * cos b <= D * cos x <= D * cos a)%R).
  { intros x Hx. split; (apply Rmult_le_compat_l; [lra|]); apply cos_decr_1; lra. }
  assert (O := B a ltac:(lra)).
  assert (S : forall (g : R -> R) (m : R), (forall e, (D * cos b <= e <= D * cos a)%R -> continuous g e) -> is_RInt (V := R_NormedModule) (fun x => D * sin x * g (D * cos x))%R a b m -> is_RInt (V := R_NormedModule) g (D * cos b) (D * cos a) m).
  { intros g m Hg Hm.
    assert (H : is_RInt (V := R_NormedModule) (fun y => scal (- D * sin y)%R (g (D * cos y)%R)) a b (RInt g (D * cos a)%R (D * cos b)%R)).
    { apply (is_RInt_comp (V := R_CompleteNormedModule) g (fun x => D * cos x)%R (fun x => - D * sin x)%R).
      - intros x Hx. rewrite Rmin_left, Rmax_right in Hx by lra. apply Hg, B, Hx.
      - intros x _. split; [auto_derive; [trivial|ring]|]. apply (ex_derive_continuous (fun y => - D * sin y)%R). auto_derive. trivial. }
    assert (H' : is_RInt (V := R_NormedModule) (fun y => scal (- D * sin y)%R (g (D * cos y)%R)) a b (- m)%R).
    { apply (is_RInt_ext (fun x => opp (D * sin x * g (D * cos x))%R)); [|apply (is_RInt_opp (V := R_NormedModule)), Hm].
      intros x _. unfold opp, scal; cbn. unfold mult; cbn. ring. }
    apply (is_RInt_unique (V := R_CompleteNormedModule)) in H, H'. rewrite H in H'.
    assert (X : is_RInt (V := R_NormedModule) g (D * cos a) (D * cos b) (- m)%R).
    { rewrite <- H'. apply (RInt_correct (V := R_CompleteNormedModule)), (ex_RInt_continuous (V := R_CompleteNormedModule)). intros e He. apply Hg.
      rewrite Rmin_right, Rmax_left in He by lra. exact He. }
    apply (is_RInt_swap (V := R_NormedModule)) in X. evar_last; [exact X|]. unfold opp; cbn. ring. }
  split; apply S.
  - intros e He. apply (Hf e He).
  - apply (is_RInt_ext (V := R_NormedModule)) with (2 := L1). intros x _. cbn. ring.
  - intros e He. apply (Hf e He).
  - apply (is_RInt_ext (V := R_NormedModule)) with (2 := L2). intros x _. cbn. ring.
Qed.
Lemma cos_subst (f : R -> C) (D : R) (l : C) : (0 < D)%R -> (forall e, (- D <= e <= D)%R -> ccont f e) ->
  is_CInt (fun x => RtoC (D * sin x) * f (D * cos x)%R) 0 PI l -> is_CInt f (- D) D l.
Proof.
  intros HD Hf H. assert (HP := PI_RGT_0). assert (E1 : (D * cos PI = - D)%R) by (rewrite cos_PI; ring). assert (E2 : (D * cos 0 = D)%R) by (rewrite cos_0; ring).
  assert (X := cos_subst_part f D 0 PI l HD ltac:(lra) ltac:(lra)). rewrite E1, E2 in X. exact (X Hf H).
Qed.

(** int sin^2 / (w - cos) = pi u *)
Lemma sin2_int w : cutfree w -> is_CInt (fun x => RtoC (sin x * sin x) / (w - RtoC (cos x))) 0 PI (RtoC PI * uu w).
Proof.
  intros Hc. assert (N := w_neq0 w Hc). assert (S0 := sq_neq0 w Hc).
  apply (is_CInt_ext (fun x => / 2 * (cosk w 0 x - cosk w 2 x))).
  - intros x _. unfold cosk. replace (INR 2) with 2%R by (cbn; ring). rewrite Rmult_0_l, cos_0, cos_2a_sin.
    rewrite RtoC_minus, !RtoC_mult. replace (RtoC 1) with (1 : C) by reflexivity. field. split; [apply wcos_neq0; [exact Hc|apply COS_bound]|exact C2_neq0].
  - apply (is_CInt_eq _ _ _ (/ 2 * (Ik w 0 - Ik w 2))); [apply is_CInt_scal, is_CInt_minus; apply Ik_is; exact Hc|].
    rewrite !Ik_all by exact Hc. cbn [Cpow]. assert (Q := uu_quad w N). 
    assert (E : 1 - uu w * uu w = 2 * (w * sq w) * uu w).
    { transitivity (2 - 2 * w * uu w - (uu w * uu w - 2 * w * uu w + 1)); [rewrite C2_eq; ring|]. rewrite Q.
      transitivity (2 - 2 * w * uu w); [ring|]. unfold uu. transitivity (2 * (w * w * (1 - sq w * sq w)) - 2 * w * (w * (1 - sq w))); [rewrite sq_sqr by exact N; field; exact N|ring]. }
    transitivity (/ 2 * (RtoC PI / (w * sq w)) * (1 - uu w * uu w)); [ring|]. rewrite E. field. repeat split; [exact S0|exact N|exact C2_neq0].
Qed.
Lemma inv_int w : cutfree w -> is_CInt (fun x => / (w - RtoC (cos x))) 0 PI (RtoC PI / (w * sq w)).
Proof.
  intros Hc. rewrite <- Ik_0 by exact Hc. apply (is_CInt_ext (cosk w 0)); [|apply Ik_is, Hc].
  intros x _. unfold cosk. rewrite Rmult_0_l, cos_0. unfold Cdiv. ring.
Qed.

Section Band.
Variable D : R.
Hypothesis HD : (0 < D)%R.
Variable z : C.
Hypothesis Hz : off_band D z.
Let Dc : RtoC D <> 0. Proof. apply RtoC_neq0. lra. Qed.
Let Hw : cutfree (z / D). Proof. apply off_band_cut; [exact HD|exact Hz]. Qed.
Let z0 : z <> 0. Proof. apply (off_band_neq0 D HD). exact Hz. Qed.
Lemma ze_neq0 e : (- D <= e <= D)%R -> z - RtoC e <> 0.
Proof.
  intros He E. assert (E1 := f_equal fst E). assert (E2 := f_equal snd E). cbn in E1, E2. destruct Hz as [H|H]; [lra|].
  replace (fst z) with e in H by lra. assert (Rabs e <= D)%R by (apply Rabs_le; lra). lra.
Qed.
Lemma zcos x : z - RtoC (D * cos x) = RtoC D * (z / D - RtoC (cos x)).
Proof. rewrite RtoC_mult. field. exact Dc. Qed.
Lemma zcos_neq0 x : z / D - RtoC (cos x) <> 0.
Proof. apply wcos_neq0; [exact Hw|apply COS_bound]. Qed.
Lemma PIc : RtoC PI <> 0. Proof. apply RtoC_neq0. assert (H := PI_RGT_0). lra. Qed.

(** the chain: average of the resolvent over the dispersion D cos k *)
Lemma onedim_half G : onedim_gf_z z D = Ok G -> is_CInt (fun k => 1 / (z - RtoC (D * cos k))) 0 PI (RtoC PI * G).
Proof.
  assert (S0 := sq_neq0 (z / D) Hw). rewrite (onedim_ok D HD z z0 S0). intros [= <-].
  apply (is_CInt_ext (fun x => / D * / (z / D - RtoC (cos x)))).
  - intros x _. rewrite zcos. assert (N := zcos_neq0 x). revert N. generalize (z / D - RtoC (cos x)). intros a N. field. split; [exact N|exact Dc].
  - eapply is_CInt_eq; [apply is_CInt_scal, inv_int, Hw|]. field. repeat split; first [exact Dc|exact S0|exact z0].
Qed.
Lemma onedim_int G : onedim_gf_z z D = Ok G -> is_CInt (fun k => 1 / (z - RtoC (D * cos k))) (- PI) PI (RtoC (2 * PI) * G).
Proof.
  intros H. apply onedim_half in H. apply (is_CInt_eq _ _ _ (RtoC PI * G + RtoC PI * G)); [|rewrite RtoC_mult, C2_eq; ring].
  apply is_CInt_chasles with 0%R; [|exact H]. apply is_CInt_opp_var in H. rewrite Ropp_0 in H.
  apply is_CInt_ext with (2 := H). intros x _. now rewrite cos_neg.
Qed.

(** Hilbert transform of the semi-ellipse *)
Lemma inv_z_cont e : (- D <= e <= D)%R -> ccont (fun e => / (z - RtoC e)) e.
Proof. intros He. apply ccont_inv; [|apply ze_neq0, He]. apply ccont_minus; [apply ccont_const|apply ccont_R, continuous_id]. Qed.
Lemma sqrt_cont e : continuous (fun e => sqrt (1 - e / D * (e / D)))%R e.
Proof. apply (continuous_comp (fun e => 1 - e / D * (e / D))%R sqrt); [|apply continuous_sqrt]. apply (ex_derive_continuous (fun e => 1 - e / D * (e / D))%R). auto_derive. trivial. Qed.
Lemma sqrt_cos x : (0 < x < PI)%R -> sqrt (1 - D * cos x / D * (D * cos x / D)) = sin x.
Proof. intros Hx. replace (D * cos x / D)%R with (cos x) by (field; lra). rewrite <- (sqrt_square (sin x)) by (apply sin_ge_0; lra). f_equal. assert (H := cos2_sin2 x). lra. Qed.
Lemma bethe_hilbert (d : R -> R) G : (forall e, bethe_dos e D = Ok (d e)) -> bethe_gf_z z D = Ok G -> is_CInt (fun e => RtoC (d e) / (z - RtoC e)) (- D) D G.
Proof.
  intros Hd HG. assert (HP := PI_RGT_0). rewrite (bethe_ok D HD z z0) in HG. injection HG as <-.
  apply (is_CInt_ext (fun e => RtoC (2 / (PI * D) * sqrt (1 - e / D * (e / D))) * / (z - RtoC e))).
  { intros e _. rewrite <- (bethe_dos_sqrt D e (d e) HD (Hd e)). reflexivity. }
  apply cos_subst; [exact HD| |].
  - intros e He. apply ccont_mult; [|apply inv_z_cont, He]. apply ccont_R. apply (continuous_mult (K := R_AbsRing)); [apply continuous_const|apply sqrt_cont].
  - apply (is_CInt_ext (fun x => RtoC (2 / (PI * D)) * (RtoC (sin x * sin x) / (z / D - RtoC (cos x))))).
    + intros x Hx. rewrite Rmin_left, Rmax_right in Hx by lra. rewrite sqrt_cos by exact Hx. rewrite zcos. assert (N := zcos_neq0 x). revert N. generalize (z / D - RtoC (cos x)). intros a N. rewrite !RtoC_mult. field. split; [exact N|exact Dc].
    + eapply is_CInt_eq; [apply is_CInt_scal, sin2_int, Hw|]. rewrite RtoC_div by nra. rewrite RtoC_mult. field. split; [exact Dc|exact PIc].
Qed.

(** ** finite coordination number *)
Section Coordination.
Variable Z : R.
Hypothesis HZ : (2 < Z)%R.
Let kap : R := (Z / (2 * sqrt (Z - 1)))%R.
Let s1 := sqrt (Z - 1).
Let Hs : (s1 * s1 = Z - 1)%R. Proof. apply sqrt_sqrt. lra. Qed.
Let Hs0 : (0 < s1)%R. Proof. apply sqrt_lt_R0. lra. Qed.
Lemma kap_sqr : (4 * (Z - 1) * (kap * kap) = Z * Z)%R.
Proof. rewrite <- Hs. unfold kap. fold s1. field. lra. Qed.
Lemma kap_gt1 : (1 < kap)%R.
Proof. unfold kap. fold s1. apply Rmult_lt_reg_r with (2 * s1)%R; [lra|]. replace (Z / (2 * s1) * (2 * s1))%R with Z by (field; lra). nra. Qed.
Lemma kap_cut : cutfree (RtoC kap). Proof. right. cbn. assert (H := kap_gt1). rewrite Rabs_pos_eq; lra. Qed.
Lemma kap_sq : sq (RtoC kap) = RtoC ((Z - 2) / Z).
Proof.
  assert (K := kap_gt1). assert (K2 := kap_sqr). unfold sq. rewrite <- RtoC_mult, <- RtoC_div, <- RtoC_minus by nra. rewrite csqrt_R.
  - f_equal. rewrite <- (sqrt_square ((Z - 2) / Z)) by (apply Rdiv_le_0_compat; lra). f_equal.
    apply Rmult_eq_reg_r with (kap * kap * (4 * (Z - 1)))%R; [|nra]. replace ((1 - 1 / (kap * kap)) * (kap * kap * (4 * (Z - 1))))%R with (4 * (Z - 1) * (kap * kap) - 4 * (Z - 1))%R by (field; nra).
    replace ((Z - 2) / Z * ((Z - 2) / Z) * (kap * kap * (4 * (Z - 1))))%R with ((Z - 2) / Z * ((Z - 2) / Z) * (4 * (Z - 1) * (kap * kap)))%R by ring. rewrite K2. field. lra.
  - assert (0 < / (kap * kap) <= 1)%R; [|unfold Rdiv; lra]. split; [apply Rinv_0_lt_compat; nra|]. rewrite <- Rinv_1. apply Rinv_le_contravar; nra.
Qed.
Lemma kap_uu : uu (RtoC kap) = RtoC (kap * 2 / Z).
Proof. unfold uu. rewrite kap_sq. replace (1 : C) with (RtoC 1) by reflexivity. rewrite <- RtoC_minus, <- RtoC_mult. f_equal. field. lra. Qed.
Lemma sin2_neg w : cutfree w -> is_CInt (fun x => RtoC (sin x * sin x) / (w + RtoC (cos x))) 0 PI (RtoC PI * uu w).
Proof.
  intros Hc. assert (H := sin2_int w Hc). apply is_CInt_opp_var in H.
  apply (is_CInt_shift _ _ _ _ PI) in H. rewrite Ropp_0, Rplus_0_l, Rplus_opp_l in H. apply is_CInt_ext with (2 := H). intros x _.
  replace (- (x - PI))%R with (PI - x)%R by ring. rewrite sin_PI_x. replace (cos (PI - x)) with (- cos x)%R; [|rewrite cos_minus, cos_PI, sin_PI; ring]. rewrite RtoC_opp. f_equal. ring.
Qed.
Lemma bethez_pf : snd z <> 0%R ->
  is_CInt (fun x => RtoC (sin x * sin x) / ((RtoC (kap * kap) - RtoC (cos x * cos x)) * (z / D - RtoC (cos x)))) 0 PI
    (RtoC PI * (uu (z / D) - z / D * RtoC (2 / Z)) / (RtoC (kap * kap) - z / D * (z / D))).
Proof.
  intros Y. assert (K := kap_gt1).
  set (w := z / D) in *. assert (Yw : snd w <> 0%R). { unfold w. rewrite (proj2 (zD_split D HD z)). apply Rmult_integral_contrapositive. split; [exact Y|apply Rinv_neq_0_compat; lra]. }
  clearbody w. assert (N : forall x : R, w - RtoC x <> 0 /\ w + RtoC x <> 0). { intros x. split; intros E; apply Yw; apply (f_equal snd) in E; cbn in E; lra. }
  assert (KK : RtoC kap <> 0) by (apply RtoC_neq0; lra).
  assert (Kx : forall x, RtoC kap - RtoC (cos x) <> 0 /\ RtoC kap + RtoC (cos x) <> 0).
  { intros x. destruct (COS_bound x). split; intros E; apply (f_equal fst) in E; cbn in E; lra. }
  apply (is_CInt_ext (fun x => / ((RtoC kap - w) * (RtoC kap + w)) * (RtoC (sin x * sin x) / (w - RtoC (cos x)))
     + (/ (2 * RtoC kap * (w - RtoC kap)) * (RtoC (sin x * sin x) / (RtoC kap - RtoC (cos x)))
     + / (2 * RtoC kap * (w + RtoC kap)) * (RtoC (sin x * sin x) / (RtoC kap + RtoC (cos x)))))).
  - intros x _. rewrite (RtoC_mult kap kap), (RtoC_mult (cos x) (cos x)). destruct (Kx x) as [A1 A2]. destruct (N (cos x)) as [A3 _]. destruct (N kap) as [A4 A5].
    revert KK A1 A2 A3 A4 A5. generalize (RtoC (sin x * sin x)) (RtoC kap) (RtoC (cos x)). intros S k c KK A1 A2 A3 A4 A5.
    assert (A6 : k - w <> 0). { intros E. apply A4. transitivity (- (k - w)); [ring|rewrite E; ring]. }
    assert (A7 : k + w <> 0). { intros E. apply A5. transitivity (k + w); [ring|exact E]. }
    replace (k * k - c * c) with ((k - c) * (k + c)) by ring. rewrite C2_eq. field. repeat split; first [exact KK|assumption|exact C11_neq0].
  - eapply is_CInt_eq.
    + apply is_CInt_plus; [apply is_CInt_scal, sin2_int, Hw|]. apply is_CInt_plus; apply is_CInt_scal; [apply sin2_int, kap_cut|apply sin2_neg, kap_cut].
    + rewrite kap_uu. destruct (N kap) as [A4 A5]. assert (Zc : RtoC Z <> 0) by (apply RtoC_neq0; lra). rewrite (RtoC_mult kap kap), !RtoC_div, RtoC_mult by lra.
      revert KK A4 A5 Zc. generalize (uu w) (RtoC kap) (RtoC Z) (RtoC PI). intros u k Zz p KK A4 A5 Zc.
      assert (A6 : k - w <> 0). { intros E. apply A4. transitivity (- (k - w)); [ring|rewrite E; ring]. }
      assert (A7 : k + w <> 0). { intros E. apply A5. transitivity (k + w); [ring|exact E]. }
      replace (k * k - w * w) with ((k - w) * (k + w)) by ring. rewrite C2_eq. field. repeat split; first [assumption|exact C11_neq0].
Qed.
Definition zdos (e : R) : R := (2 * Z * (Z - 1) / (D * PI) * sqrt (1 - e / D * (e / D)) / (Z * Z - 4 * (Z - 1) * (e / D * (e / D))))%R.
Lemma zden_pos e : (- D <= e <= D)%R -> (0 < Z * Z - 4 * (Z - 1) * (e / D * (e / D)))%R.
Proof.
  intros He. assert (H : (e / D * (e / D) <= 1)%R).
  { assert (-1 <= e / D <= 1)%R; [|nra]. split; apply Rmult_le_reg_r with D; try lra; unfold Rdiv; rewrite Rmult_assoc, Rinv_l by lra; lra. }
  assert (0 <= e / D * (e / D))%R by nra. nra.
Qed.
Lemma zdos_ok e d : (- D <= e <= D)%R -> bethez_dos e D Z = Ok d -> d = zdos e.
Proof.
  intros He. assert (HP := PI_RGT_0). unfold bethez_dos. destruct (Rlt_dec 1 Z) as [_|]; [|lra]. rewrite rdiv_ok by lra. cbn [bind].
  destruct (Rle_dec (Rabs (e / D)) 1) as [_|N].
  - rewrite rdiv_ok by (apply Rgt_not_eq, Rmult_lt_0_compat; lra). cbn [bind]. rewrite rdiv_ok by (apply Rgt_not_eq, zden_pos, He). intros [= <-]. reflexivity.
  - exfalso. apply N. apply Rabs_le. split; apply Rmult_le_reg_r with D; try lra; unfold Rdiv; rewrite Rmult_assoc, Rinv_l by lra; lra.
Qed.
Lemma zdos_cont e : (- D <= e <= D)%R -> continuous zdos e.
Proof.
  intros He. unfold zdos. apply (continuous_mult (K := R_AbsRing)).
  - apply (continuous_mult (K := R_AbsRing)); [apply continuous_const|apply sqrt_cont].
  - apply (ex_derive_continuous (fun e => / (Z * Z - 4 * (Z - 1) * (e / D * (e / D))))%R). auto_derive. apply Rgt_not_eq, zden_pos, He.
Qed.
Lemma bethez_hilbert_off : snd z <> 0%R -> is_CInt (fun e => RtoC (zdos e) * / (z - RtoC e)) (- D) D (2 * (Z - 1) / (z * (Z - 2 + Z * sq (z / D)))).
Proof.
  intros Y. assert (HP := PI_RGT_0). apply cos_subst; [exact HD| |].
  - intros e He. apply ccont_mult; [apply ccont_R, zdos_cont, He|apply inv_z_cont, He].
  - apply (is_CInt_ext (fun x => RtoC (Z / (2 * PI * D)) * (RtoC (sin x * sin x) / ((RtoC (kap * kap) - RtoC (cos x * cos x)) * (z / D - RtoC (cos x)))))).
    + intros x Hx. rewrite Rmin_left, Rmax_right in Hx by lra. unfold zdos. rewrite sqrt_cos by exact Hx. replace (D * cos x / D)%R with (cos x) by (field; lra).
      rewrite zcos. assert (N := zcos_neq0 x). assert (K := kap_gt1). destruct (COS_bound x) as [C1 C2]. assert (KC : (0 < kap * kap - cos x * cos x)%R) by nra.
      rewrite <- (RtoC_minus (kap * kap)). replace (Z * Z)%R with (4 * (Z - 1) * (kap * kap))%R by apply kap_sqr.
      rewrite <- (Rmult_minus_distr_l (4 * (Z - 1)) (kap * kap)). 
      assert (KN := RtoC_neq0 _ (Rgt_not_eq _ _ KC)). revert N KN KC. generalize (z / D - RtoC (cos x)) (kap * kap - cos x * cos x)%R. intros a b N KN KC.
      assert (E : (Z / (2 * PI * D) * (sin x * sin x) / b = D * sin x * (2 * Z * (Z - 1) / (D * PI) * sin x / (4 * (Z - 1) * b)) / D)%R). { field. repeat split; lra. }
      apply (f_equal RtoC) in E. rewrite (RtoC_div _ b), (RtoC_mult _ (sin x * sin x)), (RtoC_div _ D), (RtoC_mult (D * sin x)) in E by lra.
      transitivity (RtoC (Z / (2 * PI * D)) * RtoC (sin x * sin x) / RtoC b * / a); [field; split; assumption|]. rewrite E. field. split; assumption.
    + eapply is_CInt_eq; [apply is_CInt_scal, bethez_pf, Y|].
      assert (Zc : RtoC Z <> 0) by (apply RtoC_neq0; lra). assert (Hden := zden_neq D z Z z0 ltac:(lra) (or_introl HZ)). assert (S2 := sq_sqr (z / D)). assert (w0 : z / D <> 0) by (apply zD_neq; [exact HD|exact z0]).
      assert (Z1 : RtoC (Z - 1) <> 0) by (apply RtoC_neq0; lra). assert (Kz : RtoC (kap * kap) = RtoC Z * RtoC Z / (RtoC 4 * RtoC (Z - 1))).
      { rewrite <- !RtoC_mult, <- RtoC_div by lra. f_equal. apply Rmult_eq_reg_l with (4 * (Z - 1))%R; [|lra]. rewrite kap_sqr. field. lra. }
      assert (Nk : RtoC (kap * kap) - z / D * (z / D) <> 0).
      { assert (Yw : snd (z / D) <> 0%R). { rewrite (proj2 (zD_split D HD z)). apply Rmult_integral_contrapositive. split; [exact Y|apply Rinv_neq_0_compat; lra]. }
        rewrite RtoC_mult. replace (RtoC kap * RtoC kap - z / D * (z / D)) with ((RtoC kap - z / D) * (RtoC kap + z / D)) by ring. apply Cmult_neq_0; intros E; apply Yw; apply (f_equal snd) in E; cbn [fst snd Cminus Cplus Copp RtoC] in E; lra. }
      rewrite Kz in *. replace (z * (Z - 2 + Z * sq (z / D))) with (RtoC D * (z / D) * (Z - 2 + Z * sq (z / D))) by (field; exact Dc).
      unfold uu. revert S2 w0 Hden Nk. generalize (z / D). intros w. generalize (sq w). intros s S2 w0 Hden Nk.
      clear - S2 w0 Hden Nk Zc Z1 Dc HD HZ HP. assert (PC := PIc).
      assert (E4 : RtoC 4 = (1 + 1) * (1 + 1)) by (rewrite <- C2_eq, <- RtoC_mult; f_equal; ring). rewrite E4, RtoC_minus in *. clear E4.
      rewrite (RtoC_div Z), (RtoC_div 2), !RtoC_mult in * by (try lra; apply Rgt_not_eq, Rmult_lt_0_compat; lra). rewrite C2_eq in *.
      assert (E1 : w * w * (s * s) = w * w - 1) by (rewrite S2; field; exact w0).
      revert Zc Z1 Dc PC w0 Hden Nk E1. generalize (RtoC Z) (RtoC D) (RtoC PI). intros Y d p Zc Z1 Dc PC w0 Hden Nk E1.
      assert (T := C11_neq0).
      assert (K : Y * Y / ((1 + 1) * (1 + 1) * (Y - 1)) - w * w = w * w * ((Y - (1 + 1) - Y * s) * (Y - (1 + 1) + Y * s)) / ((1 + 1) * (1 + 1) * (Y - 1))).
      { transitivity ((Y * Y - (1 + 1) * (1 + 1) * (Y - 1) * (w * w)) / ((1 + 1) * (1 + 1) * (Y - 1))); [field; repeat split; first [assumption|exact (Cmult_neq_0 _ _ T T)]|]. f_equal.
        transitivity (w * w * ((Y - (1 + 1)) * (Y - (1 + 1))) - Y * Y * (w * w * (s * s))); [rewrite E1; ring|ring]. }
      rewrite K in *. clear K E1 S2.
      assert (M : Y - (1 + 1) - Y * s <> 0). { intros E. apply Nk. rewrite E. field. repeat split; first [assumption|exact (Cmult_neq_0 _ _ T T)]. }
      field. repeat split; first [assumption|exact (Cmult_neq_0 _ _ T T)].
Qed.
End Coordination.
End Band.
