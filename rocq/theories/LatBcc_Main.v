(** * Body-centred cubic lattice: the average over the Brillouin zone *)
From Coq Require Import Reals Lra List ZArith.
From Coquelicot Require Import Coquelicot.
From Verif Require Import Base CBase CExp CSqrt Lattice_Model Bethe_Proofs Bethe_Main Fourier_Filon LatMom_Spec LatDer_Spec LatEll_Model LatInt_Spec LatInt_Proofs LatInt_Hilbert LatInt_Fubini LatInt_Square LatInt_Local LatInt_Legendre CAnal CHol CEll CHolo CTheta LatBz_Spec LatRect_Main LatTri_Main LatBcc_Proofs.
Local Open Scope C_scope.

Lemma phase_prod a b c k1 k2 k3 s : phase3 (k1, k2, k3) (a, b, c, s) = cexp (Ci * RtoC (IZR a * k1)) * cexp (Ci * RtoC (IZR b * k2)) * cexp (Ci * RtoC (IZR c * k3)).
Proof. unfold phase3. rewrite <- !cexp_add. f_equal. rewrite !RtoC_plus. ring. Qed.
Lemma step_1 k : cexp (Ci * RtoC (IZR 1 * k)) = cexp (Ci * RtoC k). Proof. do 3 f_equal. cbn. ring. Qed.
Lemma step_m k : cexp (Ci * RtoC (IZR (-1) * k)) = / cexp (Ci * RtoC k). Proof. rewrite <- cexp_opp. f_equal. replace (IZR (-1) * k)%R with (- k)%R by (cbn; ring). rewrite RtoC_opp. ring. Qed.
Lemma step_0 k : cexp (Ci * RtoC (IZR 0 * k)) = 1. Proof. replace (IZR 0 * k)%R with 0%R by (cbn; ring). rewrite Cmult_0_r. apply cexp_0. Qed.
Lemma bcc_band t k1 k2 k3 : band3 body_centered t (k1, k2, k3) = RtoC (8 * t * (cos k1 * cos k2 * cos k3)).
Proof.
  unfold band3, body_centered, bravais, origin. cbn [map fold_right Z.add]. rewrite !phase_prod, !step_1, !step_m.
  set (u := cexp (Ci * RtoC k1)). set (v := cexp (Ci * RtoC k2)). set (w := cexp (Ci * RtoC k3)). transitivity (RtoC t * ((u + / u) * (v + / v) * (w + / w))); [ring|]. unfold u, v, w. rewrite !cexp_cos, <- !RtoC_mult. f_equal. ring.
Qed.
(** even and pi-periodic integrands *)
Lemma cos2_all (h : R -> C) l : is_CInt (fun x => h (cos x * cos x)%R) 0 (PI / 2) l -> is_CInt (fun x => h (cos x * cos x)%R) (- PI) PI (4 * l).
Proof.
  intros H. assert (N := is_CInt_opp_var _ _ _ _ H). rewrite Ropp_0 in N.
  assert (N' : is_CInt (fun x => h (cos x * cos x)%R) (- (PI / 2)) 0 l) by (apply is_CInt_ext with (2 := N); intros x _; now rewrite cos_neg).
  assert (A := is_CInt_shift _ _ _ _ PI N'). assert (B := is_CInt_shift _ _ _ _ (- PI) H).
  assert (A' : is_CInt (fun x => h (cos x * cos x)%R) (PI / 2) PI l). { replace (- (PI / 2) + PI)%R with (PI / 2)%R in A by field. rewrite Rplus_0_l in A. apply is_CInt_ext with (2 := A). intros x _. f_equal. rewrite cos_minus, cos_PI, sin_PI. ring. }
  assert (B' : is_CInt (fun x => h (cos x * cos x)%R) (- PI) (- (PI / 2)) l). { replace (PI / 2 + - PI)%R with (- (PI / 2))%R in B by field. rewrite Rplus_0_l in B. apply is_CInt_ext with (2 := B). intros x _. f_equal. rewrite cos_minus, cos_neg, sin_neg, cos_PI, sin_PI. ring. }
  eapply is_CInt_eq; [apply is_CInt_chasles with (1 := B'); apply is_CInt_chasles with (1 := N'); apply is_CInt_chasles with (1 := H); exact A'|]. cring.
Qed.

Lemma offK_csqrt m (x : R) : offK m -> csqrt (1 - m * RtoC (cos x * cos x)) <> 0.
Proof. intros H. apply offcut_csqrt, offK_1m. exact (c2_off m x H). Qed.
Lemma bcc_avg (D : R) (z : C) : (0 < D)%R -> off_band D z ->
  is_bz_average3 (fun k => 1 / (z - band3 body_centered (D / 8) k)) (4 / (RtoC (PI * PI) * z) * (Kf (ub (RtoC D / z * (RtoC D / z))) * Kf (ub (RtoC D / z * (RtoC D / z))))).
Proof.
  intros HD O. assert (N := off_band_neq0 D HD z O). assert (W := param_off D HD z O). set (w := RtoC D / z * (RtoC D / z)) in *. fold (offK w) in W. assert (HP := PI_RGT_0).
  exists (fun k1 k2 => RtoC (2 * PI) / z * (1 / csqrt (1 - w * RtoC (cos k1 * cos k1) * RtoC (cos k2 * cos k2)))), (fun k1 => RtoC (2 * PI) / z * (4 * Kf (w * RtoC (cos k1 * cos k1)))). split; [|split].
  - intros k1 k2. set (s := (cos k1 * cos k2)%R). assert (Hs : (-1 <= s <= 1)%R). { unfold s. destruct (COS_bound k1), (COS_bound k2). nra. }
    assert (NS : csqrt (1 - w * RtoC (cos k1 * cos k1) * RtoC (cos k2 * cos k2)) <> 0) by (apply offK_csqrt; exact (c2_off w k1 W)).
    eapply is_CInt_eq; [apply is_CInt_ext with (2 := chain_int D HD z O s Hs)|]. + intros k3 _. rewrite bcc_band. do 3 f_equal. unfold s. field. 
    + fold w. replace (w * RtoC (s * s)) with (w * RtoC (cos k1 * cos k1) * RtoC (cos k2 * cos k2)); [field; split; assumption|]. unfold s. rewrite !RtoC_mult. ring.
  - intros k1. apply is_CInt_scal. apply (cos2_all (fun c => 1 / csqrt (1 - w * RtoC (cos k1 * cos k1) * RtoC c))). apply K_cosform. exact (c2_off w k1 W).
  - eapply is_CInt_eq; [apply is_CInt_scal, is_CInt_scal, (cos2_all (fun c => Kf (w * RtoC c))); apply (II_is Kf w); [eexists; apply Kf_hol|exact W]|]. rewrite (clausen_K w W). set (k := Kf (ub w)).
    replace (RtoC (2 * PI)) with (2 * RtoC PI) by (rewrite RtoC_mult; reflexivity). replace (RtoC (8 * (PI * PI * PI))) with (8 * (RtoC PI * RtoC PI * RtoC PI)) by (rewrite !RtoC_mult; reflexivity). rewrite RtoC_mult. assert (NP : RtoC PI <> 0) by (apply RtoC_neq0; lra). generalize (RtoC PI) NP. clear - N. intros p NP. cfield. all: assumption.
Qed.
Lemma bcc_average (ellipk : C -> result C) (D : R) (z : C) : computes_K ellipk -> (0 < D)%R -> off_band D z ->
  exists G, bcc_gf_z ellipk z D = Ok G /\ is_bz_average3 (fun k => 1 / (z - band3 body_centered (D / 8) k)) G.
Proof.
  intros HK HD O. assert (N := off_band_neq0 D HD z O). assert (W := param_off D HD z O). assert (DC : RtoC D <> 0) by (apply RtoC_neq0; lra). assert (HP := PI_RGT_0). assert (NP : RtoC (PI * PI) <> 0) by (apply RtoC_neq0; nra).
  unfold bcc_gf_z. rewrite cdiv_ok by exact DC. cbn [bind]. assert (NR : z / RtoC D <> 0) by (intros X; apply N; replace z with (z / RtoC D * RtoC D) by (field; exact DC); rewrite X; ring). rewrite cdiv_ok by (apply Cmult_neq_0; exact NR). cbn [bind].
  replace (1 / (z / RtoC D * (z / RtoC D))) with (RtoC D / z * (RtoC D / z)) by (field; split; assumption). rewrite cdiv_ok by (apply Cmult_neq_0; assumption). cbn [bind].
  fold (ub (RtoC D / z * (RtoC D / z))). rewrite (ellipk_ok ellipk HK) by (apply ub_off, W). cbn [bind]. eexists. split; [reflexivity|]. apply bcc_avg; assumption.
Qed.
