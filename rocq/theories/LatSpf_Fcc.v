(** * Boundary values of the Green's function of the face-centred cubic lattice *)
From Coq Require Import Reals Lra Lia List.
From Coquelicot Require Import Coquelicot.
From Verif Require Import Base CBase CExp CSqrt Lattice_Model Bethe_Proofs Bethe_Main Fourier_Filon LatMom_Spec LatDer_Spec LatDer_Model LatDer_Dos LatEll_Model LatEll_Dos LatInt_Spec LatInt_Legendre LatInt_Local LatInt_Square CAnal CHol CEll CHolo LatBz_Spec LatRect_Main LatTri_Proofs LatTri_Main LatSc_Proofs LatFcc_Red LatFcc_Y LatFcc_Main LatCut_Spec LatCut_Proofs LatSpf_Spec LatSpf_Proofs LatSpf_Tri LatSpf_Sc.
Local Open Scope C_scope.

Lemma ulim_conj x f l : ulim x f l -> ulim x (fun w => Cconj (f w)) (Cconj l).
Proof.
  intros H t Ht. destruct (H t Ht) as (r & Hr & B). exists r. split; [exact Hr|]. intros w Hw Hx. replace (Cconj (f w) - Cconj l) with (Cconj (f w - l)) by (apply C_ext; cbn; ring). rewrite Cmod_conj. apply B; assumption.
Qed.
Lemma Cconj_R a : Cconj (RtoC a) = RtoC a. Proof. apply C_ext; cbn; ring. Qed.
Lemma ulim_root_low x f a : ulim x f (RtoC a) -> uev x (fun w => (snd (f w) < 0)%R) -> ulim x (fun w => csqrt (f w)) (Cconj (csqrt (RtoC a))).
Proof.
  intros A B. apply (ulim_ext x (fun w => Cconj (csqrt (Cconj (f w))))).
  - revert B. apply uev_imp. intros w _ H. rewrite csqrt_conj by (left; lra). generalize (csqrt (f w)). intros c. apply C_ext; cbn; ring.
  - apply ulim_conj, ulim_root; [rewrite <- Cconj_R; apply ulim_conj, A|]. revert B. apply uev_imp. intros w _ H. cbn. lra.
Qed.
(** ** the spectral function is not negative *)
Lemma res_im (z : C) (b : R) : (0 < snd z)%R -> (snd (1 / (z - RtoC b))%C <= 0)%R.
Proof.
  destruct z as [x y]. cbn [snd]. intros H. set (n := ((x - b) * (x - b) + y * y)%R). assert (A := Rle_0_sqr (x - b)). unfold Rsqr in A. assert (B : (0 < y * y)%R) by (apply Rmult_lt_0_compat; exact H). assert (P : (0 < n)%R) by (unfold n; lra).
  replace (snd (1 / ((x, y) - RtoC b))%C) with (- (y / n))%R; [assert (0 < y / n)%R by (apply Rdiv_lt_0_compat; assumption); lra|]. cbn. unfold n in *. field. repeat split; intros Z; lra.
Qed.
Lemma avg3_neg (band : R * R * R -> R) (z G : C) : (0 < snd z)%R -> is_bz_average3 (fun k => 1 / (z - RtoC (band k))) G -> (snd G <= 0)%R.
Proof.
  intros Hz (inner & middle & A & B & Cc). assert (HP := PI_RGT_0). assert (I0 : forall f l, is_CInt f (- PI) PI l -> (forall t, (snd (f t) <= 0)%R) -> (snd l <= 0)%R).
  { intros f l [_ H] N. assert (X := is_RInt_opp _ _ _ _ H). assert (Y : (0 <= - snd l)%R) by (apply (is_RInt_ge_0 (fun t => - snd (f t))%R (- PI) PI); [lra|exact X|intros t _; specialize (N t); lra]). lra. }
  assert (A' : forall k1 k2, (snd (inner k1 k2) <= 0)%R). { intros k1 k2. apply (I0 _ _ (A k1 k2)). intros k3. apply res_im, Hz. }
  assert (B' : forall k1, (snd (middle k1) <= 0)%R) by (intros k1; apply (I0 _ _ (B k1)); apply A'). assert (X := I0 _ _ Cc B'). assert (P2 := Rmult_lt_0_compat _ _ HP HP). assert (P3 := Rmult_lt_0_compat _ _ P2 HP). replace (snd (RtoC (8 * (PI * PI * PI)) * G)) with (8 * (PI * PI * PI) * snd G)%R in X by (cbn; ring). nra.
Qed.
Lemma ulim_nonpos x f g : ulim x f g -> uev x (fun w => (snd (f w) <= 0)%R) -> (snd g <= 0)%R.
Proof.
  intros L (r1 & H1 & N). destruct (Rle_dec (snd g) 0) as [|P]; [assumption|exfalso]. apply Rnot_le_lt in P. destruct (L (snd g) P) as (r & Hr & B). set (q := (Rmin r1 r / 2)%R). assert (M1 := Rmin_l r1 r). assert (M2 := Rmin_r r1 r). assert (Q : (0 < q)%R) by (unfold q; assert (0 < Rmin r1 r)%R by (now apply Rmin_glb_lt); lra).
  assert (E : Cmod ((x, q) - RtoC x)%C = q). { replace ((x, q) - RtoC x) with (0%R, q) by (apply C_ext; cbn; ring). apply Cmod_Im. lra. } assert (Hq : (q < Rmin r1 r)%R) by (unfold q in *; lra).
  specialize (N (x, q) Q ltac:(lra)). specialize (B (x, q) Q ltac:(lra)). cbv beta in N. assert (S := Cmod_snd (f (x, q) - g)%C). assert (S2 : (snd g <= Rabs (snd (f (x, q) - g)%C))%R) by (rewrite <- Rabs_Ropp; eapply Rle_trans; [|apply Rle_abs]; destruct (f (x, q)), g; cbn in *; lra). lra.
Qed.
Section Fcc.
Variables (D ze : R).
Hypotheses (HD : (0 < D)%R) (Hz : (- (1) < ze < 3)%R).
Let om := (4 / (ze + 1))%R.
Let u (z : C) : C := wz (Cconj z).
Lemma u_lim : ulim ze u (RtoC om).
Proof.
  unfold u, wz, om. rewrite RtoC_div, RtoC_plus by lra. apply ulim_mul; [apply ulim_const|]. apply ulim_inv.
  - apply ulim_add; [|apply ulim_const]. rewrite <- Cconj_R. apply ulim_conj, ulim_id.
  - rewrite <- RtoC_plus. apply RtoC_neq0. lra.
Qed.
Lemma u_up (z : C) : (0 < snd z)%R -> (0 < snd (u z))%R. Proof. intros H. apply wz_low. cbn. lra. Qed.
Let r := fcc_signed_sqrt (RtoC ze + 1).
Let fa := fcc_signed_sqrt (RtoC ze) / r.
Let fb := fcc_signed_sqrt (RtoC ze - 3) / r.
Let s1 := sqrt (ze + 1).
Let s3 := sqrt (3 - ze).
Lemma s1_pos : (0 < s1)%R. Proof. apply sqrt_lt_R0. lra. Qed.
Lemma s3_pos : (0 < s3)%R. Proof. apply sqrt_lt_R0. lra. Qed.
Lemma r_eq : r = RtoC s1. Proof. unfold r. rewrite <- RtoC_plus, ss_pos by lra. reflexivity. Qed.
Lemma fb_eq : fb = (0%R, (- (s3 / s1))%R).
Proof. assert (P := s1_pos). unfold fb. rewrite r_eq, <- RtoC_minus, ss_neg by lra. replace (- (ze - 3))%R with (3 - ze)%R by ring. fold s3. rewrite div_real by lra. cbn [fst snd]. apply C_ext; cbn; field; lra. Qed.
Lemma fa_pos : (0 <= ze)%R -> fa = RtoC (sqrt ze / s1).
Proof. intros H. assert (P := s1_pos). unfold fa. rewrite r_eq, RtoC_div by lra. f_equal. destruct (Rlt_dec 0 ze) as [L|L]; [apply ss_pos, L|]. assert (E : ze = 0%R) by lra. rewrite E. unfold fcc_signed_sqrt. rewrite cneg_ge by (cbn; lra). apply csqrt_R. lra. Qed.
Lemma fa_neg : (ze < 0)%R -> fa = (0%R, (- (sqrt (- ze) / s1))%R).
Proof. intros H. assert (P := s1_pos). unfold fa. rewrite r_eq, ss_neg by exact H. rewrite div_real by lra. cbn [fst snd]. apply C_ext; cbn; field; lra. Qed.
Lemma A_lim : ulim ze (fun z => fA (u z)) fa.
Proof.
  assert (P := s1_pos). assert (L : ulim ze (fun z => fA (u z)) (Cconj (csqrt (RtoC (ze / (ze + 1)))))).
  { unfold fA. apply ulim_root_low.
    - replace (RtoC (ze / (ze + 1))) with (1 - RtoC (1 / 4) * RtoC om) by (rewrite <- RtoC_mult, RtoC_1m; f_equal; unfold om; field; lra). apply (ulim_cont ze u (RtoC om) (fun w => 1 - RtoC (1 / 4) * w) u_lim). apply ccat_minus; [apply ccat_const|apply ccat_mult; [apply ccat_const|apply ccat_id]].
    - apply uev_true. intros z H. assert (X := u_up z H). destruct (u z). cbn in *. lra. }
  replace fa with (Cconj (csqrt (RtoC (ze / (ze + 1))))); [exact L|]. destruct (Rle_dec 0 ze) as [G|G].
  - rewrite fa_pos by exact G. assert (0 < / (ze + 1))%R by (apply Rinv_0_lt_compat; lra). rewrite csqrt_R by (unfold Rdiv; nra). rewrite Cconj_R. f_equal. apply sqrt_div; lra.
  - apply Rnot_le_lt in G. rewrite fa_neg by exact G. assert (0 < / (ze + 1))%R by (apply Rinv_0_lt_compat; lra). replace (ze / (ze + 1))%R with (- (- ze / (ze + 1)))%R by (field; lra). rewrite csqrt_neg by (unfold Rdiv; nra). rewrite sqrt_div by lra. reflexivity.
Qed.
Lemma B_lim : ulim ze (fun z => fB (u z)) fb.
Proof.
  assert (P := s1_pos). assert (L : ulim ze (fun z => fB (u z)) (Cconj (csqrt (RtoC (- ((3 - ze) / (ze + 1))))))).
  { unfold fB. apply ulim_root_low.
    - replace (RtoC (- ((3 - ze) / (ze + 1)))) with (1 - RtoC om) by (rewrite RtoC_1m; f_equal; unfold om; field; lra). apply (ulim_cont ze u (RtoC om) (fun w => 1 - w) u_lim). apply ccat_minus; [apply ccat_const|apply ccat_id].
    - apply uev_true. intros z H. assert (X := u_up z H). destruct (u z). cbn in *. lra. }
  replace fb with (Cconj (csqrt (RtoC (- ((3 - ze) / (ze + 1)))))); [exact L|]. rewrite fb_eq. assert (0 < / (ze + 1))%R by (apply Rinv_0_lt_compat; lra). rewrite csqrt_neg by (unfold Rdiv; nra). rewrite sqrt_div by lra. reflexivity.
Qed.
Definition mp : C := RtoC (1 / 2) * (1 + RtoC om * fa - (1 - RtoC (1 / 2) * RtoC om) * fb).
Definition mm : C := RtoC (1 / 2) * (1 - RtoC om * fa - (1 - RtoC (1 / 2) * RtoC om) * fb).
Lemma P_lim : ulim ze (fun z => cP (u z)) mp.
Proof.
  apply (ulim_ext ze (fun z => RtoC (1 / 2) * ((1 + u z * fA (u z)) + - ((1 + - (RtoC (1 / 2) * u z)) * fB (u z))))); [apply uev_true; intros z H; rewrite cP_AB by (apply up_offK, u_up, H); ring|].
  unfold mp. apply ulim_mul; [apply ulim_const|]. assert (L1 : ulim ze (fun z => u z * fA (u z)) (RtoC om * fa)) by (apply ulim_mul; [exact u_lim|exact A_lim]). apply ulim_add; [apply ulim_add; [apply ulim_const|exact L1]|].
  apply (ulim_cont ze (fun z => (1 + - (RtoC (1 / 2) * u z)) * fB (u z)) _ (fun q => - q)); [|apply ccat_opp, ccat_id]. apply ulim_mul; [|exact B_lim]. apply ulim_add; [apply ulim_const|]. apply (ulim_cont ze (fun z => RtoC (1 / 2) * u z) _ (fun q => - q)); [apply ulim_mul; [apply ulim_const|exact u_lim]|apply ccat_opp, ccat_id].
Qed.
Lemma M_lim : ulim ze (fun z => cM (u z)) mm.
Proof.
  apply (ulim_ext ze (fun z => RtoC (1 / 2) * ((1 + - (u z * fA (u z))) + - ((1 + - (RtoC (1 / 2) * u z)) * fB (u z))))); [apply uev_true; intros z H; rewrite cM_AB by (apply up_offK, u_up, H); ring|].
  unfold mm. apply ulim_mul; [apply ulim_const|]. assert (L1 : ulim ze (fun z => u z * fA (u z)) (RtoC om * fa)) by (apply ulim_mul; [exact u_lim|exact A_lim]). apply ulim_add; [apply ulim_add; [apply ulim_const|apply (ulim_cont ze (fun z => u z * fA (u z)) _ (fun q => - q)); [exact L1|apply ccat_opp, ccat_id]]|].
  apply (ulim_cont ze (fun z => (1 + - (RtoC (1 / 2) * u z)) * fB (u z)) _ (fun q => - q)); [|apply ccat_opp, ccat_id]. apply ulim_mul; [|exact B_lim]. apply ulim_add; [apply ulim_const|]. apply (ulim_cont ze (fun z => RtoC (1 / 2) * u z) _ (fun q => - q)); [apply ulim_mul; [apply ulim_const|exact u_lim]|apply ccat_opp, ccat_id].
Qed.
(** ** where the parameters are *)
Lemma om_pos : (0 < om)%R. Proof. apply Rdiv_lt_0_compat; lra. Qed.
Lemma om2 : (1 - 1 / 2 * om = (ze - 1) / (ze + 1))%R. Proof. unfold om. field. lra. Qed.
Lemma mm_off : offK mm.
Proof.
  right. unfold mm. rewrite fb_eq. assert (O := om_pos). assert (P := s1_pos). destruct (Rle_dec 0 ze) as [G|G].
  - rewrite fa_pos by exact G. assert (Q : (0 <= sqrt ze / s1)%R) by (apply Rmult_le_pos; [apply sqrt_pos|apply Rlt_le, Rinv_0_lt_compat, P]). set (q := (sqrt ze / s1)%R) in *. clearbody q. cbn. nra.
  - rewrite fa_neg by lra. cbn. lra.
Qed.
Lemma mp_im : (ze < 1 -> snd mp < 0)%R /\ (1 < ze -> 0 < snd mp)%R.
Proof.
  assert (O := om_pos). assert (P := s1_pos). assert (P3 := s3_pos). assert (I : (0 < / (ze + 1))%R) by (apply Rinv_0_lt_compat; lra). assert (Q : (0 < s3 / s1)%R) by (apply Rdiv_lt_0_compat; assumption).
  assert (E : exists q, (0 <= q)%R /\ (0 < ze -> q = 0)%R /\ (snd mp = 1 / 2 * (- (om * q) + (ze - 1) / (ze + 1) * (s3 / s1)))%R).
  { unfold mp. rewrite fb_eq. destruct (Rle_dec 0 ze) as [G|G].
    - exists 0%R. split; [lra|]. split; [reflexivity|]. rewrite fa_pos by exact G. rewrite <- om2. cbn. ring.
    - exists (sqrt (- ze) / s1)%R. split; [apply Rmult_le_pos; [apply sqrt_pos|apply Rlt_le, Rinv_0_lt_compat, P]|]. split; [lra|]. rewrite fa_neg by lra. rewrite <- om2. cbn. ring. }
  destruct E as (q & Q0 & QZ & ->). assert (OQ : (0 <= om * q)%R) by (apply Rmult_le_pos; lra). split; intros H.
  - assert (N : (0 < (1 - ze) / (ze + 1) * (s3 / s1))%R) by (apply Rmult_lt_0_compat; [apply Rdiv_lt_0_compat; lra|exact Q]). replace ((ze - 1) / (ze + 1) * (s3 / s1))%R with (- ((1 - ze) / (ze + 1) * (s3 / s1)))%R by (unfold Rdiv; ring). lra.
  - rewrite QZ by lra. assert (N : (0 < (ze - 1) / (ze + 1) * (s3 / s1))%R) by (apply Rmult_lt_0_compat; [apply Rdiv_lt_0_compat; lra|exact Q]). lra.
Qed.
Lemma om_1 : ze = 1%R -> 1 - RtoC (1 / 2) * RtoC om = 0.
Proof. intros E. rewrite <- RtoC_mult, RtoC_1m, om2. f_equal. rewrite E. field. Qed.
Lemma mp_1 : ze = 1%R -> exists a, mp = RtoC a /\ (1 < a)%R.
Proof.
  intros E. assert (P := s1_pos). assert (S : (s1 * s1 = ze + 1)%R) by (apply sqrt_sqrt; lra). exists (1 / 2 * (1 + om * (1 / s1)))%R. unfold mp. rewrite fa_pos by lra. split.
  - rewrite (om_1 E). replace (sqrt ze) with 1%R by (rewrite E; symmetry; apply sqrt_1). rewrite <- RtoC_mult. rewrite Cmult_0_l. replace (1 + RtoC (om * (1 / s1)) - 0) with (RtoC (1 + om * (1 / s1))) by (rewrite RtoC_plus; ring). rewrite <- RtoC_mult. reflexivity.
  - assert (EO : om = 2%R) by (unfold om; rewrite E; field). rewrite EO. assert (s1 < 2)%R by nra. assert (/ 2 < / s1)%R by (apply Rinv_lt_contravar; [nra|assumption]). unfold Rdiv. lra.
Qed.
Lemma mp_off : offE mp.
Proof.
  destruct mp_im as [A B]. destruct (Rtotal_order ze 1) as [H|[H|H]]; [left; assert (X := A H); lra| |left; assert (X := B H); lra]. destruct (mp_1 H) as (a & -> & L). right. exact L.
Qed.
Definition gband : C := pf * (Kf mm * Ef mp) / (RtoC D * (RtoC ze + 1)).
Lemma g_lim : ulim ze (fun z => Fj 0 (u z) / (RtoC D * (Cconj z + 1))) gband.
Proof.
  apply (ulim_ext ze (fun z => pf * (Kf (cM (u z)) * Ef (cP (u z))) / (RtoC D * (Cconj z + 1)))); [apply uev_true; intros z H; rewrite (fcc_up (u z)) by (apply u_up, H); reflexivity|].
  unfold gband. apply ulim_mul.
  - apply ulim_mul; [apply ulim_const|]. apply ulim_mul; [exact (ulim_cont ze _ _ Kf M_lim (ccat_Kf _ mm_off))|exact (ulim_cont ze _ _ Ef P_lim (ccat_Ef _ mp_off))].
  - apply ulim_inv; [apply ulim_mul; [apply ulim_const|apply ulim_add; [|apply ulim_const]]; rewrite <- Cconj_R; apply ulim_conj, ulim_id|]. rewrite <- RtoC_plus, <- RtoC_mult. apply RtoC_neq0, Rgt_not_eq, Rmult_lt_0_compat; lra.
Qed.
(** ** the code on the band *)
Variable ellipk : C -> result C.
Hypothesis HK : computes_K ellipk.
Lemma core_mp : RtoC (1 / 2) * (1 + 4 * fcc_signed_sqrt (RtoC ze) * (1 / (r * r * r)) - (RtoC ze - 1) * fcc_signed_sqrt (RtoC ze - 3) * (1 / (r * r * r))) = mp.
Proof.
  unfold mp, fa, fb. assert (P := s1_pos). rewrite r_eq. assert (S : (s1 * s1 = ze + 1)%R) by (apply sqrt_sqrt; lra). assert (N : RtoC s1 <> 0) by (apply RtoC_neq0; lra). unfold om. rewrite <- S. assert (EZ : RtoC ze = RtoC s1 * RtoC s1 - 1) by (rewrite <- RtoC_mult, S, RtoC_plus; ring). rewrite (RtoC_div 4) by nra. rewrite RtoC_mult.
  generalize (fcc_signed_sqrt (RtoC ze)) (fcc_signed_sqrt (RtoC ze - 3)). intros a b. rewrite EZ. revert N. generalize (RtoC s1). intros q N. snum. ffin.
Qed.
Lemma core_mm : RtoC (1 / 2) * (1 - 4 * fcc_signed_sqrt (RtoC ze) * (1 / (r * r * r)) - (RtoC ze - 1) * fcc_signed_sqrt (RtoC ze - 3) * (1 / (r * r * r))) = mm.
Proof.
  unfold mm, fa, fb. assert (P := s1_pos). rewrite r_eq. assert (S : (s1 * s1 = ze + 1)%R) by (apply sqrt_sqrt; lra). assert (N : RtoC s1 <> 0) by (apply RtoC_neq0; lra). unfold om. rewrite <- S. assert (EZ : RtoC ze = RtoC s1 * RtoC s1 - 1) by (rewrite <- RtoC_mult, S, RtoC_plus; ring). rewrite (RtoC_div 4) by nra. rewrite RtoC_mult.
  generalize (fcc_signed_sqrt (RtoC ze)) (fcc_signed_sqrt (RtoC ze - 3)). intros a b. rewrite EZ. revert N. generalize (RtoC s1). intros q N. snum. ffin.
Qed.
Lemma core_any k k' : ellipk mp = Ok k -> (if cneg (snd mp) then do q <- ellipk (1 - mp); Ok (k + 2 * Ci * q) else Ok k) = Ok k' -> fcc_core ellipk (RtoC ze) D = Ok (pf * (Kf mm * k') / (RtoC D * (RtoC ze + 1))).
Proof.
  intros EK EK'. assert (P := s1_pos). assert (HP := PI_RGT_0). assert (NR : r <> 0) by (rewrite r_eq; apply RtoC_neq0; lra). assert (DC : RtoC D <> 0) by (apply RtoC_neq0; lra). assert (NZ : RtoC ze + 1 <> 0) by (rewrite <- RtoC_plus; apply RtoC_neq0; lra).
  unfold fcc_core. fold r. rewrite cdiv_ok by (apply Cmult_neq_0; [apply Cmult_neq_0|]; exact NR). cbn [bind]. rewrite core_mp, core_mm, EK. cbn [bind]. rewrite EK'. cbn [bind].
  rewrite cdiv_ok by (apply Cmult_neq_0; [apply RtoC_neq0; apply Rgt_not_eq; apply Rmult_lt_0_compat; nra|exact NZ]). cbn [bind]. rewrite (ellipk_ok ellipk HK) by exact mm_off. cbn [bind]. f_equal.
  unfold pf. assert (NP : RtoC PI <> 0) by (apply RtoC_neq0; lra). rewrite (RtoC_div 4) by nra. rewrite !RtoC_mult. field. repeat split; assumption.
Qed.
Hypothesis HC : ze = 1%R -> cut_from_above ellipk \/ cut_from_below ellipk.
Lemma core_band : exists G, fcc_core ellipk (RtoC ze) D = Ok G /\ Rabs (snd G) = Rabs (snd gband).
Proof.
  destruct mp_im as [IA IB]. destruct (Rtotal_order ze 1) as [H|[H|H]].
  - specialize (IA H). exists gband. split; [|reflexivity]. apply (core_any (Kf mp)); [apply (ellipk_ok ellipk HK); left; lra|]. rewrite cneg_lt by exact IA. rewrite (ellipk_ok ellipk HK (1 - mp)) by (left; revert IA; generalize mp; intros [a b] Z; cbn in *; lra). cbn [bind]. f_equal. symmetry. apply Ef_low, IA.
  - destruct (mp_1 H) as (a & Ea & La). assert (NG : cneg (snd mp) = false) by (rewrite Ea; apply cneg_ge; cbn; lra). destruct (HC H) as [X|X].
    + exists gband. split; [|reflexivity]. apply (core_any (Ef mp)); [rewrite Ea; apply above_val; assumption|]. rewrite NG. reflexivity.
    + exists (pf * (Kf mm * Df mp) / (RtoC D * (RtoC ze + 1))). split; [apply (core_any (Df mp)); [rewrite Ea; apply below_val; assumption|]; rewrite NG; reflexivity|].
      assert (RM : exists b, mm = RtoC b /\ (b < 1)%R). { assert (OM := mm_off). assert (P := s1_pos). exists (1 / 2 * (1 - om * (sqrt ze / s1)))%R. assert (EM : mm = RtoC (1 / 2 * (1 - om * (sqrt ze / s1)))). { unfold mm. rewrite fa_pos by lra. rewrite (om_1 H), Cmult_0_l, <- RtoC_mult. replace (1 - RtoC (om * (sqrt ze / s1)) - 0) with (1 - RtoC (om * (sqrt ze / s1))) by ring. rewrite RtoC_1m, <- RtoC_mult. reflexivity. }
        split; [exact EM|]. rewrite EM in OM. destruct OM as [Y|Y]; cbn in Y; lra. }
      destruct RM as (b & Eb & Lb). unfold gband. rewrite Eb, Ea, (Kf_R b Lb). assert (I1 := Ef_im a La). assert (I2 := Df_im a La). unfold pf. revert I1 I2. generalize (Ef (RtoC a)) (Df (RtoC a)) (fst (Kf (RtoC b))) (fst (Kf (RtoC (1 - a)))). intros E F kb ka I1 I2.
      rewrite <- !RtoC_plus, <- !RtoC_mult. unfold Cdiv. rewrite <- !RtoC_inv by (apply Rgt_not_eq, Rmult_lt_0_compat; lra). generalize (/ (D * (ze + 1)))%R (4 / (PI * PI))%R. intros c1 c2. replace (snd (RtoC c2 * (RtoC kb * F) * RtoC c1)) with (- snd (RtoC c2 * (RtoC kb * E) * RtoC c1)%C)%R by (cbn; rewrite I1, I2; ring). apply Rabs_Ropp.
  - specialize (IB H). exists gband. split; [|reflexivity]. apply (core_any (Kf mp)); [apply (ellipk_ok ellipk HK); left; lra|]. rewrite cneg_ge by lra. f_equal. symmetry. apply Ef_up. lra.
Qed.
End Fcc.
Lemma Fj_real D (x : R) : (0 < D)%R -> (x < - (1) \/ 3 < x)%R -> snd (Fj 0 (wz (RtoC x)) / (RtoC D * (RtoC x + 1))) = 0%R.
Proof.
  intros HD H. assert (A : adv (RtoC x)) by (right; split; [reflexivity|exact H]). assert (V := fcc_avg D (RtoC x) HD A). assert (W := is_bz3_conj _ _ V). apply (is_bz3_ext _ (fun k => 1 / (RtoC D * RtoC x - band3 face_centered (D / 4) k))) in W.
  - assert (U := is_bz3_unique _ _ _ V W). revert U. generalize (Fj 0 (wz (RtoC x)) / (RtoC D * (RtoC x + 1))). intros g U. apply (f_equal snd) in U. cbn in U. lra.
  - intros [[k1 k2] k3]. rewrite fcc_band. unfold Cdiv. rewrite Cconj_mul, <- Cconj_inv. replace (Cconj 1) with (RtoC 1) by (apply C_ext; cbn; ring). do 2 f_equal. apply C_ext; cbn; ring.
Qed.
Section FccMain.
Variables (ellipk : C -> result C) (hb : R).
Hypotheses (HK : computes_K ellipk) (Hb : (0 < hb)%R).
Let D := (hb / 2)%R.
Lemma D_pos : (0 < D)%R. Proof. unfold D. lra. Qed.
Definition fccF (z : C) : C := Fj 0 (wz (Cconj z)) / (RtoC D * (Cconj z + 1)).
Lemma fcc_val_up (z : C) : (0 < snd z)%R -> fcc_gf_z ellipk_above z hb = Ok (Cconj (fccF (z / RtoC D))).
Proof.
  intros Hz. assert (P := D_pos). unfold fcc_gf_z. fold D. rewrite rdiv_ok by lra. cbn [bind]. cbv zeta. assert (E : RtoC (1 / D) * z = z / RtoC D) by (rewrite RtoC_div by lra; field; apply RtoC_neq0; lra). rewrite E.
  assert (U : (0 < snd (z / RtoC D)%C)%R) by (rewrite div_real by lra; cbn; apply Rdiv_lt_0_compat; assumption). destruct (Rlt_dec 0 (snd (z / RtoC D)%C)) as [_|X]; [|contradiction].
  rewrite (fcc_core_above ellipk_above _ D ellipk_above_K ellipk_above_cut); [reflexivity| |exact P]. left. revert U. generalize (z / RtoC D). intros w U. cbn. lra.
Qed.
Lemma out_lim (x : R) : (x < - (1) \/ 3 < x)%R -> ulim x fccF (fccF (RtoC x)).
Proof.
  intros Hx. assert (P := D_pos). assert (NZ : RtoC D <> 0) by (apply RtoC_neq0; lra). assert (A : adv (RtoC x)) by (right; split; [reflexivity|exact Hx]). assert (N := adv_neq _ A). unfold fccF. rewrite Cconj_R.
  assert (CJ : ulim x (fun z => Cconj z + 1) (RtoC x + 1)) by (apply ulim_add; [rewrite <- Cconj_R; apply ulim_conj, ulim_id|apply ulim_const]).
  apply ulim_mul; [|apply ulim_inv; [apply ulim_mul; [apply ulim_const|exact CJ]|apply Cmult_neq_0; assumption]].
  apply (ulim_cont x (fun z => wz (Cconj z)) (wz (RtoC x)) (Fj 0)); [|apply (holo_ccat offK); [apply Fj_holo|apply wz_off, A]]. unfold wz. apply ulim_mul; [apply ulim_const|]. apply ulim_inv; [exact CJ|exact N].
Qed.
Lemma fcc_bd e : e <> (- (1 / 2) * hb)%R -> e <> (3 / 2 * hb)%R -> (e = 1 / 2 * hb -> cut_from_above ellipk \/ cut_from_below ellipk)%R ->
  exists g, boundary (fcc_gf_z ellipk_above) e hb g /\ fcc_dos ellipk e hb = Ok (- snd g / PI)%R.
Proof.
  intros N1 N2 HC. assert (P := D_pos). assert (HP := PI_RGT_0). set (x := (e / D)%R). assert (Ex : e = (D * x)%R) by (unfold x; field; lra). assert (NZ : RtoC D <> 0) by (apply RtoC_neq0; lra).
  assert (BD : forall g, ulim x fccF g -> boundary (fcc_gf_z ellipk_above) e hb (Cconj g)).
  { intros g L. apply (bd_ulim _ (fun w => Cconj (fccF (w / RtoC D)))); [|apply uev_true; exact fcc_val_up]. apply ulim_conj. rewrite Ex. apply (ulim_scale x D fccF); assumption. }
  unfold fcc_dos. destruct (Req_EM_T e (- (1 / 2) * hb)) as [X|_]; [contradiction|]. destruct (Rlt_dec (- (1 / 2) * hb - e) 0) as [L1|L1].
  2:{ rewrite (cneg_ge (- (1 / 2) * hb - e)) by lra. cbn [andb]. assert (Hx : (x < - (1) \/ 3 < x)%R) by (left; unfold D in *; nra). exists (Cconj (fccF (RtoC x))). split.
    - apply BD, out_lim, Hx.
    - f_equal. assert (Z := Fj_real D x P Hx). unfold fccF. rewrite Cconj_R. revert Z. generalize (Fj 0 (wz (RtoC x)) / (RtoC D * (RtoC x + 1))). intros q Z. cbn. rewrite Z. field. lra. }
  rewrite cneg_lt by exact L1. destruct (Rlt_dec (e - 3 / 2 * hb) 0) as [L2|L2].
  2:{ rewrite (cneg_ge (e - 3 / 2 * hb)) by lra. cbn [andb]. assert (Hx : (x < - (1) \/ 3 < x)%R) by (right; unfold D in *; nra). exists (Cconj (fccF (RtoC x))). split.
    - apply BD, out_lim, Hx.
    - f_equal. assert (Z := Fj_real D x P Hx). unfold fccF. rewrite Cconj_R. revert Z. generalize (Fj 0 (wz (RtoC x)) / (RtoC D * (RtoC x + 1))). intros q Z. cbn. rewrite Z. field. lra. }
  rewrite cneg_lt by exact L2. cbn [andb]. assert (Hx : (- (1) < x < 3)%R) by (unfold D in *; split; nra). assert (LG := g_lim D x P Hx). fold (fccF) in LG. assert (LG' : ulim x fccF (gband D x)) by exact LG. exists (Cconj (gband D x)). split; [apply BD, LG'|].
  assert (HC' : x = 1%R -> cut_from_above ellipk \/ cut_from_below ellipk) by (intros X; apply HC; rewrite Ex, X; unfold D; field).
  destruct (core_band D x P Hx ellipk HK HC') as (G & EG & IG). unfold fcc_gf_z. fold D. rewrite rdiv_ok by lra. cbn [bind]. cbv zeta. assert (E : RtoC (1 / D) * RtoC e = RtoC x) by (rewrite <- RtoC_mult; f_equal; unfold x; field; lra). rewrite E. cbn [snd RtoC]. destruct (Rlt_dec 0 0) as [X|_]; [lra|]. change (x, 0%R) with (RtoC x). rewrite EG. cbn [bind]. f_equal.
  assert (NP : (snd (Cconj (gband D x)) <= 0)%R).
  { apply (ulim_nonpos x (fun w => Cconj (fccF w))); [apply ulim_conj, LG'|]. apply uev_true. intros w Hw. assert (A : adv (Cconj w)) by (left; cbn; lra). assert (V := is_bz3_conj _ _ (fcc_avg D (Cconj w) P A)). fold (fccF w) in V.
    apply (avg3_neg (fun k => let '(k1, k2, k3) := k in (4 * (D / 4) * (cos k1 * cos k2 + cos k2 * cos k3 + cos k3 * cos k1))%R) (RtoC D * w)); [destruct w; cbn in *; rewrite Rmult_0_l, Rplus_0_r; apply Rmult_lt_0_compat; assumption|].
    revert V. apply is_bz3_ext. intros [[k1 k2] k3]. rewrite fcc_band. unfold Cdiv. rewrite Cconj_mul, <- Cconj_inv. replace (Cconj 1) with (RtoC 1) by (apply C_ext; cbn; ring). do 2 f_equal. apply C_ext; cbn; ring. }
  rewrite Rabs_mult, IG, Rabs_pos_eq by (apply Rlt_le, Rdiv_lt_0_compat; lra). revert NP. generalize (gband D x). intros g NP. cbn in *. rewrite Rabs_pos_eq by lra. field. lra.
Qed.
End FccMain.
