(** * Boundary values of the Green's functions of the body-centred and the simple cubic lattice *)
From Coq Require Import Reals Lra Lia List.
From Coquelicot Require Import Coquelicot.
From Verif Require Import Base CBase CExp CSqrt Lattice_Model Bethe_Proofs Bethe_Main LatMom_Spec LatDer_Spec LatDer_Model LatDer_Dos LatEll_Model LatEll_Dos LatSym_Proofs LatInt_Spec LatInt_Legendre LatInt_Local LatInt_Square CAnal CHol CEll CHolo LatBz_Spec LatRect_Main LatTri_Main LatBcc_Main LatTri_Proofs LatSc_Proofs LatSc_Red LatSc_Y LatSc_Main LatFcc_Main LatCut_Proofs LatSpf_Spec LatSpf_Proofs.
Local Open Scope C_scope.

Lemma elliptic_like_K ellipk : computes_K ellipk -> elliptic_like ellipk.
Proof.
  intros HK m Hm. exists (Kf m). split; [apply (ellipk_ok ellipk HK), Hm|]. split.
  - rewrite <- Kf_conj by exact Hm. apply (ellipk_ok ellipk HK). destruct Hm; [left|right]; cbn; lra.
  - intros t Ht. destruct (offK_open m Hm) as (r1 & R1 & O). destruct (proj1 (ccat_eps Kf m) (ccat_Kf m Hm) t Ht) as (r2 & R2 & B). exists (Rmin r1 r2). split; [now apply Rmin_glb_lt|]. intros w Hw. assert (M1 := Rmin_l r1 r2). assert (M2 := Rmin_r r1 r2).
    exists (Kf w). split; [apply (ellipk_ok ellipk HK), O; lra|apply B; lra].
Qed.
Lemma csqrt_if (a : R) : (if Rlt_dec 0 a then RtoC (sqrt a) else Ci * RtoC (sqrt (- a))) = csqrt (RtoC a).
Proof.
  destruct (Rlt_dec 0 a) as [H|H]; [rewrite csqrt_R by lra; reflexivity|]. replace a with (- - a)%R at 2 by ring. rewrite csqrt_neg by lra. apply C_ext; cbn; ring.
Qed.
Lemma ulim_root x f a : ulim x f (RtoC a) -> uev x (fun w => (0 < snd (f w))%R) -> ulim x (fun w => csqrt (f w)) (csqrt (RtoC a)).
Proof. intros A B. rewrite <- csqrt_if. now apply ulim_csqrt. Qed.
Definition scval (z w : C) : C := (1 - 9 * (scx w * scx w * (scx w * scx w))) * (RtoC (2 / PI) * Kf (mq (scx w)) * (RtoC (2 / PI) * Kf (mq (scx w)))) * / Pq (scx w) / z.
Lemma sc_core_val ellipk (z w : C) : computes_K ellipk -> z <> 0 -> 9 / (z * z) = w -> offcut (1 + scB w) -> Wx (scx w) -> sc_core ellipk z = Ok (scval z w).
Proof.
  intros HK NZ E O W. unfold sc_core. rewrite cdiv_ok by (apply Cmult_neq_0; exact NZ). cbn [bind]. assert (E1 : 1 / (z * z) = RtoC (1 / 9) * w). { rewrite <- E. snum. ffin. } assert (E9 : 9 * (RtoC (1 / 9) * w) = w) by (snum; ffin).
  rewrite E1, E9. fold (scA w) (scB w). rewrite cdiv_ok by (apply offcut_csqrt, O). cbn [bind]. fold (scx w). fold (Pq (scx w)). assert (NP := Wx_P _ W). rewrite cdiv_ok by exact NP. cbn [bind].
  replace (1 / Pq (scx w)) with (/ Pq (scx w)) by (field; exact NP). fold (mq (scx w)). rewrite (ellipk_ok ellipk HK) by (apply Wx_m, W). cbn [bind]. rewrite cdiv_ok by exact NZ. reflexivity.
Qed.
(** ** the parameter on the band *)
Lemma scB_R (u : R) : (1 < u)%R -> scB (RtoC u) = (0%R, sqrt (u - 1)).
Proof. intros H. unfold scB. replace (1 - RtoC u) with (RtoC (- (u - 1))) by (rewrite RtoC_1m; f_equal; ring). apply csqrt_neg. lra. Qed.
Lemma scB_off (u : R) : offcut (1 + scB (RtoC u)).
Proof. right. assert (X := csqrt_re_nonneg (1 - RtoC u)). fold (scB (RtoC u)) in X. destruct (scB (RtoC u)). cbn in *. lra. Qed.
Lemma scA_lo (u : R) : (u <= 9)%R -> scA (RtoC u) = RtoC (sqrt (1 - 1 / 9 * u)).
Proof. intros H. unfold scA. replace (1 - RtoC (1 / 9) * RtoC u) with (RtoC (1 - 1 / 9 * u)) by (rewrite <- RtoC_mult, RtoC_1m; reflexivity). apply csqrt_R. lra. Qed.
Lemma scA_hi (u : R) : (9 <= u)%R -> scA (RtoC u) = (0%R, sqrt (1 / 9 * u - 1)).
Proof. intros H. unfold scA. replace (1 - RtoC (1 / 9) * RtoC u) with (RtoC (- (1 / 9 * u - 1))) by (rewrite <- RtoC_mult, RtoC_1m; f_equal; ring). apply csqrt_neg. lra. Qed.
Lemma scA_offc (u : R) : (0 < u)%R -> offcut (1 - scA (RtoC u)).
Proof.
  intros H. right. destruct (Rle_dec u 9) as [L|L]; [rewrite scA_lo by exact L|rewrite scA_hi by lra]; cbn; [|lra]. assert (S := sqrt_pos (1 - 1 / 9 * u)). assert (S2 : (sqrt (1 - 1 / 9 * u) * sqrt (1 - 1 / 9 * u) = 1 - 1 / 9 * u)%R) by (apply sqrt_sqrt; lra). nra.
Qed.
Lemma scx_sq2 (u : R) : scx (RtoC u) * scx (RtoC u) = (1 - scA (RtoC u)) / (1 + scB (RtoC u)).
Proof. assert (N := offcut_csqrt _ (scB_off u)). unfold scx. transitivity ((csqrt (1 - scA (RtoC u)) * csqrt (1 - scA (RtoC u))) / (csqrt (1 + scB (RtoC u)) * csqrt (1 + scB (RtoC u)))); [field; exact N|now rewrite !csqrt_sqr]. Qed.
Lemma Wx_band (u : R) : (1 < u)%R -> Wx (scx (RtoC u)).
Proof.
  intros H. assert (NB := offcut_neq0 _ (scB_off u)). assert (E := scx_sq2 u). rewrite scB_R in E, NB by exact H. set (b := sqrt (u - 1)) in *. assert (B0 : (0 < b)%R) by (apply sqrt_lt_R0; lra). assert (B2 : (b * b = u - 1)%R) by (apply sqrt_sqrt; lra).
  assert (Q : exists p q, scA (RtoC u) = (p, q) /\ (0 <= p < 1)%R /\ (0 <= q)%R /\ (p * q = 0)%R /\ ((1 - p) * (1 - p) + q * q <= u / 9)%R).
  { destruct (Rle_dec u 9) as [L|L].
    - rewrite scA_lo by exact L. set (a := sqrt (1 - 1 / 9 * u)). assert (A0 : (0 <= a)%R) by apply sqrt_pos. assert (A2 : (a * a = 1 - 1 / 9 * u)%R) by (apply sqrt_sqrt; lra). exists a, 0%R. split; [reflexivity|]. assert (a < 1)%R by nra. assert (0 <= (1 - a) * a)%R by (apply Rmult_le_pos; lra). repeat split; lra.
    - rewrite scA_hi by lra. set (a := sqrt (1 / 9 * u - 1)). assert (A0 : (0 <= a)%R) by apply sqrt_pos. assert (A2 : (a * a = 1 / 9 * u - 1)%R) by (apply sqrt_sqrt; lra). exists 0%R, a. split; [reflexivity|]. repeat split; try lra. }
  destruct Q as (p & q & EA & Hp & Hq & PQ & N). rewrite EA in E. set (x := scx (RtoC u)) in *. assert (E' : x * x * (1 + (0%R, b)) = 1 - (p, q)) by (rewrite E; field; exact NB). assert (M := f_equal Cmod E'). rewrite !Cmod_mult in M.
  assert (M2 : ((Cmod x * Cmod x) * (Cmod x * Cmod x) * u = (1 - p) * (1 - p) + q * q)%R).
  { transitivity (Cmod (1 - (p, q))%C * Cmod (1 - (p, q))%C)%R; [rewrite <- M|rewrite Cmod_sqr; cbn; ring]. transitivity (Cmod x * Cmod x * (Cmod x * Cmod x) * (Cmod (1 + (0%R, b))%C * Cmod (1 + (0%R, b))%C))%R; [|ring]. rewrite (Cmod_sqr (1 + (0%R, b))). f_equal. cbn. lra. }
  split.
  - unfold disc. replace (x - 0) with x by ring. assert (C0 := Cmod_ge_0 x). destruct (Rlt_dec (Cmod x) 1) as [|G]; [assumption|exfalso]. assert (1 <= Cmod x * Cmod x)%R by nra. assert (1 <= Cmod x * Cmod x * (Cmod x * Cmod x))%R by nra. nra.
  - left. intros Z. assert (Z' : snd (x * x) = 0%R). { revert Z. generalize (x * x). intros y Z. cbn in Z. lra. } revert E' Z'. generalize (x * x). intros [c d] E' Z'. cbn in Z'. subst d. assert (E1 := f_equal fst E'). assert (E2 := f_equal snd E'). cbn in E1, E2. assert (c = 1 - p)%R by lra. subst c. assert ((1 - p) * b = - q)%R by lra. assert (0 < (1 - p) * b)%R by (apply Rmult_lt_0_compat; lra). lra.
Qed.
Lemma Wx_le (u : R) : (u <= 1)%R -> Wx (scx (RtoC u)).
Proof.
  intros H. destruct (Rlt_dec u 1) as [L|L]; [apply scx_W; right; exact L|]. assert (u = 1%R) by lra. subst u. clear. assert (E := scx_sq2 1). assert (EB : scB (RtoC 1) = 0). { unfold scB. replace (1 - RtoC 1) with (RtoC 0) by ring. rewrite csqrt_R by lra. now rewrite sqrt_0. }
  rewrite EB, scA_lo in E by lra. set (a := sqrt (1 - 1 / 9 * 1)) in *. assert (A0 : (0 <= a)%R) by apply sqrt_pos. assert (A2 : (a * a = 1 - 1 / 9 * 1)%R) by (apply sqrt_sqrt; lra). set (x := scx (RtoC 1)) in *.
  assert (E' : x * x = RtoC (1 - a)) by (rewrite E, <- RtoC_1m; field; apply fst_neq0; cbn; lra). assert (A9 : (8 / 9 < a < 1)%R) by nra. split.
  - unfold disc. replace (x - 0) with x by ring. assert (C0 := Cmod_ge_0 x). assert (M := f_equal Cmod E'). rewrite Cmod_mult, Cmod_R, Rabs_pos_eq in M by lra. nra.
  - right. rewrite E'. cbn. lra.
Qed.
Lemma Wx_all (u : R) : Wx (scx (RtoC u)). Proof. destruct (Rlt_dec 1 u) as [H|H]; [now apply Wx_band|apply Wx_le; lra]. Qed.
(** above the band everything is real *)
Lemma sc_real (z u : R) : (0 < u <= 1)%R -> z <> 0%R -> snd (scval (RtoC z) (RtoC u)) = 0%R.
Proof.
  intros H Hz. assert (W := Wx_le u (proj2 H)). assert (X : exists x, scx (RtoC u) = RtoC x).
  { unfold scx. assert (O := scA_offc u (proj1 H)). rewrite scA_lo in * by lra. assert (EB : scB (RtoC u) = RtoC (sqrt (1 - u))) by (unfold scB; rewrite RtoC_1m; apply csqrt_R; lra). rewrite EB. assert (S := sqrt_pos (1 - u)). destruct O as [O|O]; [cbn in O; lra|]. cbn in O.
    rewrite RtoC_1m, <- RtoC_plus, !csqrt_R by lra. assert (0 < sqrt (1 + sqrt (1 - u)))%R by (apply sqrt_lt_R0; lra). eexists. symmetry. apply RtoC_div. lra. }
  destruct X as (x & X). unfold scval. assert (NP := Wx_P _ W). assert (O := Wx_m _ W). rewrite X in *. assert (EP : Pq (RtoC x) = RtoC ((1 - x) * (1 - x) * (1 - x) * (1 + 3 * x))) by (unfold Pq; now rewrite !RtoC_mult, !RtoC_minus, RtoC_plus, RtoC_mult).
  set (p := ((1 - x) * (1 - x) * (1 - x) * (1 + 3 * x))%R) in *. assert (Np : p <> 0%R) by (intros Z; apply NP; rewrite EP, Z; reflexivity). assert (Em : mq (RtoC x) = RtoC (16 * (x * x * x) * / p)) by (unfold mq; rewrite EP, <- RtoC_inv, <- !RtoC_mult by exact Np; reflexivity). rewrite Em, EP in *.
  set (m := (16 * (x * x * x) * / p)%R) in *. assert (Hm : (m < 1)%R) by (destruct O as [O|O]; cbn in O; lra). rewrite (Kf_R m Hm). generalize (fst (Kf (RtoC m))). intros k.
  rewrite <- RtoC_inv by exact Np. unfold Cdiv. rewrite <- RtoC_inv by exact Hz. rewrite <- !RtoC_mult, RtoC_1m, <- !RtoC_mult. reflexivity.
Qed.
Section Sc.
Variables (ellipk : C -> result C) (D e : R).
Hypotheses (HK : computes_K ellipk) (HD : (0 < D)%R) (He : (0 < e)%R).
Let d := (3 / D)%R.
Let w0 := (D / e * (D / e))%R.
Let W (z : C) : C := RtoC D / z * (RtoC D / z).
Lemma dpos : (0 < d)%R. Proof. apply Rdiv_lt_0_compat; lra. Qed.
Lemma w0pos : (0 < w0)%R. Proof. assert (0 < D / e)%R by (apply Rdiv_lt_0_compat; lra). unfold w0. nra. Qed.
Lemma W_lim : ulim e W (RtoC w0).
Proof. unfold W, w0. rewrite RtoC_mult, RtoC_div by lra. apply ulim_mul; (apply ulim_mul; [apply ulim_const|]; apply ulim_inv; [apply ulim_id|apply RtoC_neq0; lra]). Qed.
Lemma W_low : uev e (fun z => (snd (W z) < 0)%R).
Proof. generalize (sgn_ev e (Rgt_not_eq _ _ He)). apply uev_imp. intros z Hz S. destruct (rr2_im D HD z Hz) as (c & Hc & E). unfold W. rewrite E. assert (0 < fst z)%R by nra. nra. Qed.
Lemma A_lim : ulim e (fun z => scA (W z)) (scA (RtoC w0)).
Proof.
  unfold scA. rewrite <- RtoC_mult, RtoC_1m. apply ulim_root.
  - rewrite <- RtoC_1m, RtoC_mult. apply (ulim_cont e W (RtoC w0) (fun w => 1 - RtoC (1 / 9) * w) W_lim). apply ccat_minus; [apply ccat_const|apply ccat_mult; [apply ccat_const|apply ccat_id]].
  - generalize W_low. apply uev_imp. intros z _ H. destruct (W z). cbn in *. lra.
Qed.
Lemma B_lim : ulim e (fun z => scB (W z)) (scB (RtoC w0)).
Proof.
  unfold scB. rewrite RtoC_1m. apply ulim_root.
  - rewrite <- RtoC_1m. apply (ulim_cont e W (RtoC w0) (fun w => 1 - w) W_lim). apply ccat_minus; [apply ccat_const|apply ccat_id].
  - generalize W_low. apply uev_imp. intros z _ H. destruct (W z). cbn in *. lra.
Qed.
Lemma x_lim : ulim e (fun z => scx (W z)) (scx (RtoC w0)).
Proof.
  unfold scx. apply ulim_mul.
  - apply (ulim_cont e (fun z => scA (W z)) (scA (RtoC w0)) (fun a => csqrt (1 - a)) A_lim). apply (ccat_comp csqrt (fun a => 1 - a)); [apply ccat_csqrt, scA_offc, w0pos|apply ccat_minus; [apply ccat_const|apply ccat_id]].
  - apply ulim_inv; [|apply offcut_csqrt, scB_off]. apply (ulim_cont e (fun z => scB (W z)) (scB (RtoC w0)) (fun a => csqrt (1 + a)) B_lim). apply (ccat_comp csqrt (fun a => 1 + a)); [apply ccat_csqrt, scB_off|apply ccat_plus; [apply ccat_const|apply ccat_id]].
Qed.
Lemma ccat_Pq x : ccat Pq x.
Proof. unfold Pq. assert (A : ccat (fun x => 1 - x) x) by (apply ccat_minus; [apply ccat_const|apply ccat_id]). apply (ccat_mult (fun x => (1 - x) * (1 - x) * (1 - x))); [|apply ccat_plus; [apply ccat_const|apply ccat_mult; [apply ccat_const|apply ccat_id]]]. apply (ccat_mult (fun x => (1 - x) * (1 - x))); [|exact A]. apply ccat_mult; exact A. Qed.
Lemma val_lim : ulim e (fun z => scval (RtoC d * z) (W z)) (scval (RtoC (d * e)) (RtoC w0)).
Proof.
  assert (WX := Wx_all w0). assert (X := x_lim). assert (NP := Wx_P _ WX). assert (P := dpos).
  assert (LP : ulim e (fun z => / Pq (scx (W z))) (/ Pq (scx (RtoC w0)))) by (apply ulim_inv; [exact (ulim_cont e _ _ Pq X (ccat_Pq _))|exact NP]).
  assert (L2 : ulim e (fun z => scx (W z) * scx (W z)) (scx (RtoC w0) * scx (RtoC w0))) by (apply ulim_mul; exact X).
  assert (LM : ulim e (fun z => mq (scx (W z))) (mq (scx (RtoC w0)))) by (unfold mq; apply ulim_mul; [apply ulim_mul; [apply ulim_const|apply ulim_mul; [exact L2|exact X]]|exact LP]).
  assert (LK : ulim e (fun z => RtoC (2 / PI) * Kf (mq (scx (W z)))) (RtoC (2 / PI) * Kf (mq (scx (RtoC w0))))) by (apply ulim_mul; [apply ulim_const|exact (ulim_cont e _ _ Kf LM (ccat_Kf _ (Wx_m _ WX)))]).
  unfold scval. apply ulim_mul.
  - apply ulim_mul; [|exact LP]. apply ulim_mul; [|apply ulim_mul; exact LK].
    apply (ulim_cont e (fun z => scx (W z) * scx (W z) * (scx (W z) * scx (W z))) (scx (RtoC w0) * scx (RtoC w0) * (scx (RtoC w0) * scx (RtoC w0))) (fun q => 1 - 9 * q)); [apply ulim_mul; exact L2|]. apply ccat_minus; [apply ccat_const|apply ccat_mult; [apply ccat_const|apply ccat_id]].
  - rewrite RtoC_mult. apply ulim_inv; [apply ulim_mul; [apply ulim_const|apply ulim_id]|]. rewrite <- RtoC_mult. apply RtoC_neq0, Rgt_not_eq, Rmult_lt_0_compat; assumption.
Qed.
Lemma W_eq (z : C) : z <> 0 -> 9 / (RtoC d * z * (RtoC d * z)) = W z.
Proof. intros N. unfold W, d. rewrite (RtoC_div 3 D) by lra. assert (RtoC D <> 0) by (apply RtoC_neq0; lra). snum. ffin. Qed.
Lemma sc_up (z : C) : (0 < snd z)%R -> sc_gf_z ellipk z D = Ok (RtoC d * scval (RtoC d * z) (W z)).
Proof.
  intros Hz. assert (N := upper_neq0 z Hz). assert (P := dpos). assert (DC : RtoC d <> 0) by (apply RtoC_neq0; lra). assert (O : offK (W z)) by (apply param_off; [exact HD|left; lra]). unfold sc_gf_z. rewrite rdiv_ok by lra. cbn [bind]. fold d.
  rewrite (sc_core_val ellipk _ (W z) HK); [reflexivity|apply Cmult_neq_0; assumption|apply W_eq, N|apply scB1, O|apply scx_W, O].
Qed.
Lemma sc_bd_pos small : (small <= d * e)%R -> exists g, boundary (sc_gf_z ellipk) e D g /\ sc_dos ellipk small e D = Ok (- snd g / PI)%R.
Proof.
  intros Hs. assert (P := dpos). assert (HP := PI_RGT_0). assert (E0 : (0 < d * e)%R) by (apply Rmult_lt_0_compat; assumption). exists (RtoC d * scval (RtoC (d * e)) (RtoC w0)). split.
  - apply (bd_ulim _ (fun z => RtoC d * scval (RtoC d * z) (W z))); [apply ulim_mul; [apply ulim_const|exact val_lim]|apply uev_true; exact sc_up].
  - unfold sc_dos. rewrite rdiv_ok' by lra. cbn [bind]. fold d. rewrite Rabs_pos_eq by lra. destruct (Rlt_dec (d * e) small) as [X|_]; [lra|]. destruct (Rlt_dec (d * e) 3) as [L|L].
    + rewrite (sc_core_val ellipk _ (RtoC w0) HK); [|apply RtoC_neq0; lra| |apply scB_off|apply Wx_all].
      * cbn [bind]. f_equal. generalize (scval (RtoC (d * e)) (RtoC w0)). intros v. cbn. field. lra.
      * rewrite <- RtoC_mult, <- RtoC_div by nra. f_equal. unfold d, w0. field. lra.
    + cbn [bind]. f_equal. assert (L1 : (0 < w0 <= 1)%R). { split; [exact w0pos|]. assert (A : (D <= e)%R). { assert (B : (d * e = 3 * (e / D))%R) by (unfold d; field; lra). assert (C : (1 <= e / D)%R) by lra. apply (Rmult_le_compat_r D) in C; [|lra]. unfold Rdiv in C. rewrite Rmult_assoc, Rinv_l in C by lra. lra. }
        assert (Q0 : (0 < D / e)%R) by (apply Rdiv_lt_0_compat; lra). assert (Q1 : (D / e <= 1)%R) by (apply (Rmult_le_reg_r e); [lra|]; unfold Rdiv; rewrite Rmult_assoc, Rinv_l by lra; lra). unfold w0. nra. }
      assert (Z := sc_real (d * e) w0 L1 ltac:(lra)). revert Z. generalize (scval (RtoC (d * e)) (RtoC w0)). intros v Z. cbn. rewrite Z. field. lra.
Qed.
End Sc.
Lemma sc_conj_gf ellipk D (z : C) : computes_K ellipk -> (0 < D)%R -> snd z <> 0%R -> sc_gf_z ellipk (Cconj z) D = sconj (sc_gf_z ellipk z D).
Proof.
  intros HK HD Hz. assert (O1 : off_band D z) by (left; exact Hz). assert (O2 : off_band D (Cconj z)) by (left; cbn; lra). destruct (sc_average ellipk D z HK HD O1) as (G & E & A). destruct (sc_average ellipk D _ HK HD O2) as (G' & E' & A'). rewrite E, E'. unfold sconj. cbn [bind]. f_equal.
  apply (is_bz3_unique _ _ _ A'). apply is_bz3_conj in A. revert A. apply is_bz3_ext. intros [[k1 k2] k3]. rewrite sc_band. unfold Cdiv. rewrite Cconj_mul, <- Cconj_inv. replace (Cconj 1) with (RtoC 1) by (apply C_ext; cbn; ring). do 2 f_equal. apply C_ext; cbn; ring.
Qed.
Lemma sc_bd ellipk D e small : computes_K ellipk -> (0 < D)%R -> e <> 0%R -> (small <= 3 / D * Rabs e)%R -> exists g, boundary (sc_gf_z ellipk) e D g /\ sc_dos ellipk small e D = Ok (- snd g / PI)%R.
Proof.
  intros HK HD He Hs. destruct (Rlt_dec 0 e) as [P|N]; [rewrite Rabs_pos_eq in Hs by lra; exact (sc_bd_pos ellipk D e HK HD P small Hs)|]. rewrite Rabs_left in Hs by lra.
  destruct (sc_bd_pos ellipk D (- e) HK HD ltac:(lra) small Hs) as (g & B & E). exists (- Cconj g). split.
  - replace e with (- - e)%R by ring. apply boundary_reflect; [lra|intros z Hz; apply sc_conj_gf; assumption|intros z; apply sc_odd|exact B].
  - rewrite sc_dos_even in E. rewrite E. f_equal. cbn. field. apply PI_neq0.
Qed.
