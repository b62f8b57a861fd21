(** * Simple cubic lattice: the average over the Brillouin zone *)
From Coq Require Import Reals Lra List ZArith.
From Coquelicot Require Import Coquelicot.
From Verif Require Import Base CBase CExp CSqrt Lattice_Model Bethe_Proofs Bethe_Main Fourier_Filon LatMom_Spec LatDer_Spec LatEll_Model LatInt_Spec LatInt_Proofs LatInt_Hilbert LatInt_Fubini LatInt_Square LatInt_Local LatInt_Legendre CAnal CHol CEll CHolo CTheta CTheta2 LatBz_Spec LatRect_Main LatTri_Main LatBcc_Proofs LatBcc_Main CFub LatSc_Red LatSc_Proofs LatSc_L LatSc_Y.
Local Open Scope C_scope.

Definition Wx (x : C) : Prop := disc 0 1 x /\ offK (9 * (x * x)).
Lemma Wx_star : star Wx 0.
Proof.
  intros q s [H1 H2] Hs. replace (0 + RtoC s * (q - 0)) with (RtoC s * q) by ring. split.
  - unfold disc in *. replace (RtoC s * q - 0) with (RtoC s * (q - 0)) by ring. rewrite Cmod_mult, Cmod_R, Rabs_pos_eq by lra. assert (X := Cmod_ge_0 (q - 0)). nra.
  - assert (A := offK_star (9 * (q * q)) (s * s)%R H2 ltac:(nra)). replace (0 + RtoC (s * s) * (9 * (q * q) - 0)) with (9 * (RtoC s * q * (RtoC s * q))) in A by (rewrite RtoC_mult; ring). exact A.
Qed.
Lemma sqr_holo U : holo U (fun x => 9 * (x * x)).
Proof. apply (holo_mult U (fun _ => RtoC 9)); [apply holo_const|]. apply (holo_mult U (fun x => x)); apply holo_id. Qed.
Lemma Wx_open : opn Wx.
Proof.
  intros q [H1 H2]. destruct (disc_open 0 1 q H1) as (r1 & R1 & K1). destruct (offK_open _ H2) as (r & R & K). assert (CC := holo_ccat (fun _ => True) _ q (sqr_holo (fun _ => True)) Logic.I).
  destruct (CC r R) as (r2 & R2 & K2). exists (Rmin r1 r2). split; [apply Rmin_pos; assumption|]. intros v Hv. split.
  - apply K1. eapply Rlt_le_trans; [exact Hv|apply Rmin_l].
  - apply K. assert (X := K2 (v - q) ltac:(eapply Rlt_le_trans; [exact Hv|apply Rmin_r])). replace (q + (v - q)) with v in X by ring. exact X.
Qed.
Lemma Wx_n x : Wx x -> (fst x * fst x + snd x * snd x < 1)%R.
Proof. intros [H _]. unfold disc in H. replace (x - 0) with x in H by ring. assert (A := Cmod_sqr x). assert (B := Cmod_ge_0 x). rewrite <- A. nra. Qed.
Lemma Wx_real a : Wx (RtoC a) -> (9 * (a * a) < 1)%R.
Proof. intros [_ [H|H]]; cbn in H; lra. Qed.
Lemma Wx_P x : Wx x -> Pq x <> 0.
Proof.
  intros H. assert (A := Wx_n x H). unfold Pq. assert (N1 : 1 - x <> 0). { intros E. assert (x = 1) by (replace x with (1 - (1 - x)) by ring; rewrite E; ring). subst x. cbn in A. lra. }
  assert (N3 : 1 + 3 * x <> 0). { intros E. assert (X : x = RtoC (- (1 / 3))). { transitivity (RtoC (1 / 3) * (1 + 3 * x) - RtoC (1 / 3)); [rewrite (RtoC_div 1 3) by lra; snum; ffin|]. rewrite E, RtoC_opp. ring. } subst x. apply Wx_real in H. lra. }
  apply Cmult_neq_0; [apply Cmult_neq_0; [apply Cmult_neq_0|]|]; assumption.
Qed.
(** the elliptic parameter reaches its cut only outside *)
Lemma cut_circle (r : C) (t : R) : (1 <= t)%R -> snd r <> 0%R -> 16 * r = RtoC t * ((r - 1) * (r - 1) * (r - 1) * (r + 3)) -> (fst r * fst r + snd r * snd r <= 1)%R.
Proof.
  intros Ht Hy E. destruct r as [x y]. cbn [fst snd] in *. set (n := (x * x + y * y)%R). set (q := (16 / t)%R). assert (Hq : (0 < q <= 16)%R). { split; [apply Rdiv_lt_0_compat; lra|]. unfold q. apply Rmult_le_reg_r with t; [lra|]. replace (16 / t * t)%R with 16%R by (field; lra). lra. } assert (Q : (q * t = 16)%R) by (unfold q; field; lra).
  assert (N0 : (0 < n)%R) by (unfold n; nra).
  assert (E1 := f_equal fst E). assert (E2 := f_equal snd E). cbn in E1, E2. clear E.
  (* divide by t *)
  assert (F1 : (q * x = x * x * (x * x) - 6 * (x * x) * (y * y) + y * y * (y * y) - 6 * (x * x - y * y) + 8 * x - 3)%R). { apply Rmult_eq_reg_l with t; [|lra]. replace (t * (q * x))%R with (q * t * x)%R by ring. rewrite Q. lra. }
  assert (F2 : (q * y = 4 * (x * x * x) * y - 4 * x * (y * y * y) - 12 * x * y + 8 * y)%R). { apply Rmult_eq_reg_l with t; [|lra]. replace (t * (q * y))%R with (q * t * y)%R by ring. rewrite Q. lra. }
  assert (G2 : (4 * (x * x) * n = n * n + 6 * n - 3)%R). { apply Rmult_eq_reg_l with y; [|exact Hy]. assert (X : (x * (q * y) - y * (q * x) = 0)%R) by ring. rewrite F1, F2 in X. unfold n. lra. }
  assert (G1 : ((8 - q) * n = x * (2 * (n * n) + 6))%R). { assert (X : (x * (q * x) + y * (q * y) = q * n)%R) by (unfold n; ring). rewrite F1, F2 in X. replace (x * (2 * (n * n) + 6))%R with (x * (3 * (n * n) + 6 * n + 3 - (n * n + 6 * n - 3)))%R by ring. rewrite <- G2. unfold n in *. lra. }
  assert (S : ((8 - q) * (8 - q) * (n * n * n) = (n * n + 6 * n - 3) * ((n * n + 3) * (n * n + 3)))%R). { rewrite <- G2. replace ((8 - q) * (8 - q) * (n * n * n))%R with ((8 - q) * n * ((8 - q) * n) * n)%R by ring. rewrite G1. ring. }
  assert (L : ((8 - q) * (8 - q) <= 64)%R) by nra. assert (N3 : (0 < n * n * n)%R) by (apply Rmult_lt_0_compat; [apply Rmult_lt_0_compat|]; exact N0).
  assert (T : ((n * n + 2 * n - 3) * ((n * n + 2 * n - 3) * (n * n + 2 * n - 3)) <= 0)%R). { replace ((n * n + 2 * n - 3) * ((n * n + 2 * n - 3) * (n * n + 2 * n - 3)))%R with ((n * n + 6 * n - 3) * ((n * n + 3) * (n * n + 3)) - 64 * (n * n * n))%R by ring. rewrite <- S. nra. }
  destruct (Rle_dec n 1) as [|G]; [assumption|exfalso]. apply Rnot_le_lt in G. assert (P : (0 < n * n + 2 * n - 3)%R) by nra. assert (0 < (n * n + 2 * n - 3) * ((n * n + 2 * n - 3) * (n * n + 2 * n - 3)))%R by (repeat apply Rmult_lt_0_compat; exact P). lra.
Qed.
Lemma Wx_m x : Wx x -> offK (mq x).
Proof.
  intros H. assert (NP := Wx_P x H). assert (A := Wx_n x H). destruct (Req_dec (snd x) 0) as [Z|Z].
  - destruct x as [a b]. cbn in Z. subst b. change (a, 0%R) with (RtoC a) in *. apply Wx_real in H. assert (A1 : (- 1 / 3 < a < 1 / 3)%R) by (split; nra).
    assert (EP : Pq (RtoC a) = RtoC ((1 - a) * (1 - a) * (1 - a) * (1 + 3 * a))) by (unfold Pq; now rewrite !RtoC_mult, !RtoC_minus, RtoC_plus, RtoC_mult). assert (P0 : (0 < (1 - a) * (1 - a) * (1 - a) * (1 + 3 * a))%R) by (repeat apply Rmult_lt_0_compat; lra).
    unfold mq. rewrite EP, <- RtoC_inv by lra. rewrite <- !RtoC_mult. right. cbn [fst RtoC]. set (p := ((1 - a) * (1 - a) * (1 - a) * (1 + 3 * a))%R) in *. apply Rmult_lt_reg_r with p; [exact P0|]. rewrite Rmult_assoc, Rinv_l by lra. assert (0 < (1 + a) * (1 + a) * (1 + a) * (1 - 3 * a))%R by (repeat apply Rmult_lt_0_compat; lra). unfold p. lra.
  - destruct (Req_dec (snd (mq x)) 0) as [Zm|]; [|now left]. right. destruct (Rlt_dec (fst (mq x)) 1) as [|G]; [assumption|exfalso]. apply Rnot_lt_le in G. assert (NX : x <> 0) by (intros ->; cbn in Z; lra).
    assert (Em : mq x = RtoC (fst (mq x))) by (apply C_ext; [reflexivity|exact Zm]). set (t := fst (mq x)) in *. assert (E : 16 * / x = RtoC t * ((/ x - 1) * (/ x - 1) * (/ x - 1) * (/ x + 3))).
    { rewrite <- Em. unfold mq. replace ((/ x - 1) * (/ x - 1) * (/ x - 1) * (/ x + 3)) with (Pq x / (x * x * (x * x))) by (unfold Pq; field; exact NX). field. split; assumption. }
    set (n := (fst x * fst x + snd x * snd x)%R) in *. assert (N0 : (0 < n)%R) by (unfold n; nra). assert (NI : (fst (Cinv x) * fst (Cinv x) + snd (Cinv x) * snd (Cinv x) = / n)%R). { rewrite <- !Cmod_sqr, Cmod_inv by exact NX. unfold n. rewrite <- Cmod_sqr. field. intros Y. apply NX, Cmod_eq_0, Y. }
    assert (S0 : snd (Cinv x) <> 0%R). { intros Y. assert (X : / x = RtoC (fst (Cinv x))) by (apply C_ext; [reflexivity|exact Y]). assert (X2 : x * RtoC (fst (Cinv x)) = 1) by (rewrite <- X; field; exact NX). clear - Z X2. revert X2. generalize (fst (Cinv x)). intros f X2. assert (F := f_equal snd X2). cbn in F. assert (F1 := f_equal fst X2). cbn in F1. assert (F2 : (snd x * f = 0)%R) by lra. assert (fst x * f = 1)%R by lra. destruct (Rmult_integral _ _ F2) as [|F3]; [contradiction|]. rewrite F3 in *. lra. }
    assert (L := cut_circle _ t G S0 E). rewrite NI in L. assert (1 < / n)%R by (apply Rmult_lt_reg_r with n; [lra|]; rewrite Rinv_l by lra; lra). lra.
Qed.
(** ** the squared elliptic integral on the whole domain *)
Lemma Hn_W x : Wx x -> Hn (9 * (x * x)) * Hn (9 * (x * x)) * Pq x = RtoC (2 / PI) * Kf (mq x) * (RtoC (2 / PI) * Kf (mq x)).
Proof.
  assert (W0 : Wx 0). { split; [unfold disc; replace (0 - 0 : C) with (RtoC 0) by ring; rewrite Cmod_0; lra|right; cbn; lra]. }
  assert (S : forall a, holo Wx (fun x => a - x)) by (intros a; apply holo_minus; [apply holo_const|apply holo_id]). assert (HP : holo Wx Pq).
  { unfold Pq. assert (S3 : holo Wx (fun x => 1 + 3 * x)) by (apply (holo_plus Wx (fun _ => RtoC 1)); [apply holo_const|apply (holo_mult Wx (fun _ => RtoC 3)); [apply holo_const|apply holo_id]]). apply (holo_mult Wx (fun x => (1 - x) * (1 - x) * (1 - x))); [|exact S3]. apply (holo_mult Wx (fun x => (1 - x) * (1 - x))); [|apply S]. apply (holo_mult Wx (fun x => 1 - x)); apply S. }
  assert (Hm : holo Wx mq). { unfold mq. apply (holo_mult Wx (fun x => 16 * (x * x * x))); [|apply holo_inv; [exact HP|exact Wx_P]]. apply (holo_mult Wx (fun _ => RtoC 16)); [apply holo_const|]. apply (holo_mult Wx (fun x => x * x)); [apply (holo_mult Wx (fun x => x))|]; apply holo_id. }
  assert (HK : holo Wx (fun x => RtoC (2 / PI) * Kf (mq x))) by (apply (holo_mult Wx (fun _ => RtoC (2 / PI))); [apply holo_const|apply holo_Kf; [exact Hm|exact Wx_m]]).
  assert (HH : holo Wx (fun x => Hn (9 * (x * x)))) by (apply (holo_comp Wx offK Hn); [eexists; apply Hn_hol|apply sqr_holo|intros w Hw; apply Hw]).
  apply (identity2 Wx (fun x => Hn (9 * (x * x)) * Hn (9 * (x * x)) * Pq x) (fun x => RtoC (2 / PI) * Kf (mq x) * (RtoC (2 / PI) * Kf (mq x))) 0 Wx_open Wx_star W0).
  - apply (holo_mult Wx (fun x => Hn (9 * (x * x)) * Hn (9 * (x * x)))); [|exact HP]. apply (holo_mult Wx (fun x => Hn (9 * (x * x)))); exact HH.
  - apply (holo_mult Wx (fun x => RtoC (2 / PI) * Kf (mq x))); exact HK.
  - intros e He. exists (RtoC (Rmin (e / 2) (1 / 8))). assert (M1 := Rmin_l (e / 2) (1 / 8)). assert (M2 := Rmin_r (e / 2) (1 / 8)). assert (M3 : (0 < Rmin (e / 2) (1 / 8))%R) by (apply Rmin_pos; lra). set (q := Rmin (e / 2) (1 / 8)) in *. split.
    + replace (RtoC q - 0) with (RtoC q) by ring. rewrite Cmod_R, Rabs_pos_eq by lra. lra.
    + rewrite Hn_real by lra. assert (Q : sq (RtoC q) * sq (RtoC q) * Pq (RtoC q) = 1).
      { assert (O1 : offcut (1 - RtoC q)) by (right; cbn; lra). assert (O3 : offcut (1 + 3 * RtoC q)) by (right; cbn; lra). assert (N1 := offcut_csqrt _ O1). assert (N3 := offcut_csqrt _ O3). assert (S1 := csqrt_sqr (1 - RtoC q)). assert (S3 := csqrt_sqr (1 + 3 * RtoC q)). unfold sq, Pq. set (a := csqrt (1 - RtoC q)) in *. set (b := csqrt (1 + 3 * RtoC q)) in *. clearbody a b. rewrite <- S1, <- S3. field. split; assumption. }
      set (k := RtoC (2 / PI) * Kf (mq (RtoC q))). set (s := sq (RtoC q)) in *. replace (RtoC (2 / PI) * (s * Kf (mq (RtoC q)))) with (s * k) by (unfold k; ring). transitivity (k * k * (s * s * Pq (RtoC q)) - k * k); [ring|]. rewrite Q. ring.
Qed.
(** ** the parameter computed by the code *)
Definition scx (w : C) : C := csqrt (1 - scA w) / csqrt (1 + scB w).
Lemma scB1 w : offK w -> offcut (1 + scB w). Proof. intros H. assert (X := scB_pos w H). right. destruct (scB w). cbn in *. lra. Qed.
Lemma scx_sqr w : offK w -> 9 * (scx w * scx w) = scv w.
Proof.
  intros H. assert (N := offcut_csqrt _ (scB1 w H)). assert (N' := offcut_neq0 _ (scB1 w H)). unfold scx. transitivity (9 * (csqrt (1 - scA w) * csqrt (1 - scA w)) / (csqrt (1 + scB w) * csqrt (1 + scB w))); [field; exact N|]. rewrite !csqrt_sqr. assert (E := scv_2 w H). replace (9 * (1 - scA w)) with (scv w * (1 + scB w)); [field; exact N'|]. transitivity (9 - scv w - 9 * scA w + scv w); [rewrite <- E; ring|]. ring.
Qed.
Lemma scx_lt w : offK w -> (Cmod (scx w) < 1)%R.
Proof.
  intros H. assert (PA := scA_pos w H). assert (PB := scB_pos w H). assert (N' := offcut_neq0 _ (scB1 w H)). assert (E : 9 * (scA w * scA w) = 8 + scB w * scB w). { rewrite scA_sqr, scB_sqr. snum. ffin. }
  assert (T : (9 * (Cmod (scA w) * Cmod (scA w)) <= 8 + Cmod (scB w) * Cmod (scB w))%R). { assert (M := f_equal Cmod E). rewrite !Cmod_mult, Cmod_R, Rabs_pos_eq in M by lra. rewrite M. eapply Rle_trans; [apply Cmod_triangle|]. rewrite Cmod_mult, Cmod_R, Rabs_pos_eq by lra. lra. }
  assert (L : (Cmod (1 - scA w)%C < Cmod (1 + scB w)%C)%R).
  { apply Rsqr_incrst_0; try apply Cmod_ge_0. unfold Rsqr. rewrite !Cmod_sqr in *. destruct (scA w) as [a1 a2]. destruct (scB w) as [b1 b2]. cbn [fst snd] in *. cbn. assert (E1 := f_equal fst E). cbn in E1. destruct (Rle_dec 1 (b1 * b1 + b2 * b2)) as [G|G].
    - nra.
    - apply Rnot_le_lt in G. assert (7 / 9 < a1 * a1 - a2 * a2)%R by nra. assert (a1 * a1 + a2 * a2 < 1)%R by lra. assert (1 / 2 < a1)%R by nra. nra. }
  assert (S : (Cmod (scx w) * Cmod (scx w) < 1)%R). { rewrite <- Cmod_mult. assert (N := offcut_csqrt _ (scB1 w H)). replace (scx w * scx w) with ((1 - scA w) / (1 + scB w)). 2:{ unfold scx. transitivity ((csqrt (1 - scA w) * csqrt (1 - scA w)) / (csqrt (1 + scB w) * csqrt (1 + scB w))); [now rewrite !csqrt_sqr|field; exact N]. }
    rewrite Cmod_div by exact N'. apply Rmult_lt_reg_r with (Cmod (1 + scB w)%C); [apply Cmod_gt_0; exact N'|]. unfold Rdiv. rewrite Rmult_assoc, Rinv_l by (apply Rgt_not_eq, Cmod_gt_0; exact N'). lra. }
  assert (X := Cmod_ge_0 (scx w)). nra.
Qed.
Lemma scx_W w : offK w -> Wx (scx w).
Proof. intros H. split; [unfold disc; replace (scx w - 0) with (scx w) by ring; now apply scx_lt|rewrite scx_sqr by exact H; now apply scv_off]. Qed.
Lemma Y_code w : offK w -> Yv w = (1 - 9 * (scx w * scx w * (scx w * scx w))) * (RtoC (2 / PI) * Kf (mq (scx w)) * (RtoC (2 / PI) * Kf (mq (scx w)))) * / Pq (scx w).
Proof.
  intros H. assert (E := Hn_W _ (scx_W w H)). assert (N := Wx_P _ (scx_W w H)). rewrite <- E, scx_sqr by exact H. unfold Yv, av, rov. transitivity ((1 - 9 * (scx w * scx w * (scx w * scx w))) * (Hn (scv w) * Hn (scv w))); [|field; exact N]. f_equal. rewrite <- (scx_sqr w H). snum. ffin.
Qed.
Lemma sc_average (ellipk : C -> result C) (D : R) (z : C) : computes_K ellipk -> (0 < D)%R -> off_band D z ->
  exists G, sc_gf_z ellipk z D = Ok G /\ is_bz_average3 (fun k => 1 / (z - band3 simple_cubic (D / 6) k)) G.
Proof.
  intros HK HD O. assert (N := off_band_neq0 D HD z O). assert (W := param_off D HD z O). assert (DC : RtoC D <> 0) by (apply RtoC_neq0; lra). assert (HP := PI_RGT_0). set (w := RtoC D / z * (RtoC D / z)) in *.
  unfold sc_gf_z. rewrite rdiv_ok by lra. cbn [bind]. unfold sc_core. set (z' := RtoC (3 / D) * z). assert (D3 : RtoC (3 / D) <> 0) by (apply RtoC_neq0; apply Rgt_not_eq, Rdiv_lt_0_compat; lra). assert (NZ : z' <> 0) by (apply Cmult_neq_0; assumption).
  rewrite cdiv_ok by (apply Cmult_neq_0; exact NZ). cbn [bind]. assert (E1 : 1 / (z' * z') = RtoC (1 / 9) * w). { unfold z', w. rewrite (RtoC_div 3 D) by lra. snum. ffin. } assert (E9 : 9 * (RtoC (1 / 9) * w) = w) by (snum; ffin).
  rewrite E1, E9. fold (scA w) (scB w). rewrite cdiv_ok by (apply offcut_csqrt, scB1, W). cbn [bind]. fold (scx w). fold (Pq (scx w)). assert (NP := Wx_P _ (scx_W w W)). rewrite cdiv_ok by exact NP. cbn [bind].
  replace (1 / Pq (scx w)) with (/ Pq (scx w)) by (field; exact NP). fold (mq (scx w)). rewrite (ellipk_ok ellipk HK) by (apply Wx_m, scx_W, W). cbn [bind]. rewrite cdiv_ok by exact NZ. cbn [bind]. eexists. split; [reflexivity|].
  rewrite <- (Y_code w W). replace (RtoC (3 / D) * (Yv w / z')) with (RtoC (2 / PI) / z * II Hn w); [exact (sc_red D z HD O)|]. rewrite (sc_square w W). unfold z'. transitivity (RtoC (2 / PI) * RtoC (PI / 2) * Yv w / z); [field; exact N|]. replace (RtoC (2 / PI) * RtoC (PI / 2)) with (RtoC 1) by (rewrite <- RtoC_mult; f_equal; field; lra). field. split; assumption.
Qed.
