(** * The lattice Green's functions where the parameter of the elliptic integral is on its branch cut *)
From Coq Require Import Reals Lra Lia.
From Coquelicot Require Import Coquelicot.
From Verif Require Import Base CBase CExp CSqrt Lattice_Model Bethe_Proofs Fourier_Filon LatMom_Spec LatDer_Spec LatEll_Model LatInt_Spec LatInt_Proofs LatInt_Legendre LatInt_Fubini LatBz_Spec LatRect_Main CAnal CHol CEll CHolo CTheta CTheta2 LatTri_Proofs LatTri_Main LatSc_Proofs LatFcc_Red LatFcc_Y LatFcc_Main LatCut_Spec.
Local Open Scope C_scope.

Lemma ccat_Ef m : offE m -> ccat Ef m.
Proof. intros H. apply (holo_ccat offE); [|exact H]. apply (Ef_holo offE (fun z => z)); [apply holo_id|intros; assumption]. Qed.
Lemma Cmod_Im y : (0 <= y)%R -> Cmod (0%R, y) = y.
Proof. intros H. unfold Cmod. cbn [fst snd]. replace (0 ^ 2 + y ^ 2)%R with (y * y)%R by ring. apply sqrt_square, H. Qed.
Lemma Cmod_Im' y : (0 <= y)%R -> Cmod (0%R, (- y)%R) = y.
Proof. intros H. unfold Cmod. cbn [fst snd]. replace (0 ^ 2 + (- y) ^ 2)%R with (y * y)%R by ring. apply sqrt_square, H. Qed.
(** two limits along the same sequence *)
Lemma lim_eq (f : R -> C) (k l : C) : (forall e, (0 < e)%R -> exists d, (0 < d)%R /\ forall y, (0 < y < d)%R -> (Cmod (f y - k)%C < e)%R) -> (forall e, (0 < e)%R -> exists d, (0 < d)%R /\ forall y, (0 < y < d)%R -> (Cmod (f y - l)%C < e)%R) -> k = l.
Proof.
  intros A B. apply Csub_0, Cmod_eq_0. destruct (Req_EM_T (Cmod (k - l)) 0) as [E|N]; [exact E|exfalso]. assert (P := Cmod_ge_0 (k - l)). assert (P2 : (0 < Cmod (k - l)%C / 2)%R) by lra. destruct (A _ P2) as (d1 & H1 & A1). destruct (B _ P2) as (d2 & H2 & B2).
  set (y := (Rmin d1 d2 / 2)%R). assert (M1 := Rmin_l d1 d2). assert (M2 := Rmin_r d1 d2). assert (M3 : (0 < Rmin d1 d2)%R) by (apply Rmin_pos; lra). specialize (A1 y ltac:(unfold y; lra)). specialize (B2 y ltac:(unfold y; lra)).
  assert (T := Cmod_triangle (f y - l) (- (f y - k))). rewrite Cmod_opp in T. replace (f y - l + - (f y - k)) with (k - l) in T by ring. lra.
Qed.
Lemma above_val ellipk x : cut_from_above ellipk -> (1 < x)%R -> ellipk (RtoC x) = Ok (Ef (RtoC x)).
Proof.
  intros H Hx. destruct (H x Hx) as (k & E & L). rewrite E. f_equal. apply (lim_eq (fun y => Kf (x, y))).
  - intros e He. destruct (L e He) as (d & Hd & B). exists d. split; [exact Hd|]. intros y Hy. apply (B y); [exact Hy|]. apply Kf_is. left. cbn. lra.
  - intros e He. destruct (proj1 (ccat_eps Ef (RtoC x)) (ccat_Ef (RtoC x) (or_intror Hx)) e He) as (d & Hd & B). exists d. split; [exact Hd|]. intros y Hy. rewrite <- Ef_up by (cbn; lra). apply B. replace ((x, y) - RtoC x) with ((0%R, y) : C) by (apply C_ext; cbn; ring). rewrite Cmod_Im; lra.
Qed.
Lemma below_val ellipk x : cut_from_below ellipk -> (1 < x)%R -> ellipk (RtoC x) = Ok (Ef (RtoC x) - 2 * Ci * Kf (1 - RtoC x)).
Proof.
  intros H Hx. destruct (H x Hx) as (k & E & L). rewrite E. f_equal. apply (lim_eq (fun y => Kf (x, (- y)%R))).
  - intros e He. destruct (L e He) as (d & Hd & B). exists d. split; [exact Hd|]. intros y Hy. apply (B y); [exact Hy|]. apply Kf_is. left. cbn. lra.
  - set (g := fun m => Ef m - 2 * Ci * Kf (1 - m)). assert (G : ccat g (RtoC x)).
    { apply (ccat_minus Ef); [apply ccat_Ef; right; exact Hx|]. apply (ccat_mult (fun _ => 2 * Ci)); [apply ccat_const|]. apply (ccat_comp Kf (fun m => 1 - m)); [|apply (ccat_minus (fun _ => 1)); [apply ccat_const|apply ccat_id]]. apply (holo_ccat offK); [eexists; apply Kf_hol|]. apply offE_1m. right. exact Hx. }
    intros e He. destruct (proj1 (ccat_eps g (RtoC x)) G e He) as (d & Hd & B). exists d. split; [exact Hd|]. intros y Hy. replace (Kf (x, (- y)%R)) with (g (x, (- y)%R)); [|unfold g; rewrite Ef_low by (cbn; lra); ring]. apply B. replace ((x, (- y)%R) - RtoC x) with ((0%R, (- y)%R) : C) by (apply C_ext; cbn; ring). rewrite Cmod_Im'; lra.
Qed.
Lemma is_bz3_unique f k l : is_bz_average3 f k -> is_bz_average3 f l -> k = l.
Proof.
  intros (i & m & A & B & H) (i' & m' & A' & B' & H'). assert (HP := PI_RGT_0). assert (P3 : (0 < PI * PI * PI)%R) by (apply Rmult_lt_0_compat; [apply Rmult_lt_0_compat|]; exact PI_RGT_0).
  assert (EI : forall a b, i a b = i' a b) by (intros a b; exact (is_CInt_unique _ _ _ _ _ (A a b) (A' a b))).
  assert (EM : forall a, m a = m' a). { intros a. apply (is_CInt_unique (i' a) (- PI) PI); [|apply B']. apply is_CInt_ext with (2 := B a). intros; apply EI. }
  assert (EL : RtoC (8 * (PI * PI * PI)) * k = RtoC (8 * (PI * PI * PI)) * l). { apply (is_CInt_unique m' (- PI) PI); [|exact H']. apply is_CInt_ext with (2 := H). intros; apply EM. }
  assert (N : RtoC (8 * (PI * PI * PI)) <> 0) by (apply RtoC_neq0; lra). transitivity (/ RtoC (8 * (PI * PI * PI)) * (RtoC (8 * (PI * PI * PI)) * k)); [field; exact N|]. rewrite EL. field. exact N.
Qed.

(** ** the face-centred cubic lattice *)
Section Core.
Variables (ellipk : C -> result C) (z : C) (D : R).
Hypothesis HK : computes_K ellipk.
Hypothesis HZ : (snd z < 0)%R.
Hypothesis HD : (0 < D)%R.
Hypothesis Z : snd (cP (wz z)) = 0%R.
Definition qc : R := fst (cP (wz z)).
Lemma qc_eq : cP (wz z) = RtoC qc. Proof. apply C_ext; [reflexivity|exact Z]. Qed.
Lemma qc_gt : (1 < qc)%R. Proof. destruct (cP_up _ (wz_low z HZ)) as [X|X]; [contradiction|exact X]. Qed.
Lemma fcc_core_cut k : ellipk (RtoC qc) = Ok k -> fcc_core ellipk z D = Ok (pf * (Kf (cM (wz z)) * k) / (RtoC D * (z + 1))).
Proof.
  intros E. assert (A : adv z) by (left; exact HZ). assert (HP := PI_RGT_0). assert (DC : RtoC D <> 0) by (apply RtoC_neq0; lra). assert (NZ := adv_neq z A). assert (NR := r1_neq z A). assert (O := wz_off z A). unfold fcc_core. rewrite cdiv_ok by (apply Cmult_neq_0; [apply Cmult_neq_0|]; exact NR). cbn [bind].
  rewrite (sum1_code z A), (sum2_code z A), <- cP_AB, <- cM_AB by exact O. assert (PD : RtoC (PI * PI * D) * (z + 1) <> 0) by (apply Cmult_neq_0; [apply RtoC_neq0; apply Rgt_not_eq; apply Rmult_lt_0_compat; nra|exact NZ]).
  rewrite cneg_ge by (rewrite Z; lra). rewrite qc_eq, E. cbn [bind]. rewrite cdiv_ok by exact PD. cbn [bind]. rewrite (ellipk_ok ellipk HK) by (apply cM_up, wz_low, HZ). cbn [bind]. f_equal.
  unfold pf. assert (NP : RtoC PI <> 0) by (apply RtoC_neq0; lra). rewrite (RtoC_div 4) by nra. rewrite !RtoC_mult. field. repeat split; assumption.
Qed.
End Core.
Lemma cut_iff z : (snd z < 0)%R -> fcc_cut z <-> snd (cP (wz z)) = 0%R.
Proof.
  intros H. split; [|intros Z].
  - intros X. assert (A : adv z) by (left; exact H). assert (W := wz_low z H). destruct (fT_up _ W) as (P & Q & N). assert (O := up_offK _ W). assert (NT := fT0 _ O). apply (fcc_cut_T z (fT (wz z))) in X; [|exact P|exact N|].
    + destruct X as (q & E & _). replace (cP (wz z)) with (RtoC q); [reflexivity|]. unfold cP, mP. replace ((fT (wz z) + 1) * (fT (wz z) + 1) * (fT (wz z) + 1) * (fT (wz z) - 3)) with (- (16 * RtoC q * fT (wz z))) by (rewrite <- E; ring). revert NT. generalize (fT (wz z)). intros t. snum. intros NT. ffin.
    + assert (M := wz_mul z A). rewrite (w_T _ O) in M. fold (wz z) in M. unfold pT in M. set (t := fT (wz z)) in *. clearbody t. transitivity (- ((t * t - 1) * (t * t - 9)) / (4 * (t * t)) * (z + 1) * (4 * (t * t))); [field; split; [exact NT|apply RtoC_neq0; lra]|]. rewrite M. snum. ffin.
  - destruct (Classical_Prop.classic (fcc_cut z)) as [|N]; [assumption|exfalso]. exact (low_neq z (or_introl H) N H Z).
Qed.
Lemma fcc_core_above ellipk z D : computes_K ellipk -> cut_from_above ellipk -> adv z -> (0 < D)%R -> fcc_core ellipk z D = Ok (Fj 0 (wz z) / (RtoC D * (z + 1))).
Proof.
  intros HK HA A HD. destruct (Classical_Prop.classic (fcc_cut z)) as [X|N]; [|apply fcc_core_ok; assumption]. destruct A as [H|[E H]].
  - assert (Z := proj1 (cut_iff z H) X). rewrite (fcc_core_cut ellipk z D HK H HD Z (Ef (RtoC (qc z)))) by (apply above_val; [exact HA|apply qc_gt; assumption]). rewrite <- (qc_eq z Z), fcc_up by (apply wz_low, H). reflexivity.
  - exfalso. assert (EZ : z = RtoC (fst z)) by (apply C_ext; [reflexivity|exact E]). apply (fcc_real_nocut 2 (fst z)); [lra|destruct H; [left|right]; lra|]. replace (2 / 2)%R with 1%R by field. rewrite <- EZ. replace (z / RtoC 1) with z; [exact X|]. unfold Cdiv. rewrite <- RtoC_inv, Rinv_1 by lra. ring.
Qed.
Theorem fcc_average_above (ellipk : C -> result C) (hb : R) (z : C) : computes_K ellipk -> cut_from_above ellipk -> (0 < hb)%R -> snd z <> 0%R \/ (fst z < - (hb / 2))%R \/ (3 / 2 * hb < fst z)%R ->
  exists G, fcc_gf_z ellipk z hb = Ok G /\ is_bz_average3 (fun k => 1 / (z - band3 face_centered (hb / 8) k)) G.
Proof. intros HK HA Hb O. apply fcc_average_gen; [exact Hb|exact O|]. intros v Av _ D HD. apply fcc_core_above; assumption. Qed.

Lemma fcc_below (ellipk : C -> result C) (D : R) (z : C) : computes_K ellipk -> cut_from_below ellipk -> (0 < D)%R -> (snd z < 0)%R -> fcc_cut z ->
  exists G A, fcc_gf_z ellipk (RtoC D * z) (2 * D) = Ok G /\ is_bz_average3 (fun k => 1 / (RtoC D * z - band3 face_centered (D / 4) k)) A /\ G <> A.
Proof.
  intros HK HB HD H X. assert (A : adv z) by (left; exact H). assert (Z := proj1 (cut_iff z H) X). assert (DC : RtoC D <> 0) by (apply RtoC_neq0; lra). assert (NZ := adv_neq z A). assert (W := wz_low z H). assert (Q := qc_gt z H Z).
  eexists. exists (Fj 0 (wz z) / (RtoC D * (z + 1))). split; [|split; [apply fcc_avg; assumption|]].
  - unfold fcc_gf_z. replace (2 * D / 2)%R with D by field. rewrite rdiv_ok by lra. cbn [bind]. replace (RtoC (1 / D) * (RtoC D * z)) with z; [|rewrite Cmult_assoc, <- RtoC_mult; replace (1 / D * D)%R with 1%R by (field; lra); ring].
    destruct (Rlt_dec 0 (snd z)) as [L|L]; [exfalso; exact (Rlt_asym _ _ H L)|]. apply (fcc_core_cut ellipk z D HK H HD Z). apply below_val; [exact HB|exact Q].
  - rewrite (fcc_up _ W), (qc_eq z Z). set (a := Kf (cM (wz z))). set (b := Ef (RtoC (qc z))). assert (NA : a <> 0) by (apply Kf_neq0, cM_up, W). assert (NB : Kf (1 - RtoC (qc z)) <> 0) by (apply Kf_neq0, offE_1m; right; exact Q). set (c := Kf (1 - RtoC (qc z))) in *. intros E.
    assert (HP := PI_RGT_0). assert (NP : pf <> 0) by (apply RtoC_neq0, Rgt_not_eq, Rdiv_lt_0_compat; nra). assert (NC : 2 * Ci * c <> 0). { apply Cmult_neq_0; [|exact NB]. intros Y. apply (f_equal snd) in Y. cbn in Y. lra. }
    apply (Cmult_neq_0 _ _ (Cmult_neq_0 _ _ NP NA) NC). transitivity ((pf * (a * b) / (RtoC D * (z + 1)) - pf * (a * (b - 2 * Ci * c)) / (RtoC D * (z + 1))) * (RtoC D * (z + 1))); [field; split; assumption|]. rewrite E. ring.
Qed.
(** a frequency on the curve *)
Lemma fcc_cut_point : exists z, (snd z < 0)%R /\ fcc_cut z.
Proof.
  set (x := (sqrt 37 / 4)%R). set (y := (sqrt 27 / 4)%R). assert (X2 : (x * x = 37 / 16)%R) by (unfold x; assert (Q := sqrt_sqrt 37 ltac:(lra)); nra). assert (Y2 : (y * y = 27 / 16)%R) by (unfold y; assert (Q := sqrt_sqrt 27 ltac:(lra)); nra).
  assert (PX : (0 < x)%R) by (unfold x; assert (Q := sqrt_lt_R0 37 ltac:(lra)); lra). assert (PY : (0 < y)%R) by (unfold y; assert (Q := sqrt_lt_R0 27 ltac:(lra)); lra). clearbody x y. set (s := (2 * (x * y))%R). assert (S2 : (s * s = 999 / 64)%R) by (unfold s; nra). assert (PS : (0 < s)%R) by (unfold s; nra).
  set (T := (x, (- y)%R) : C). assert (TT : T * T = ((5 / 8)%R, (- s)%R)) by (apply C_ext; unfold T, s; cbn; lra). assert (DT : (T * T - 1) * (9 - T * T) = ((798 / 64)%R, (- (35 / 4 * s))%R)) by (rewrite TT; apply C_ext; cbn; nra).
  set (n := ((798 / 64) * (798 / 64) + 35 / 4 * s * (35 / 4 * s))%R). assert (N0 : (0 < n)%R) by (unfold n; nra). assert (EN : n = (798 / 64 * (798 / 64) + 35 / 4 * (35 / 4) * (999 / 64))%R) by (unfold n; rewrite <- S2; ring).
  set (z := (((10 * (798 / 64) + 140 * (s * s)) / n - 1)%R, (- (112 * s) / n)%R) : C). assert (ZE : (z + 1) * ((T * T - 1) * (9 - T * T)) = 16 * (T * T)).
  { rewrite DT, TT. apply C_ext; unfold z; cbn [fst snd Cplus Cmult RtoC]; apply Rmult_eq_reg_r with n; try lra; unfold Rdiv; field_simplify; try lra; rewrite EN; nra. }
  exists z. split; [unfold z; cbn; assert (0 < / n)%R by (apply Rinv_0_lt_compat, N0); unfold Rdiv; nra|]. exists T, ((1 + 19 / 16 * x) / 2)%R. split; [exact PX|]. split; [unfold T; cbn; lra|]. split; [exact ZE|]. split.
  - transitivity (8 * T + 3 + 6 * (T * T) - T * T * (T * T)); [sring|]. rewrite TT. apply C_ext; unfold T; cbn; unfold s in *; lra.
  - assert (1 < x)%R by nra. lra.
Qed.

(** ** elliptic integrals with both conventions *)
Definition on_cut (m : C) : bool := if Req_EM_T (snd m) 0 then if Rlt_dec 1 (fst m) then true else false else false.
Definition ellipk_above (m : C) : result C := Ok (if on_cut m then Ef m else Kf m).
Definition ellipk_below (m : C) : result C := Ok (if on_cut m then Ef m - 2 * Ci * Kf (1 - m) else Kf m).
Lemma on_cut_off m : offK m -> on_cut m = false.
Proof. intros H. unfold on_cut. destruct (Req_EM_T (snd m) 0) as [E|]; [|reflexivity]. destruct (Rlt_dec 1 (fst m)) as [L|]; [|reflexivity]. destruct H as [H|H]; [contradiction|lra]. Qed.
Lemma on_cut_R x : (1 < x)%R -> on_cut (RtoC x) = true.
Proof. intros H. unfold on_cut. cbn. destruct (Req_EM_T 0 0); [|lra]. destruct (Rlt_dec 1 x); [reflexivity|lra]. Qed.
Lemma ellipk_above_K : computes_K ellipk_above. Proof. intros m H. eexists. split; [reflexivity|]. rewrite on_cut_off by exact H. apply Kf_is, H. Qed.
Lemma ellipk_below_K : computes_K ellipk_below. Proof. intros m H. eexists. split; [reflexivity|]. rewrite on_cut_off by exact H. apply Kf_is, H. Qed.
Lemma ellipk_above_cut : cut_from_above ellipk_above.
Proof.
  intros x Hx. eexists. split; [reflexivity|]. rewrite on_cut_R by exact Hx. intros e He. destruct (proj1 (ccat_eps Ef (RtoC x)) (ccat_Ef (RtoC x) (or_intror Hx)) e He) as (d & Hd & B). exists d. split; [exact Hd|]. intros y k' Hy L. rewrite (Kf_eq _ _ L), <- Ef_up by (cbn; lra). apply B. replace ((x, y) - RtoC x) with ((0%R, y) : C) by (apply C_ext; cbn; ring). rewrite Cmod_Im; lra.
Qed.
Lemma below_ccat x : (1 < x)%R -> ccat (fun m => Ef m - 2 * Ci * Kf (1 - m)) (RtoC x).
Proof.
  intros Hx. apply (ccat_minus Ef); [apply ccat_Ef; right; exact Hx|]. apply (ccat_mult (fun _ => 2 * Ci)); [apply ccat_const|]. apply (ccat_comp Kf (fun m => 1 - m)); [|apply (ccat_minus (fun _ => 1)); [apply ccat_const|apply ccat_id]]. apply (holo_ccat offK); [eexists; apply Kf_hol|]. apply offE_1m. right. exact Hx.
Qed.
Lemma ellipk_below_cut : cut_from_below ellipk_below.
Proof.
  intros x Hx. eexists. split; [reflexivity|]. rewrite on_cut_R by exact Hx. intros e He. set (g := fun m => Ef m - 2 * Ci * Kf (1 - m)). destruct (proj1 (ccat_eps g (RtoC x)) (below_ccat x Hx) e He) as (d & Hd & B). exists d. split; [exact Hd|]. intros y k' Hy L. rewrite (Kf_eq _ _ L).
  replace (Kf (x, (- y)%R)) with (g (x, (- y)%R)); [|unfold g; rewrite Ef_low by (cbn; lra); ring]. apply B. replace ((x, (- y)%R) - RtoC x) with ((0%R, (- y)%R) : C) by (apply C_ext; cbn; ring). rewrite Cmod_Im'; lra.
Qed.

(** ** the triangular lattice *)
Lemma tri_cut_R w : (0 <= snd w)%R -> offT w -> tri_cut w -> (0 < snd (triR w))%R /\ (0 <= fst (triR w))%R /\ exists x, (1 < x)%R /\ trim (triR w) = RtoC x.
Proof.
  intros Hi O (r & q & N & A & B & Q). assert (RR : triR w * triR w = 2 * w + 3) by apply csqrt_sqr. assert (Cases : ((0 < snd (triR w))%R /\ (0 <= fst (triR w))%R) \/ exists S, (3 < S)%R /\ triR w = RtoC S).
  { destruct (Rlt_dec 0 (snd w)) as [L|L]; [left; destruct (upper_R w L); lra|]. assert (E : w = RtoC (fst w)) by (apply C_ext; cbn; lra). destruct O as [X|[X|X]]; [lra| |].
    - left. rewrite E. destruct (triR_below (fst w) X) as [_ E2]. rewrite E2. cbn. split; [apply sqrt_lt_R0; lra|lra].
    - right. rewrite E. destruct (triR_real (fst w) X) as (S & HS & _ & ES). exists S. split; assumption. }
  assert (Y : (r - triR w) * (r + triR w) = 0) by (transitivity (r * r - triR w * triR w); [ring|rewrite A, RR; ring]). destruct Cases as [[H1 H2]|(S & HS & ES)].
  - split; [exact H1|]. split; [exact H2|]. exists (16 / q)%R. split; [apply Rmult_lt_reg_r with q; [lra|]; replace (16 / q * q)%R with 16%R by (field; lra); lra|].
    assert (BR : (triR w - 1) * (triR w - 1) * (triR w - 1) * (triR w + 3) = RtoC q * triR w).
    { apply Czero_prod in Y. destruct Y as [Y|Y]; [apply Csub_0 in Y; rewrite <- Y; exact B|]. assert (E : r = Cconj (triR w)). { clear - Y N H2. destruct r as [a b], (triR w) as [c d]. assert (Y1 := f_equal fst Y). assert (Y2 := f_equal snd Y). cbn in *. apply C_ext; cbn; lra. }
      rewrite E in B. clear - B. destruct (triR w) as [a b]. assert (B1 := f_equal fst B). assert (B2 := f_equal snd B). cbn in B1, B2. apply C_ext; cbn; lra. }
    unfold trim. rewrite BR. assert (NR : triR w <> 0) by (intros E; rewrite E in H1; cbn in H1; lra). assert (NQ : RtoC q <> 0) by (apply RtoC_neq0; lra). rewrite RtoC_div by lra. field. split; assumption.
  - exfalso. rewrite ES in Y. apply Czero_prod in Y. destruct Y as [Y|Y].
    + apply Csub_0 in Y. rewrite Y in B. apply (f_equal fst) in B. cbn in B. assert (P : (0 < (S - 3) * ((S + 1) * (S + 1) * (S + 1)))%R) by (repeat apply Rmult_lt_0_compat; lra). assert (q * S < 16 * S)%R by (apply Rmult_lt_compat_r; lra). lra.
    + apply (f_equal fst) in Y. destruct r. cbn in *. lra.
Qed.
Section TriCore.
Variables (ellipk : C -> result C) (w : C) (D : R).
Hypothesis HK : computes_K ellipk.
Hypothesis Hi : (0 <= snd w)%R.
Hypothesis O : offT w.
Hypothesis HD : (0 < D)%R.
Hypothesis TC : tri_cut w.
Lemma tri_core_cut : exists x, (1 < x)%R /\ sheet (trik (triR w)) = Ef (RtoC x) /\ trig (triR w) <> 0 /\ forall k, ellipk (RtoC x) = Ok k -> tri_core ellipk w D = Ok (RtoC (1 / PI / D) * trig (triR w) * k).
Proof.
  destruct (tri_cut_R w Hi O TC) as (H1 & H2 & x & Hx & EX). assert (HP := PI_RGT_0). exists x. split; [exact Hx|]. assert (Ri : (0 <= snd (triR w))%R) by lra.
  assert (OC : offcut (triR w - 1) /\ offcut (triR w + 3)) by (destruct (triR w) as [a b]; split; left; cbn in *; lra). destruct OC as [O1 O3]. assert (Q := trik_sqr _ O1 O3). rewrite EX in Q. assert (T := trik_region _ H1 H2). assert (N1 := offcut_csqrt _ O1). assert (N3 := offcut_csqrt _ O3).
  assert (K0 : snd (trik (triR w)) = 0%R /\ (fst (trik (triR w)) < 0)%R). { clear - Q T Hx. destruct (trik (triR w)) as [a b]. assert (Q1 := f_equal fst Q). assert (Q2 := f_equal snd Q). cbn in *. assert (B : b = 0%R). { assert (AB : (a * b = 0)%R) by lra. apply Rmult_integral in AB. destruct AB as [->|AB]; [nra|exact AB]. } subst b. split; [reflexivity|lra]. } destruct K0 as [K1 K2].
  split; [|split].
  - unfold sheet. destruct (Rlt_dec (snd (trik (triR w))) 0); [lra|]. destruct (Rlt_dec (fst (trik (triR w))) 0); [|lra]. now rewrite Q.
  - unfold trig. intros E. assert (NN := Cmult_neq_0 _ _ (Cmult_neq_0 _ _ (Cmult_neq_0 _ _ N1 N1) N1) N3). apply (f_equal (fun y => y * (csqrt (triR w - 1) * csqrt (triR w - 1) * csqrt (triR w - 1) * csqrt (triR w + 3)))) in E. revert E. unfold Cdiv. rewrite <- Cmult_assoc, Cinv_l, Cmult_1_r, Cmult_0_l by exact NN. apply RtoC_neq0. lra.
  - intros k E. unfold tri_core. rewrite (tri_signed_up (2 * w + 3)) by (destruct w; cbn in *; lra). fold (triR w). rewrite (tri_signed_up (triR w - 1)) by (destruct (triR w); cbn in *; lra). rewrite (tri_signed_up (triR w + 3)) by (destruct (triR w); cbn in *; lra). rewrite (tri_signed_up (triR w)) by exact Ri. cbv zeta.
    rewrite cdiv_ok by (apply Cmult_neq_0; [apply Cmult_neq_0; [apply Cmult_neq_0|]|]; assumption). cbn [bind]. fold (trig (triR w)). fold (trik (triR w)). rewrite Q, E. cbn [bind]. rewrite cneg_ge by (rewrite K1; lra). cbn [bind]. rewrite rdiv_ok by lra. reflexivity.
Qed.
End TriCore.
Lemma tri_below (ellipk : C -> result C) (w : C) (hb : R) : computes_K ellipk -> cut_from_below ellipk -> (0 < hb)%R -> (0 <= snd w)%R -> offT w -> tri_cut w -> RtoC (hb * 4 / 9) * w <> - (1) ->
  exists G A, triangular_gf_z ellipk (RtoC (hb * 4 / 9) * w) hb = Ok G /\ is_bz_average (fun k => 1 / (RtoC (hb * 4 / 9) * w - bloch triangular (hb * 4 / 9 / 2) k 0 0)) A /\ G <> A.
Proof.
  intros HK HB Hb Hi O TC N1. set (D := (hb * 4 / 9)%R) in *. assert (HD : (0 < D)%R) by (unfold D; lra). assert (HP := PI_RGT_0). destruct (tri_core_cut ellipk w D Hi O HD TC) as (x & Hx & ES & NG & CORE).
  eexists. exists (RtoC (1 / (2 * PI) / D) * trA w). split; [|split; [exact (tri_avg w _ D HD eq_refl O)|]].
  - unfold triangular_gf_z. fold D. rewrite rdiv_ok by lra. cbn [bind]. replace (RtoC (1 / D) * (RtoC D * w)) with w; [|rewrite Cmult_assoc, <- RtoC_mult; replace (1 / D * D)%R with 1%R by (field; lra); ring].
    rewrite cneg_ge by exact Hi. cbv zeta. destruct (Ceq_dec (RtoC D * w) (- (1))) as [X|X]; [contradiction|]. rewrite (CORE _ (below_val ellipk x HB Hx)). cbn [bind]. reflexivity.
  - rewrite (tri_val w Hi O). unfold trF. rewrite ES. set (c := Kf (1 - RtoC x)). assert (NC : c <> 0) by (apply Kf_neq0, offE_1m; right; exact Hx). set (g := trig (triR w)) in *. set (b := Ef (RtoC x)). replace (1 / (2 * PI) / D)%R with (1 / PI / D / 2)%R by (field; lra). rewrite (RtoC_div (1 / PI / D)) by lra. set (p := RtoC (1 / PI / D)). assert (NP : p <> 0) by (apply RtoC_neq0, Rgt_not_eq, Rdiv_lt_0_compat; [apply Rdiv_lt_0_compat; lra|exact HD]).
    intros E. assert (N2 : 2 * Ci * c <> 0). { apply Cmult_neq_0; [|exact NC]. intros Y. apply (f_equal snd) in Y. cbn in Y. lra. } apply (Cmult_neq_0 _ _ (Cmult_neq_0 _ _ NP NG) N2).
    transitivity (p / 2 * (2 * g * b) - p * g * (b - 2 * Ci * c)); [field; apply RtoC_neq0; lra|]. rewrite E. ring.
Qed.
Lemma sqrt3_gt : (3 / 2 < sqrt 3)%R.
Proof. apply Rsqr_incrst_0; [|lra|apply sqrt_pos]. rewrite Rsqr_sqrt by lra. unfold Rsqr. lra. Qed.
Lemma tri_below_sqrt3 ellipk : computes_K ellipk -> cut_from_below ellipk ->
  exists G A, triangular_gf_z ellipk (RtoC (- sqrt 3)) (9 / 4) = Ok G /\ is_bz_average (fun k => 1 / (RtoC (- sqrt 3) - bloch triangular (1 / 2) k 0 0)) A /\ G <> A.
Proof.
  intros HK HB. assert (S := sqrt3_gt). assert (S2 := sqrt_sqrt 3 ltac:(lra)). set (t := sqrt 3) in *. clearbody t. destruct (tri_below ellipk (RtoC (- t)) (9 / 4) HK HB) as (G & A & E1 & E2 & N); [lra|cbn; lra|right; left; cbn; lra| | |].
  - set (s := sqrt (2 * t - 3)). assert (Q := sqrt_sqrt (2 * t - 3) ltac:(lra)). fold s in Q. clearbody s. exists (0%R, s), 8%R. split; [cbn; lra|]. split; [apply C_ext; cbn; lra|]. split; [|lra]. apply C_ext; cbn; [|ring].
    replace (((0 + - (1)) * (0 + - (1)) - (s + - 0) * (s + - 0)) * (0 + - (1)) - ((0 + - (1)) * (s + - 0) + (s + - 0) * (0 + - (1))) * (s + - 0))%R with (3 * (s * s) - 1)%R by ring.
    replace (((0 + - (1)) * (0 + - (1)) - (s + - 0) * (s + - 0)) * (s + - 0) + ((0 + - (1)) * (s + - 0) + (s + - 0) * (0 + - (1))) * (0 + - (1)))%R with (s * (3 - s * s))%R by ring. nra.
  - intros E. apply (f_equal fst) in E. cbn in E. lra.
  - replace (9 / 4 * 4 / 9)%R with 1%R in * by field. rewrite Cmult_1_l in E1. exists G, A. split; [exact E1|]. split; [|exact N]. apply is_bz_ext with (2 := E2). intros k. rewrite Cmult_1_l. reflexivity.
Qed.
