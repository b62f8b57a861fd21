(** * Boundary values of the Green's function of the triangular lattice *)
From Coq Require Import Reals Lra Lia List.
From Coquelicot Require Import Coquelicot.
From Verif Require Import Base CBase CExp CSqrt Lattice_Model Bethe_Proofs Bethe_Main LatMom_Spec LatDer_Spec LatDer_Model LatDer_Dos LatEll_Model LatEll_Dos LatInt_Spec LatInt_Legendre LatInt_Local LatInt_Square CAnal CHol CEll CHolo LatBz_Spec LatRect_Main LatTri_Proofs LatTri_Main LatCut_Spec LatCut_Proofs LatSpf_Spec LatSpf_Proofs.
Local Open Scope C_scope.

Lemma ulim_ccat x f : ccat f (RtoC x) -> ulim x f (f (RtoC x)).
Proof. intros H. exact (ulim_cont x (fun w => w) (RtoC x) f (ulim_id x) H). Qed.
Lemma ulim_scale x d h g : (0 < d)%R -> ulim x h g -> ulim (d * x) (fun w => h (w / RtoC d)) g.
Proof.
  intros Hd H t Ht. destruct (H t Ht) as (r & Hr & B). exists (d * r)%R. split; [apply Rmult_lt_0_compat; assumption|]. intros w Hw Hx. apply B.
  - rewrite div_real by lra. cbn. apply Rdiv_lt_0_compat; assumption.
  - replace (w / RtoC d - RtoC x) with (RtoC (/ d) * (w - RtoC (d * x))). 2:{ rewrite RtoC_mult, RtoC_inv by lra. field. apply RtoC_neq0. lra. }
    rewrite Cmod_mult, Cmod_R, Rabs_pos_eq by (apply Rlt_le, Rinv_0_lt_compat, Hd). apply (Rmult_lt_reg_l d); [exact Hd|]. rewrite <- Rmult_assoc, Rinv_r, Rmult_1_l by lra. exact Hx.
Qed.
(** the average over a real band is real at real frequencies *)
Lemma tri_real_im x : offT (RtoC x) -> snd (trA (RtoC x)) = 0%R.
Proof.
  intros O. assert (HP := PI_RGT_0). assert (A := tri_avg (RtoC x) (RtoC x) 1 ltac:(lra) ltac:(ring) O). assert (B := is_bz_conj _ _ A). apply (is_bz_ext _ (fun k => 1 / (RtoC x - bloch triangular (1 / 2) k 0 0))) in B.
  - apply average_mean in A. apply average_mean in B. rewrite A in B. revert B. generalize (trA (RtoC x)). intros a B. apply (f_equal snd) in B. cbn in B. assert (Q : (0 < / (2 * PI))%R) by (apply Rinv_0_lt_compat; lra). replace (1 / (2 * PI) / 1)%R with (/ (2 * PI))%R in B by (field; lra). apply (Rmult_eq_reg_l (/ (2 * PI))); lra.
  - intros [k1 k2]. rewrite tri_band, <- RtoC_minus. generalize (x - 2 * (1 / 2) * (cos k1 + cos k2 + cos (k1 - k2)))%R. intros q. apply C_ext; cbn; unfold Rdiv; ring.
Qed.
Section Tri.
Variable x : R.
Hypothesis Hx : (- (3 / 2) < x < 3)%R.
Let s := sqrt (2 * x + 3).
Lemma s_sq : (s * s = 2 * x + 3)%R. Proof. apply sqrt_sqrt. lra. Qed.
Lemma s_pos : (0 < s)%R. Proof. apply sqrt_lt_R0. lra. Qed.
Lemma s_lt : (s < 3)%R. Proof. assert (A := s_sq). assert (B := s_pos). nra. Qed.
Lemma r_lim : ulim x triR (RtoC s).
Proof.
  assert (E : RtoC s = csqrt (2 * RtoC x + 3)). { rewrite <- RtoC_mult, <- RtoC_plus, csqrt_R by lra. reflexivity. } rewrite E. apply (ulim_ccat x triR). unfold triR. apply (ccat_comp csqrt (fun z => 2 * z + 3)).
  - apply ccat_csqrt. right. cbn. lra.
  - apply ccat_plus; [apply ccat_mult; [apply ccat_const|apply ccat_id]|apply ccat_const].
Qed.
Lemma r_off w : (0 < snd w)%R -> (0 < snd (triR w))%R /\ (0 <= fst (triR w))%R. Proof. intros H. destruct (upper_R w H). split; [assumption|lra]. Qed.
Let s1 : C := if Rlt_dec 0 (s - 1) then RtoC (sqrt (s - 1)) else Ci * RtoC (sqrt (- (s - 1))).
Lemma s1_lim : ulim x (fun w => csqrt (triR w - 1)) s1.
Proof.
  apply (ulim_csqrt x (fun w => triR w - 1)).
  - rewrite RtoC_minus. apply (ulim_add x triR (fun _ => - (1))); [exact r_lim|apply ulim_const].
  - apply uev_true. intros w H. destruct (r_off w H) as [A _]. destruct (triR w). cbn in *. lra.
Qed.
Lemma s3_lim : ulim x (fun w => csqrt (triR w + 3)) (RtoC (sqrt (s + 3))).
Proof.
  assert (P := s_pos). replace (RtoC (sqrt (s + 3))) with (csqrt (RtoC s + 3)) by (rewrite <- RtoC_plus, csqrt_R by lra; reflexivity). apply (ulim_cont x triR (RtoC s) (fun r => csqrt (r + 3))); [exact r_lim|].
  apply (ccat_comp csqrt (fun r => r + 3)); [apply ccat_csqrt; right; cbn; lra|apply ccat_plus; [apply ccat_id|apply ccat_const]].
Qed.
Lemma s0_lim : ulim x (fun w => csqrt (triR w)) (RtoC (sqrt s)).
Proof. assert (P := s_pos). rewrite <- csqrt_R by lra. apply (ulim_cont x triR (RtoC s) csqrt); [exact r_lim|]. apply ccat_csqrt. right. cbn. lra. Qed.
Hypothesis N1 : s <> 1%R.
Lemma s1_0 : s1 <> 0.
Proof.
  unfold s1. destruct (Rlt_dec 0 (s - 1)) as [L|L]; [apply RtoC_neq0, Rgt_not_eq, sqrt_lt_R0; exact L|]. assert (0 < sqrt (- (s - 1)))%R by (apply sqrt_lt_R0; lra). intros E. apply (f_equal snd) in E. cbn in E. lra.
Qed.
Let g0 : C := 4 / (s1 * s1 * s1 * RtoC (sqrt (s + 3))).
Lemma g_lim : ulim x (fun w => trig (triR w)) g0.
Proof.
  assert (P := s_pos). unfold trig, g0. apply ulim_mul; [apply ulim_const|]. apply ulim_inv.
  - apply ulim_mul; [|exact s3_lim]. apply ulim_mul; [apply ulim_mul|]; exact s1_lim.
  - assert (A := s1_0). assert (B : RtoC (sqrt (s + 3)) <> 0) by (apply RtoC_neq0, Rgt_not_eq, sqrt_lt_R0; lra). repeat apply Cmult_neq_0; assumption.
Qed.
Lemma k_lim : ulim x (fun w => trik (triR w)) (RtoC (sqrt s) * g0). Proof. unfold trik. apply ulim_mul; [exact s0_lim|exact g_lim]. Qed.
Lemma trA_lim L : ulim x (fun w => sheet (trik (triR w))) L -> ulim x trA (2 * g0 * L).
Proof.
  intros H. apply (ulim_ext x trF); [apply uev_true; intros w Hw; symmetry; apply tri_upper, Hw|]. unfold trF. apply ulim_mul; [|exact H]. apply ulim_mul; [apply ulim_const|exact g_lim].
Qed.
Definition dosv : R := let numer := ((s - 1) * (s - 1) * (s - 1) * (3 + s))%R in let denom := ((s + 1) * (s + 1) * (s + 1) * (3 - s))%R in
  if Rlt_dec 1 s then (1 / 2 / sqrt s * fst (Kf (RtoC (1 - 1 / 16 * numer / s))))%R else (2 / sqrt denom * fst (Kf (RtoC (1 - - numer / denom))))%R.
Lemma sq_inj a b : (0 <= a)%R -> (0 <= b)%R -> (a * a = b * b)%R -> a = b. Proof. intros A B E. apply Rsqr_inj; assumption. Qed.
Lemma tri_hi : (1 < s)%R -> exists g, ulim x trA g /\ (- snd g = 4 * dosv)%R.
Proof.
  intros H1. assert (H3 := s_lt). set (sg := sqrt (s - 1)). assert (Sg : (0 < sg)%R) by (apply sqrt_lt_R0; lra). assert (Sg2 : (sg * sg = s - 1)%R) by (apply sqrt_sqrt; lra).
  set (sh := sqrt (s + 3)). assert (Sh : (0 < sh)%R) by (apply sqrt_lt_R0; lra). assert (Sh2 : (sh * sh = s + 3)%R) by (apply sqrt_sqrt; lra).
  set (ss := sqrt s). assert (Ss : (0 < ss)%R) by (apply sqrt_lt_R0; lra). assert (Ss2 : (ss * ss = s)%R) by (apply sqrt_sqrt; lra).
  set (gr := (4 / (sg * sg * sg * sh))%R). assert (G3 : (0 < sg * sg * sg * sh)%R) by (repeat apply Rmult_lt_0_compat; assumption). assert (Gr : (0 < gr)%R) by (apply Rdiv_lt_0_compat; lra).
  assert (Eg : g0 = RtoC gr). { unfold g0, s1. destruct (Rlt_dec 0 (s - 1)) as [_|X]; [|lra]. fold sg sh. unfold gr. rewrite RtoC_div by lra. rewrite !RtoC_mult. reflexivity. }
  set (k0 := (ss * gr)%R). assert (K0 : (0 < k0)%R) by (apply Rmult_lt_0_compat; assumption).
  assert (KL : ulim x (fun w => trik (triR w)) (RtoC k0)). { unfold k0. rewrite RtoC_mult, <- Eg. exact k_lim. }
  set (numer := ((s - 1) * (s - 1) * (s - 1) * (3 + s))%R). assert (Nu : (0 < numer)%R) by (unfold numer; repeat apply Rmult_lt_0_compat; lra). assert (De : (0 < (s + 1) * (s + 1) * (s + 1) * (3 - s))%R) by (repeat apply Rmult_lt_0_compat; lra).
  assert (G2 : (gr * gr = 16 / numer)%R). { unfold gr, numer. rewrite <- Sg2. replace (3 + s)%R with (sh * sh)%R by lra. field. split; lra. }
  assert (K2 : (k0 * k0 = 16 * s / numer)%R). { unfold k0. transitivity (ss * ss * (gr * gr))%R; [ring|]. rewrite Ss2, G2. field. lra. }
  set (p := (1 / 16 * numer / s)%R). assert (P0 : (0 < p)%R) by (unfold p; apply Rdiv_lt_0_compat; lra). assert (Kp : (k0 * k0 = / p)%R) by (rewrite K2; unfold p; field; lra).
  assert (K1' : (1 < k0 * k0)%R). { rewrite K2. apply (Rmult_lt_reg_r numer); [exact Nu|]. unfold Rdiv. rewrite Rmult_assoc, Rinv_l by lra. unfold numer. lra. }
  assert (RG : uev x (fun w => (0 < fst (trik (triR w)))%R)). { apply (uev_opn x (fun w => trik (triR w)) (RtoC k0) (fun z => (0 < fst z)%R)); [exact KL|apply half_open_re'|exact K0]. }
  exists (2 * g0 * Df (RtoC (k0 * k0))). split.
  - apply trA_lim. apply (ulim_ext x (fun w => Kf (trik (triR w) * trik (triR w)))).
    + revert RG. apply uev_imp. intros w Hw F. destruct (r_off w Hw) as [A B]. destruct (trik_region _ A B) as [X|X]; [|lra]. unfold sheet. destruct (Rlt_dec (snd (trik (triR w))) 0); [reflexivity|contradiction].
    + apply (ulim_Kf_low x (fun w => trik (triR w) * trik (triR w))); [exact K1'|rewrite RtoC_mult; apply ulim_mul; exact KL|].
      revert RG. apply uev_imp. intros w Hw F. destruct (r_off w Hw) as [A B]. destruct (trik_region _ A B) as [X|X]; [|lra]. destruct (trik (triR w)) as [a b]. cbn in *. nra.
  - rewrite Eg. replace (snd (2 * RtoC gr * Df (RtoC (k0 * k0)))) with (2 * gr * snd (Df (RtoC (k0 * k0))))%R by (generalize (Df (RtoC (k0 * k0))); intros d; cbn; ring).
    rewrite Df_im by exact K1'. rewrite Kp, Kf_recip by exact P0. unfold dosv. destruct (Rlt_dec 1 s) as [_|X]; [|lra]. fold numer p ss.
    assert (Q : (sqrt p = / (ss * gr))%R). { apply sq_inj; [apply sqrt_pos|apply Rlt_le, Rinv_0_lt_compat, K0|]. rewrite sqrt_sqrt by lra. fold k0. rewrite <- (Rinv_mult k0 k0). rewrite Kp, Rinv_inv. reflexivity. }
    rewrite Q. field. split; lra.
Qed.
Lemma tri_lo : (s < 1)%R -> exists g, ulim x trA g /\ (- snd g = 4 * dosv)%R.
Proof.
  intros H1. assert (H0 := s_pos). set (sg := sqrt (- (s - 1))). assert (Sg : (0 < sg)%R) by (apply sqrt_lt_R0; lra). assert (Sg2 : (sg * sg = 1 - s)%R) by (unfold sg; rewrite sqrt_sqrt; lra).
  set (sh := sqrt (s + 3)). assert (Sh : (0 < sh)%R) by (apply sqrt_lt_R0; lra). assert (Sh2 : (sh * sh = s + 3)%R) by (apply sqrt_sqrt; lra).
  set (ss := sqrt s). assert (Ss : (0 < ss)%R) by (apply sqrt_lt_R0; lra). assert (Ss2 : (ss * ss = s)%R) by (apply sqrt_sqrt; lra).
  set (gr := (4 / (sg * sg * sg * sh))%R). assert (G3 : (0 < sg * sg * sg * sh)%R) by (repeat apply Rmult_lt_0_compat; assumption). assert (Gr : (0 < gr)%R) by (apply Rdiv_lt_0_compat; lra).
  assert (Eg : g0 = (0%R, gr)). { unfold g0, s1. destruct (Rlt_dec 0 (s - 1)) as [X|_]; [lra|]. fold sg sh. replace (Ci * RtoC sg * (Ci * RtoC sg) * (Ci * RtoC sg) * RtoC sh) with (0%R, (- (sg * sg * sg * sh))%R) by (apply C_ext; cbn; ring). unfold gr. apply C_ext; cbn; field; lra. }
  set (k0 := (ss * gr)%R). assert (K0 : (0 < k0)%R) by (apply Rmult_lt_0_compat; assumption).
  assert (KL : ulim x (fun w => trik (triR w)) (0%R, k0)). { replace (0%R, k0) with (RtoC ss * g0) by (rewrite Eg; unfold k0; apply C_ext; cbn; ring). exact k_lim. }
  set (numer := ((s - 1) * (s - 1) * (s - 1) * (3 + s))%R). assert (Nu : (0 < - numer)%R) by (replace (- numer)%R with ((1 - s) * (1 - s) * (1 - s) * (3 + s))%R by (unfold numer; ring); repeat apply Rmult_lt_0_compat; lra).
  set (denom := ((s + 1) * (s + 1) * (s + 1) * (3 - s))%R). assert (De : (0 < denom)%R) by (unfold denom; repeat apply Rmult_lt_0_compat; lra). assert (ND : (denom = 16 * s - numer)%R) by (unfold denom, numer; ring).
  assert (G2 : (gr * gr = 16 / (- numer))%R). { replace (- numer)%R with ((1 - s) * (1 - s) * (1 - s) * (3 + s))%R by (unfold numer; ring). rewrite <- Sg2. replace (3 + s)%R with (sh * sh)%R by lra. unfold gr. field. split; lra. }
  set (p := (- numer / denom)%R). assert (P0 : (0 < p)%R) by (unfold p; apply Rdiv_lt_0_compat; lra).
  assert (Kp : (- (k0 * k0) = 1 - / p)%R). { unfold k0. replace (ss * gr * (ss * gr))%R with (ss * ss * (gr * gr))%R by ring. rewrite Ss2, G2. unfold p. rewrite ND. field. repeat split; lra. }
  assert (RG : uev x (fun w => (0 < snd (trik (triR w)))%R)). { apply (uev_opn x (fun w => trik (triR w)) (0%R, k0) (fun z => (0 < snd z)%R)); [exact KL|apply upper_open|exact K0]. }
  assert (RG2 : uev x (fun w => (fst (trik (triR w)) < 0)%R /\ (0 < snd (trik (triR w)))%R)). { revert RG. apply uev_imp. intros w Hw F. destruct (r_off w Hw) as [A B]. destruct (trik_region _ A B) as [X|X]; lra. }
  assert (QL : ulim x (fun w => trik (triR w) * trik (triR w)) (RtoC (- (k0 * k0)))). { replace (RtoC (- (k0 * k0))) with ((0%R, k0) * (0%R, k0)) by (apply C_ext; cbn; ring). apply ulim_mul; exact KL. }
  set (m0 := (- (k0 * k0))%R) in *. assert (M0 : (m0 < 0)%R) by (unfold m0; nra).
  exists (2 * g0 * (Kf (RtoC m0) + 2 * Ci * Ef (RtoC (1 - m0)))). split.
  - apply trA_lim. apply (ulim_ext x (fun w => Kf (trik (triR w) * trik (triR w)) + 2 * Ci * Kf (1 - trik (triR w) * trik (triR w)))).
    + revert RG2. apply uev_imp. intros w Hw [F1 F2]. unfold sheet. destruct (Rlt_dec (snd (trik (triR w))) 0) as [X|_]; [lra|]. destruct (Rlt_dec (fst (trik (triR w))) 0) as [_|X]; [|contradiction]. symmetry. apply Ef_low. destruct (trik (triR w)) as [a b]. cbn in *. nra.
    + apply ulim_add; [apply (ulim_cont x (fun w => trik (triR w) * trik (triR w)) (RtoC m0) Kf QL), ccat_Kf; right; cbn; lra|]. apply ulim_mul; [apply ulim_const|].
      apply (ulim_Kf_up x (fun w => 1 - trik (triR w) * trik (triR w))); [lra| |].
      * rewrite <- RtoC_1m. apply (ulim_cont x (fun w => trik (triR w) * trik (triR w)) (RtoC m0) (fun z => 1 - z) QL). apply ccat_minus; [apply ccat_const|apply ccat_id].
      * revert RG2. apply uev_imp. intros w Hw [F1 F2]. destruct (trik (triR w)) as [a b]. cbn in *. nra.
  - rewrite Eg. assert (E1 := Ef_im (1 - m0) ltac:(lra)). replace (1 - (1 - m0))%R with m0 in E1 by ring.
    replace (snd (2 * (0%R, gr) * (Kf (RtoC m0) + 2 * Ci * Ef (RtoC (1 - m0))))) with (2 * gr * (fst (Kf (RtoC m0)) - 2 * snd (Ef (RtoC (1 - m0)))))%R by (generalize (Kf (RtoC m0)) (Ef (RtoC (1 - m0))); intros a b; cbn; ring).
    rewrite E1, Kp, Kf_recip by exact P0. unfold dosv. destruct (Rlt_dec 1 s) as [X|_]; [lra|]. fold numer denom p.
    assert (Sd : (0 < sqrt denom)%R) by (apply sqrt_lt_R0; exact De). assert (Q : (gr * sqrt p = 4 / sqrt denom)%R).
    { apply sq_inj; [apply Rmult_le_pos; [lra|apply sqrt_pos]|apply Rlt_le, Rdiv_lt_0_compat; lra|]. replace (gr * sqrt p * (gr * sqrt p))%R with (gr * gr * (sqrt p * sqrt p))%R by ring. rewrite sqrt_sqrt, G2 by lra. replace (4 / sqrt denom * (4 / sqrt denom))%R with (16 / (sqrt denom * sqrt denom))%R by (field; lra). rewrite sqrt_sqrt by lra. unfold p. field. split; lra. }
    set (kk := fst (Kf (RtoC (1 - p)))) in *. clearbody kk. replace (- (2 * gr * (sqrt p * kk - 2 * (sqrt p * kk))))%R with (2 * kk * (gr * sqrt p))%R by ring. rewrite Q. field. lra.
Qed.
End Tri.
Section TriMain.
Variables (ellipk : C -> result C) (ellipkm1 : R -> result R) (D : R).
Hypotheses (HK : computes_K ellipk) (HA : cut_from_above ellipk) (HM : computes_Km1 ellipkm1) (HD : (0 < D)%R).
Let d := (D * 4 / 9)%R.
Lemma d_pos : (0 < d)%R. Proof. unfold d. lra. Qed.
Lemma tri_val_up (w : C) : (0 < snd w)%R -> triangular_gf_z ellipk w D = Ok (RtoC (1 / (2 * PI) / d) * trA (w / RtoC d)).
Proof.
  intros Hw. assert (P := d_pos). assert (NZ : RtoC d <> 0) by (apply RtoC_neq0; lra). destruct (tri_average ellipk HK D w HD (or_introl (Rgt_not_eq _ _ Hw))) as (G & E & A).
  - intros X. apply (f_equal snd) in X. cbn in X. lra.
  - intros _ x Hx. apply above_val; assumption.
  - rewrite E. f_equal. assert (W : w = RtoC d * (w / RtoC d)) by (change (w = RtoC d * (w / RtoC d) :> C); field; exact NZ). assert (B := tri_avg (w / RtoC d) w d P W). apply average_mean in A. rewrite <- A. apply average_mean. apply B. left. rewrite div_real by lra. cbn. apply Rgt_not_eq, Rdiv_lt_0_compat; assumption.
Qed.
Lemma tri_bd e : e <> (- (3 / 2) * d)%R -> e <> (- d)%R -> e <> (3 * d)%R -> exists g, boundary (triangular_gf_z ellipk) e D g /\ triangular_dos ellipkm1 e D = Ok (- snd g / PI)%R.
Proof.
  intros N1 N2 N3. assert (P := d_pos). assert (HP := PI_RGT_0). set (x := (e / d)%R). assert (Ex : e = (d * x)%R) by (unfold x; field; lra). assert (Ex' : (1 / d * e)%R = x) by (unfold x; field; lra).
  assert (M1 : x <> (- (3 / 2))%R) by (intros X; apply N1; rewrite Ex, X; ring). assert (M2 : x <> (- (1))%R) by (intros X; apply N2; rewrite Ex, X; ring). assert (M3 : x <> 3%R) by (intros X; apply N3; rewrite Ex, X; ring).
  assert (BD : forall g, ulim x trA g -> boundary (triangular_gf_z ellipk) e D (RtoC (1 / (2 * PI) / d) * g)).
  { intros g L. apply (bd_ulim _ (fun w => RtoC (1 / (2 * PI) / d) * trA (w / RtoC d))); [|apply uev_true; exact tri_val_up]. apply ulim_mul; [apply ulim_const|]. rewrite Ex. apply (ulim_scale x d trA); assumption. }
  assert (IM : forall g : C, (- snd (RtoC (1 / (2 * PI) / d) * g)%C / PI = / (2 * (PI * PI) * d) * - snd g)%R) by (intros g; cbn; field; lra).
  unfold triangular_dos. fold d. rewrite rdiv_ok' by lra. cbn [bind]. cbv zeta. rewrite Ex'. rewrite (rdiv_ok' _ d) by lra.
  destruct (Rlt_dec x (- (3 / 2))) as [L|L].
  - exists (RtoC (1 / (2 * PI) / d) * trA (RtoC x)). assert (O : offT (RtoC x)) by (right; left; exact L). split; [apply BD, ulim_ccat, (holo_ccat offT trA _ trA_holo O)|]. cbn [bind]. rewrite IM, tri_real_im by exact O. f_equal. ring.
  - destruct (Rlt_dec 3 x) as [L3|L3].
    + exists (RtoC (1 / (2 * PI) / d) * trA (RtoC x)). assert (O : offT (RtoC x)) by (right; right; exact L3). split; [apply BD, ulim_ccat, (holo_ccat offT trA _ trA_holo O)|]. cbn [bind]. rewrite IM, tri_real_im by exact O. f_equal. ring.
    + assert (Hx : (- (3 / 2) < x < 3)%R) by lra. assert (S0 := s_pos x Hx). assert (S2 := s_sq x Hx). assert (S3 := s_lt x Hx). set (s := sqrt (2 * x + 3)) in *.
      assert (Q : exists g, ulim x trA g /\ (- snd g = 4 * dosv x)%R).
      { destruct (Rlt_dec 1 s) as [A|A]; [exact (tri_hi x Hx ltac:(fold s; lra) A)|]. assert (s <> 1)%R by (intros X; rewrite X in S2; lra). apply (tri_lo x Hx); fold s; lra. }
      destruct Q as (g & Lg & Ig). exists (RtoC (1 / (2 * PI) / d) * g). split; [apply BD, Lg|]. rewrite IM, Ig. unfold dosv. fold s.
      set (numer := ((s - 1) * (s - 1) * (s - 1) * (3 + s))%R). set (denom := ((s + 1) * (s + 1) * (s + 1) * (3 - s))%R). assert (De : (0 < denom)%R) by (unfold denom; repeat apply Rmult_lt_0_compat; lra). assert (ND : (denom = 16 * s - numer)%R) by (unfold denom, numer; ring).
      assert (Ss : (0 < sqrt s)%R) by (apply sqrt_lt_R0; exact S0). assert (Sd : (0 < sqrt denom)%R) by (apply sqrt_lt_R0; exact De).
      destruct (Rlt_dec x (- (1))) as [L1|L1].
      * destruct (Rlt_dec 1 s) as [A|A]; [exfalso; nra|]. assert (s < 1)%R by nra. assert (Nu : (0 < - numer)%R) by (replace (- numer)%R with ((1 - s) * (1 - s) * (1 - s) * (3 + s))%R by (unfold numer; ring); repeat apply Rmult_lt_0_compat; lra).
        rewrite rdiv_ok' by lra. cbn [bind]. rewrite (Km1_val ellipkm1 _ HM). 2:{ split; [apply Rdiv_lt_0_compat; lra|]. apply (Rmult_le_reg_r denom); [exact De|]. unfold Rdiv. rewrite Rmult_assoc, Rinv_l by lra. lra. }
        cbn [bind]. rewrite rdiv_ok' by lra. cbn [bind]. f_equal. generalize (fst (Kf (RtoC (1 - - numer / denom)))). intros k. field. repeat split; lra.
      * destruct (Rlt_dec 1 s) as [A|A]. 2:{ exfalso. assert (s <= 1)%R by lra. nra. } assert (Nu : (0 < numer)%R) by (unfold numer; repeat apply Rmult_lt_0_compat; lra).
        rewrite rdiv_ok' by lra. cbn [bind]. rewrite (Km1_val ellipkm1 _ HM). 2:{ split; [apply Rdiv_lt_0_compat; lra|]. apply (Rmult_le_reg_r s); [exact S0|]. unfold Rdiv. rewrite Rmult_assoc, Rinv_l by lra. lra. }
        cbn [bind]. rewrite rdiv_ok' by lra. cbn [bind]. f_equal. generalize (fst (Kf (RtoC (1 - 1 / 16 * numer / s)))). intros k. field. repeat split; lra.
Qed.
End TriMain.
