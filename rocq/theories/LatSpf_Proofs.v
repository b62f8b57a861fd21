(** * Boundary values: tools, the square lattice *)
From Coq Require Import Reals Lra Lia List.
From Coquelicot Require Import Coquelicot.
From Verif Require Import Base CBase CExp CSqrt Lattice_Model Bethe_Proofs Bethe_Main LatMom_Spec LatDer_Spec LatDer_Model LatDer_Dos LatEll_Model LatEll_Dos LatInt_Spec LatInt_Legendre LatInt_Local LatInt_Square CAnal CHol CEll CHolo LatBz_Spec LatRect_Main LatTri_Proofs LatTri_Main LatCut_Proofs LatSpf_Spec.
Local Open Scope C_scope.

Lemma ulim_cont x f l h : ulim x f l -> ccat h l -> ulim x (fun w => h (f w)) (h l).
Proof.
  intros Hf Hh t Ht. destruct (proj1 (ccat_eps h l) Hh t Ht) as (d & Hd & B). destruct (Hf d Hd) as (r & Hr & A). exists r. split; [exact Hr|]. intros w Hw Hx. apply B, A; assumption.
Qed.
Lemma ulim_ext x f g l : uev x (fun w => f w = g w) -> ulim x f l -> ulim x g l.
Proof.
  intros (r1 & H1 & E) Hf t Ht. destruct (Hf t Ht) as (r & Hr & A). exists (Rmin r1 r). split; [now apply Rmin_glb_lt|]. intros w Hw Hx. assert (M1 := Rmin_l r1 r). assert (M2 := Rmin_r r1 r).
  rewrite <- E by lra. apply A; lra.
Qed.
Lemma uev_imp x (P Q : C -> Prop) : (forall w, (0 < snd w)%R -> P w -> Q w) -> uev x P -> uev x Q.
Proof. intros H (r & Hr & A). exists r. split; [exact Hr|]. intros w Hw Hx. apply H; [exact Hw|apply A; assumption]. Qed.
Lemma uev_true x (P : C -> Prop) : (forall w, (0 < snd w)%R -> P w) -> uev x P.
Proof. intros H. exists 1%R. split; [lra|]. intros w Hw _. apply H, Hw. Qed.
Lemma uev_opn x f l V : ulim x f l -> opn V -> V l -> uev x (fun w => V (f w)).
Proof. intros Hf O H. destruct (O l H) as (d & Hd & B). destruct (Hf d Hd) as (r & Hr & A). exists r. split; [exact Hr|]. intros w Hw Hx. apply B, A; assumption. Qed.
Lemma ccat_Kf m : offK m -> ccat Kf m. Proof. intros H. exact (hol_ccat offK Kf K1 m Kf_hol H). Qed.
Lemma ccat_csqrt z : offcut z -> ccat csqrt z.
Proof. intros H. apply (holo_ccat offcut csqrt); [exact (holo_csqrt offcut (fun z => z) (holo_id offcut) (fun w Hw => Hw))|exact H]. Qed.
(** ** the elliptic integral near its cut *)
Definition Df (m : C) : C := Ef m - 2 * Ci * Kf (1 - m).
Lemma Kf_low m : (snd m < 0)%R -> Kf m = Df m. Proof. intros H. unfold Df. rewrite Ef_low by exact H. ring. Qed.
Lemma ccat_Df x : (1 < x)%R -> ccat Df (RtoC x). Proof. exact (below_ccat x). Qed.
Lemma ulim_Kf_up x f (m : R) : (1 < m)%R -> ulim x f (RtoC m) -> uev x (fun w => (0 < snd (f w))%R) -> ulim x (fun w => Kf (f w)) (Ef (RtoC m)).
Proof.
  intros Hm Hf U. apply (ulim_ext x (fun w => Ef (f w))); [|apply (ulim_cont x f); [exact Hf|apply ccat_Ef; right; cbn; lra]].
  revert U. apply uev_imp. intros w _ H. apply Ef_up, H.
Qed.
Lemma ulim_Kf_low x f (m : R) : (1 < m)%R -> ulim x f (RtoC m) -> uev x (fun w => (snd (f w) < 0)%R) -> ulim x (fun w => Kf (f w)) (Df (RtoC m)).
Proof.
  intros Hm Hf U. apply (ulim_ext x (fun w => Df (f w))); [|apply (ulim_cont x f); [exact Hf|apply ccat_Df, Hm]].
  revert U. apply uev_imp. intros w _ H. symmetry. apply Kf_low, H.
Qed.
Lemma Kf_im_R x : (x < 1)%R -> snd (Kf (RtoC x)) = 0%R.
Proof.
  intros H. assert (E := Kf_conj (RtoC x) (or_intror H)). replace (Cconj (RtoC x)) with (RtoC x) in E by (apply C_ext; cbn; ring). revert E. generalize (Kf (RtoC x)). intros k E. apply (f_equal snd) in E. cbn in E. lra.
Qed.
Lemma Kf_R x : (x < 1)%R -> Kf (RtoC x) = RtoC (fst (Kf (RtoC x))).
Proof. intros H. apply C_ext; [reflexivity|]. rewrite Kf_im_R by exact H. reflexivity. Qed.
Lemma RtoC_1m x : 1 - RtoC x = RtoC (1 - x). Proof. now rewrite RtoC_minus. Qed.
Lemma Ef_im x : (1 < x)%R -> snd (Ef (RtoC x)) = fst (Kf (RtoC (1 - x))).
Proof.
  intros H. unfold Ef. rewrite RtoC_1m, <- RtoC_inv by lra. assert (P : (0 < / x)%R) by (apply Rinv_0_lt_compat; lra). assert (L : (/ x < 1)%R) by (apply (Rmult_lt_reg_r x); [lra|]; rewrite Rinv_l by lra; lra).
  rewrite csqrt_R by lra. rewrite (Kf_R (/ x)) by exact L. rewrite (Kf_R (1 - x)) at 1 by lra. cbn. ring.
Qed.
Lemma Df_im x : (1 < x)%R -> snd (Df (RtoC x)) = (- fst (Kf (RtoC (1 - x))))%R.
Proof.
  intros H. unfold Df. assert (E := Ef_im x H). rewrite RtoC_1m. rewrite (Kf_R (1 - x)) at 1 by lra. set (a := Ef (RtoC x)) in *. set (k := fst (Kf (RtoC (1 - x)))) in *. clearbody a k. cbn. rewrite E. ring.
Qed.
(** K(1 - 1/p) = sqrt(p) K(1 - p) *)
Lemma Kf_recip p : (0 < p)%R -> fst (Kf (RtoC (1 - / p))) = (sqrt p * fst (Kf (RtoC (1 - p))))%R.
Proof.
  intros H. assert (P : (0 < / p)%R) by (apply Rinv_0_lt_compat; exact H). rewrite (imag_modulus (RtoC (1 - / p))) by (right; cbn; lra). replace (1 - RtoC (1 - / p)) with (RtoC (/ p)) by (rewrite <- RtoC_1m; ring).
  replace (- RtoC (1 - / p) / RtoC (/ p)) with (RtoC (1 - p)). 2:{ rewrite <- RtoC_opp, <- RtoC_div by lra. f_equal. field. lra. }
  rewrite csqrt_R by lra. rewrite (Kf_R (1 - p)) by lra. assert (S := sqrt_lt_R0 p H). rewrite sqrt_inv by lra. rewrite <- RtoC_inv by (apply Rinv_neq_0_compat; lra). rewrite Rinv_inv. cbn. ring.
Qed.
Lemma Km1_val ellipkm1 p : computes_Km1 ellipkm1 -> (0 < p <= 1)%R -> ellipkm1 p = Ok (fst (Kf (RtoC (1 - p)))).
Proof. intros H Hp. destruct (H p Hp) as (k & E & L). rewrite E. f_equal. apply Kf_eq in L. rewrite <- L. reflexivity. Qed.
(** ** from boundary values to spectral functions *)
Lemma spectral_bd (gf : C -> R -> result C) (avg : C -> C -> Prop) e D g : boundary gf e D g -> (forall w G, (0 < snd w)%R -> gf w D = Ok G -> avg w G) -> spectral avg e (- snd g / PI).
Proof.
  intros B A t Ht. assert (PP := PI_RGT_0). destruct (B (t * PI)%R ltac:(apply Rmult_lt_0_compat; assumption)) as (r & Hr & H). exists r. split; [exact Hr|]. intros w Hw Hx. destruct (H w Hw Hx) as (G & E & L). exists G. split; [apply (A w G Hw E)|].
  replace (- snd G / PI - - snd g / PI)%R with (- (snd (G - g)%C) / PI)%R by (cbn; field; lra). unfold Rdiv. rewrite Rabs_mult, Rabs_Ropp, (Rabs_pos_eq (/ PI)) by (apply Rlt_le, Rinv_0_lt_compat; lra).
  apply (Rmult_lt_reg_r PI); [lra|]. rewrite Rmult_assoc, Rinv_l, Rmult_1_r by lra. eapply Rle_lt_trans; [apply Cmod_snd|exact L].
Qed.
Lemma bd_ulim (gf : C -> R -> result C) F e D g : ulim e F g -> uev e (fun w => gf w D = Ok (F w)) -> boundary gf e D g.
Proof.
  intros L (r1 & H1 & E) t Ht. destruct (L t Ht) as (r & Hr & A). exists (Rmin r1 r). split; [now apply Rmin_glb_lt|]. intros w Hw Hx. assert (M1 := Rmin_l r1 r). assert (M2 := Rmin_r r1 r).
  exists (F w). split; [apply E; lra|apply A; lra].
Qed.
(** ** the square lattice *)
Section Sq.
Variables (ellipk : C -> result C) (ellipkm1 : R -> result R) (D e : R).
Hypotheses (HK : computes_K ellipk) (HM : computes_Km1 ellipkm1) (HD : (0 < D)%R) (He : e <> 0%R) (Ne : Rabs e <> D).
Let rr (w : C) : C := RtoC D / w.
Let p : R := (e / D * (e / D))%R.
Lemma sq_ok w : off_band D w -> square_gf_z ellipk w D = Ok (RtoC (2 / PI) / RtoC D * rr w * Kf (rr w * rr w)).
Proof.
  intros O. assert (N := off_band_neq0 D HD w O). assert (W := param_off D HD w O). unfold square_gf_z. rewrite cdiv_ok by exact N. cbn [bind]. rewrite (ellipk_ok ellipk HK) by exact W. cbn [bind]. rewrite cdiv_ok by (apply RtoC_neq0; lra). reflexivity.
Qed.
Lemma rr_lim : ulim e rr (RtoC (D / e)).
Proof. unfold rr. rewrite RtoC_div by exact He. apply ulim_mul; [apply ulim_const|]. apply ulim_inv; [apply ulim_id|apply RtoC_neq0, He]. Qed.
Lemma p_pos : (0 < p)%R.
Proof. unfold p. assert (e / D <> 0)%R by (apply Rmult_integral_contrapositive_currified; [exact He|apply Rinv_neq_0_compat; lra]). destruct (Rdichotomy _ _ H); nra. Qed.
Lemma rr2_lim : ulim e (fun w => rr w * rr w) (RtoC (/ p)).
Proof. replace (/ p)%R with (D / e * (D / e))%R by (unfold p; field; lra). rewrite RtoC_mult. apply ulim_mul; exact rr_lim. Qed.
Lemma rr2_im w : (0 < snd w)%R -> exists c, (0 < c)%R /\ snd (rr w * rr w) = (- c * fst w)%R.
Proof.
  intros Hw. set (n := (fst w * fst w + snd w * snd w)%R). assert (P : (0 < n)%R) by (unfold n; nra). exists (2 * D * D * snd w / (n * n))%R. split.
  - apply Rdiv_lt_0_compat; [|apply Rmult_lt_0_compat; exact P]. repeat apply Rmult_lt_0_compat; lra.
  - unfold rr, n. destruct w as [a b]. cbn in *. field. replace (a ^ 2 + b ^ 2)%R with (a * a + b * b)%R by ring. unfold n in P. cbn in P. lra.
Qed.
Lemma sgn_ev : uev e (fun w => (0 < fst w * e)%R).
Proof.
  destruct (Rdichotomy _ _ He) as [L|L].
  - destruct (uev_re e (2 * e) (e / 2) ltac:(lra)) as (r & Hr & B). exists r. split; [exact Hr|]. intros w Hw Hx. specialize (B w Hw Hx). cbv beta in B. nra.
  - destruct (uev_re e (e / 2) (2 * e) ltac:(lra)) as (r & Hr & B). exists r. split; [exact Hr|]. intros w Hw Hx. specialize (B w Hw Hx). cbv beta in B. nra.
Qed.
Lemma sq_lim k0 : ulim e (fun w => Kf (rr w * rr w)) k0 -> boundary (square_gf_z ellipk) e D (RtoC (2 / PI) / RtoC D * RtoC (D / e) * k0).
Proof.
  intros L. apply (bd_ulim _ (fun w => RtoC (2 / PI) / RtoC D * rr w * Kf (rr w * rr w))); [|apply uev_true; intros w Hw; apply sq_ok; left; lra].
  apply ulim_mul; [|exact L]. apply ulim_mul; [apply ulim_const|exact rr_lim].
Qed.
Lemma sq_im k0 : snd (RtoC (2 / PI) / RtoC D * RtoC (D / e) * k0) = (2 / PI / e * snd k0)%R.
Proof. assert (HP := PI_RGT_0). rewrite <- RtoC_div, <- RtoC_mult by lra. cbn. field. lra. Qed.
Lemma square_bd : exists g, boundary (square_gf_z ellipk) e D g /\ square_dos ellipkm1 e D = Ok (- snd g / PI)%R.
Proof.
  assert (HP := PI_RGT_0). assert (P0 := p_pos). assert (L2 := rr2_lim). assert (PI0 : (0 < / p)%R) by (apply Rinv_0_lt_compat; exact P0).
  assert (Ed : Rabs (e / D) = (Rabs e / D)%R) by (unfold Rdiv; rewrite Rabs_mult, (Rabs_pos_eq (/ D)) by (apply Rlt_le, Rinv_0_lt_compat; lra); reflexivity).
  assert (Ep : p = (Rabs e / D * (Rabs e / D))%R) by (unfold p; rewrite <- Ed, <- Rabs_mult, Rabs_pos_eq; [reflexivity|apply Rle_0_sqr]). unfold square_dos. rewrite rdiv_ok' by lra. cbn [bind]. rewrite Ed. assert (A0 : (0 < Rabs e)%R) by (apply Rabs_pos_lt, He).
  assert (Q0 : (0 < Rabs e / D)%R) by (apply Rdiv_lt_0_compat; assumption).
  destruct (Rlt_dec (Rabs e) D) as [L|L].
  - assert (Q1 : (Rabs e / D < 1)%R) by (apply (Rmult_lt_reg_r D); [lra|]; unfold Rdiv; rewrite Rmult_assoc, Rinv_l by lra; lra). destruct (Rle_dec _ 1) as [_|X]; [|lra]. assert (P1 : (p < 1)%R) by nra.
    assert (PI1 : (1 < / p)%R) by (apply (Rmult_lt_reg_r p); [lra|]; rewrite Rinv_l by lra; lra). assert (Sp : sqrt p = (Rabs e / D)%R) by (rewrite Ep; apply sqrt_square; lra).
    assert (KR := Kf_recip p P0). fold p. rewrite (Km1_val ellipkm1 p HM) by lra. cbn [bind]. rewrite rdiv_ok' by lra. cbn [bind].
    destruct (Rdichotomy _ _ He) as [S|S].
    + exists (RtoC (2 / PI) / RtoC D * RtoC (D / e) * Ef (RtoC (/ p))). split.
      * apply sq_lim, ulim_Kf_up; [exact PI1|exact L2|]. generalize sgn_ev. apply uev_imp. intros w Hw H. destruct (rr2_im w Hw) as (c & Hc & E). rewrite E. assert (fst w < 0)%R by nra. nra.
      * rewrite sq_im, Ef_im, KR, Sp by exact PI1. rewrite Rabs_left by exact S. f_equal. field. repeat split; lra.
    + exists (RtoC (2 / PI) / RtoC D * RtoC (D / e) * Df (RtoC (/ p))). split.
      * apply sq_lim, ulim_Kf_low; [exact PI1|exact L2|]. generalize sgn_ev. apply uev_imp. intros w Hw H. destruct (rr2_im w Hw) as (c & Hc & E). rewrite E. assert (0 < fst w)%R by nra. nra.
      * rewrite sq_im, Df_im, KR, Sp by exact PI1. rewrite Rabs_pos_eq by lra. f_equal. field. repeat split; lra.
  - assert (Q1 : (1 < Rabs e / D)%R) by (apply (Rmult_lt_reg_r D); [lra|]; unfold Rdiv; rewrite Rmult_assoc, Rinv_l by lra; lra). destruct (Rle_dec _ 1) as [X|_]; [lra|]. assert (P1 : (1 < p)%R) by nra.
    assert (PI1 : (/ p < 1)%R) by (apply (Rmult_lt_reg_r p); [lra|]; rewrite Rinv_l by lra; lra). exists (RtoC (2 / PI) / RtoC D * RtoC (D / e) * Kf (RtoC (/ p))). split.
    + apply sq_lim. apply (ulim_cont e (fun w => rr w * rr w)); [exact L2|apply ccat_Kf; right; exact PI1].
    + rewrite sq_im, Kf_im_R by exact PI1. f_equal. field. split; lra.
Qed.
End Sq.
