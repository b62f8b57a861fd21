(** * The single bands of the lattices: range, continuity, no weight at single energies *)
From Coq Require Import Reals Lra Lia List.
From Coquelicot Require Import Coquelicot.
From Verif Require Import Base CBase Fourier_Filon Lattice_Model LatMom_Spec LatDer_Spec LatDer_Model LatEll_Model LatRdos_Model LatInt_Spec LatInt_Proofs LatInt_Local LatInt_Square LatBz_Spec LatTri_Main LatRect_Main LatSc_Red LatBcc_Main LatFcc_Red LatSpf_Spec LatSpf_Rect
  LatHil_Spec LatHil_Poisson LatHil_Stieltjes LatHil_Main LatHil_Mean LatHil_Band LatHil_Avg LatHil_Lat.
Import ListNotations.
Local Open Scope R_scope.

Lemma uc_c2 : uc 2 (fun k => cos (snd (fst k))). Proof. apply (uc_fst 1 (fun k => cos (snd k))), uc_cos. Qed.
Lemma uc_c3 : uc 3 (fun k => cos (snd (fst k))). Proof. apply (uc_fst 2 (fun k => cos (snd k))), uc_cos. Qed.
Lemma uc_c3' : uc 3 (fun k => cos (snd (fst (fst k)))). Proof. apply (uc_fst 2 (fun k => cos (snd (fst k)))), uc_c2. Qed.
Lemma cb x : Rabs (cos x) <= 1. Proof. apply Rabs_le. apply COS_bound. Qed.

(** square and rectangular *)
Definition eR (a b : R) (k : K 2) : R := a * cos (snd (fst k)) + b * cos (snd k).
Lemma eR_uc a b : uc 2 (eR a b).
Proof. apply uc_plus; apply uc_scal; [exact uc_c2|apply uc_cos]. Qed.
Lemma eR_range a b k : 0 <= a -> 0 <= b -> - (a + b) <= eR a b k <= a + b.
Proof. intros Ha Hb. unfold eR. assert (X := COS_bound (snd (fst k))). assert (Y := COS_bound (snd k)). split; nra. Qed.
Lemma eR_na a b q : 0 <= a -> 0 < b -> noatom 2 (fun k => eR a b k - q).
Proof.
  intros Ha Hb. apply (noatom_chain 1 (fun k => a * cos (snd k) - q) b 0); [lra|apply uc_shift, eR_uc|apply bd_shift; exists (a + b); intros k; apply eR_range; lra|]. intros k s. unfold eR. cbn [fst snd]. rewrite Rplus_0_r. ring.
Qed.
(** triangular *)
Definition eT (a : R) (k : K 2) : R := a * (cos (snd (fst k)) + cos (snd k) + cos (snd (fst k) - snd k)).
Lemma uc_diff : uc 2 (fun k => cos (snd (fst k) - snd k)).
Proof.
  intros t Ht. exists (t / 2). split; [lra|]. intros k k' [[_ A] B]. cbn [fst snd] in *. eapply Rle_trans; [apply cos_lip|]. replace (snd (fst k') - snd k' - (snd (fst k) - snd k)) with ((snd (fst k') - snd (fst k)) - (snd k' - snd k)) by ring.
  eapply Rle_trans; [apply Rabs_triang|]. rewrite Rabs_Ropp. lra.
Qed.
Lemma eT_uc a : uc 2 (eT a).
Proof. apply uc_scal, uc_plus; [apply uc_plus; [exact uc_c2|apply uc_cos]|exact uc_diff]. Qed.
Lemma eT_form a k s : eT a (k, s) = a * cos (snd k) + 2 * a * cos (snd k / 2) * cos (s + - (snd k / 2)).
Proof.
  unfold eT. cbn [fst snd]. set (h := snd k / 2). replace (snd k) with (2 * h) by (unfold h; field). set (v := s + - h). replace s with (v + h) by (unfold v; ring). replace (2 * h - (v + h)) with (- (v - h)) by ring. rewrite cos_neg, cos_plus, cos_minus. ring.
Qed.
Lemma eT_range a k : 0 <= a -> - (3 / 2) * a <= eT a k <= 3 * a.
Proof.
  intros Ha. destruct k as [k s]. rewrite eT_form. assert (E : cos (snd k) = 2 * cos (snd k / 2) * cos (snd k / 2) - 1) by (rewrite <- cos_2a_cos; f_equal; field). rewrite E. assert (X := COS_bound (snd k / 2)). assert (Y := COS_bound (s + - (snd k / 2))).
  set (c := cos (snd k / 2)) in *. set (y := cos (s + - (snd k / 2))) in *. clearbody c y. clear E. assert (Q1 : c * c <= 1) by nra. assert (Q2 : y * y <= 1) by nra. assert (Q3 := Rle_0_sqr (2 * c + y)). assert (Q4 := Rle_0_sqr (c - y)). unfold Rsqr in Q3, Q4.
  assert (H : - (3 / 2) <= 2 * c * c - 1 + 2 * c * y <= 3) by (split; lra). split; nra.
Qed.
Lemma half_uc : uc 1 (fun k => cos (snd k / 2)).
Proof.
  apply (uc_snd 0 (fun x => cos (x / 2)) 1). intros x y. eapply Rle_trans; [apply cos_lip|]. replace (x / 2 - y / 2) with (/ 2 * (x - y)) by field. rewrite Rabs_mult, (Rabs_pos_eq (/ 2)) by lra. assert (P := Rabs_pos (x - y)). lra.
Qed.
Lemma half_na : noatom 1 (fun k => cos (snd k / 2)).
Proof.
  assert (B : bounded 1 (fun k => cos (snd k / 2))) by (exists 1; intros k; apply COS_bound). assert (E : forall x, cos (x / 2) * cos (x / 2) = 1 / 2 + 1 / 2 * cos (x + 0)).
  { intros x. rewrite Rplus_0_r. replace (cos x) with (cos (2 * (x / 2))) by (f_equal; field). rewrite cos_2a_cos. field. }
  assert (U2 : uc 1 (fun k => cos (snd k / 2) * cos (snd k / 2))) by (apply (uc_mult 1 _ _ 1 1); try exact half_uc; intros; apply cb).
  assert (B2 : bounded 1 (fun k => cos (snd k / 2) * cos (snd k / 2))) by (exists 1; intros k; assert (X := COS_bound (snd k / 2)); nra).
  apply (noatom_dom 1 _ (fun k => cos (snd k / 2) * cos (snd k / 2)) 1); [exact half_uc|exact B|exact U2|exact B2|lra| |].
  - intros k. rewrite Rabs_mult, Rmult_1_l. assert (X := cb (snd k / 2)). assert (P := Rabs_pos (cos (snd k / 2))). nra.
  - apply (noatom_chain 0 (fun _ => 1 / 2) (1 / 2) 0); [lra|exact U2|exact B2|]. intros k s. cbn [snd]. apply E.
Qed.
Lemma eT_na a q : 0 < a -> noatom 2 (fun k => eT a k - q).
Proof.
  intros Ha. apply (noatom_step 1 (fun k => a * cos (snd k) - q) (fun k => 2 * a * cos (snd k / 2)) (fun k => - (snd k / 2))).
  - apply uc_scal, half_uc.
  - exists (2 * a). intros k. assert (X := COS_bound (snd k / 2)). split; nra.
  - apply uc_shift, eT_uc.
  - apply bd_shift. exists (3 * a). intros k. assert (X := eT_range a k ltac:(lra)). lra.
  - intros k s. rewrite eT_form. ring.
  - apply noatom_scal; [lra|exact half_uc|exists 1; intros k; apply COS_bound|exact half_na].
Qed.
(** simple cubic *)
Definition eS (a : R) (k : K 3) : R := a * (cos (snd (fst (fst k))) + cos (snd (fst k)) + cos (snd k)).
Lemma eS_uc a : uc 3 (eS a).
Proof. apply uc_scal, uc_plus; [apply uc_plus; [exact uc_c3'|exact uc_c3]|apply uc_cos]. Qed.
Lemma eS_range a k : 0 <= a -> - (3 * a) <= eS a k <= 3 * a.
Proof. intros Ha. unfold eS. assert (X := COS_bound (snd (fst (fst k)))). assert (Y := COS_bound (snd (fst k))). assert (Z := COS_bound (snd k)). split; nra. Qed.
Lemma eS_na a q : 0 < a -> noatom 3 (fun k => eS a k - q).
Proof.
  intros Ha. apply (noatom_chain 2 (fun k => a * cos (snd (fst k)) + a * cos (snd k) - q) a 0); [lra|apply uc_shift, eS_uc|apply bd_shift; exists (3 * a); intros k; apply eS_range; lra|]. intros k s. unfold eS. cbn [fst snd]. rewrite Rplus_0_r. ring.
Qed.
(** body-centred cubic *)
Definition eB (a : R) (k : K 3) : R := a * (cos (snd (fst (fst k))) * cos (snd (fst k)) * cos (snd k)).
Lemma cc_b x y : Rabs (cos x * cos y) <= 1.
Proof. rewrite Rabs_mult. assert (X := cb x). assert (Y := cb y). assert (P := Rabs_pos (cos x)). assert (Q := Rabs_pos (cos y)). nra. Qed.
Lemma cc_uc : uc 2 (fun k => cos (snd (fst k)) * cos (snd k)).
Proof. apply (uc_mult 2 _ _ 1 1); [exact uc_c2|apply uc_cos|intros; apply cb|intros; apply cb]. Qed.
Lemma eB_uc a : uc 3 (eB a).
Proof. apply uc_scal. apply (uc_mult 3 (fun k => cos (snd (fst (fst k))) * cos (snd (fst k))) (fun k => cos (snd k)) 1 1); [exact (uc_fst 2 _ cc_uc)|apply uc_cos|intros; apply cc_b|intros; apply cb]. Qed.
Lemma eB_range a k : 0 <= a -> - a <= eB a k <= a.
Proof.
  intros Ha. apply Rabs_le_between. unfold eB. rewrite Rabs_mult, (Rabs_pos_eq a) by exact Ha. rewrite Rabs_mult. assert (X := cc_b (snd (fst (fst k))) (snd (fst k))). assert (Y := cb (snd k)).
  assert (P := Rabs_pos (cos (snd (fst (fst k))) * cos (snd (fst k)))). assert (Q := Rabs_pos (cos (snd k))). assert (H : Rabs (cos (snd (fst (fst k))) * cos (snd (fst k))) * Rabs (cos (snd k)) <= 1) by nra. nra.
Qed.
Lemma c_na : noatom 1 (fun k => cos (snd k)).
Proof. apply (noatom_chain 0 (fun _ => 0) 1 0); [lra|apply uc_cos|exists 1; intros; apply COS_bound|]. intros k s. cbn [snd]. rewrite Rplus_0_r. ring. Qed.
Lemma cc_na : noatom 2 (fun k => cos (snd (fst k)) * cos (snd k)).
Proof.
  apply (noatom_step 1 (fun _ => 0) (fun k => cos (snd k)) (fun _ => 0)); [apply uc_cos|exists 1; intros; apply COS_bound|exact cc_uc|exists 1; intros; apply Rabs_le_between, cc_b| |exact c_na]. intros k s. cbn [fst snd]. rewrite Rplus_0_r. ring.
Qed.
Lemma eB_na a q : 0 < a -> noatom 3 (fun k => eB a k - q).
Proof.
  intros Ha. apply (noatom_step 2 (fun _ => - q) (fun k => a * (cos (snd (fst k)) * cos (snd k))) (fun _ => 0)).
  - apply uc_scal, cc_uc.
  - exists a. intros k. assert (X := cc_b (snd (fst k)) (snd k)). apply Rabs_le_between in X. split; nra.
  - apply uc_shift, eB_uc.
  - apply bd_shift. exists a. intros k. apply eB_range. lra.
  - intros k s. unfold eB. cbn [fst snd]. rewrite Rplus_0_r. ring.
  - apply noatom_scal; [lra|exact cc_uc|exists 1; intros; apply Rabs_le_between, cc_b|exact cc_na].
Qed.
(** face-centred cubic *)
Definition eF (a : R) (k : K 3) : R := a * (cos (snd (fst (fst k))) * cos (snd (fst k)) + cos (snd (fst k)) * cos (snd k) + cos (snd k) * cos (snd (fst (fst k)))).
Lemma eF_uc a : uc 3 (eF a).
Proof.
  apply uc_scal, uc_plus; [apply uc_plus|].
  - exact (uc_fst 2 _ cc_uc).
  - apply (uc_mult 3 (fun k => cos (snd (fst k))) (fun k => cos (snd k)) 1 1); [exact uc_c3|apply uc_cos|intros; apply cb|intros; apply cb].
  - apply (uc_mult 3 (fun k => cos (snd k)) (fun k => cos (snd (fst (fst k)))) 1 1); [apply uc_cos|exact uc_c3'|intros; apply cb|intros; apply cb].
Qed.
Lemma eF_range a k : 0 <= a -> - a <= eF a k <= 3 * a.
Proof.
  intros Ha. unfold eF. assert (X := COS_bound (snd (fst (fst k)))). assert (Y := COS_bound (snd (fst k))). assert (Z := COS_bound (snd k)). set (x := cos (snd (fst (fst k)))) in *. set (y := cos (snd (fst k))) in *. set (z := cos (snd k)) in *. clearbody x y z.
  assert (H : -1 <= x * y + y * z + z * x <= 3); [|split; nra]. split; [|nra].
  assert (A : x * y + y * z + z * x + 1 = (1 + z) / 2 * ((1 + x) * (1 + y)) + (1 - z) / 2 * ((1 - x) * (1 - y))) by field. assert (0 <= (1 + x) * (1 + y)) by (apply Rmult_le_pos; lra). assert (0 <= (1 - x) * (1 - y)) by (apply Rmult_le_pos; lra).
  assert (0 <= (1 + z) / 2 * ((1 + x) * (1 + y))) by (apply Rmult_le_pos; lra). assert (0 <= (1 - z) / 2 * ((1 - x) * (1 - y))) by (apply Rmult_le_pos; lra). lra.
Qed.
Lemma eF_na a q : 0 < a -> noatom 3 (fun k => eF a k - q).
Proof.
  intros Ha. apply (noatom_step 2 (fun k => a * (cos (snd (fst k)) * cos (snd k)) - q) (eR a a) (fun _ => 0)).
  - apply eR_uc.
  - exists (a + a). intros k. apply eR_range; lra.
  - apply uc_shift, eF_uc.
  - apply bd_shift. exists (3 * a). intros k. assert (X := eF_range a k ltac:(lra)). lra.
  - intros k s. unfold eF, eR. cbn [fst snd]. rewrite Rplus_0_r. ring.
  - apply (noatom_ext 2 (fun k => eR a a k - 0)); [intros; ring|]. apply eR_na; lra.
Qed.

(** ** the bands of the code *)
Section Sq.
Variables (ellipkm1 : R -> result R) (D : R).
Hypothesis HD : 0 < D.
Lemma square_out e : e < - D \/ D < e -> square_dos ellipkm1 e D = Ok 0.
Proof.
  intros He. unfold square_dos. rewrite Bethe_Proofs.rdiv_ok by lra. cbn [bind]. destruct (Rle_dec (Rabs (e / D)) 1) as [L|L]; [|reflexivity]. exfalso. apply Rabs_le_between in L.
  assert (E : e = e / D * D) by (field; lra). set (x := e / D) in *. clearbody x. nra.
Qed.
Lemma square_dist : (forall e, ~ In e [- D; 0; D] -> exists d, square_dos ellipkm1 e D = Ok d /\ spectral (fun z => is_bz_average (fun k => 1 / (z - bloch square (D / 4) k 0 0))%C) e d) ->
  distribution is_bz_average (fun k => bloch square (D / 4) k 0 0) (tot (fun e => square_dos ellipkm1 e D)) (- D) [0; D].
Proof.
  intros Sp. apply (dist2 (- D) [0; D] (fun e => square_dos ellipkm1 e D)) with (eps := eR (D / 2) (D / 2)); try assumption.
  - cbn. lra.
  - exact square_out.
  - intros [k1 k2]. rewrite square_band. f_equal. unfold p1, eR. cbn [fst snd LatHil_Avg.k2]. field.
  - apply eR_uc.
  - intros k. cbn [final]. assert (X := eR_range (D / 2) (D / 2) k ltac:(lra) ltac:(lra)). lra.
  - intros q _. apply eR_na; lra.
Qed.
Lemma tri_out e : e < - (2 / 3) * D \/ 4 / 3 * D < e -> triangular_dos ellipkm1 e D = Ok 0.
Proof.
  intros He. unfold triangular_dos. rewrite !Bethe_Proofs.rdiv_ok by lra. cbn [bind]. set (x := 1 / (D * 4 / 9) * e). assert (Ex : x * (D * 4 / 9) = e) by (unfold x; field; lra).
  destruct (Rlt_dec x (- (3 / 2))) as [L|L]; [cbn [bind]; f_equal; ring|]. destruct (Rlt_dec 3 x) as [L'|L']; [cbn [bind]; f_equal; ring|]. exfalso. clearbody x. nra.
Qed.
Lemma tri_dist : (forall e, ~ In e [- (2 / 3) * D; - (4 / 9) * D; 4 / 3 * D] -> exists d, triangular_dos ellipkm1 e D = Ok d /\ spectral (fun z => is_bz_average (fun k => 1 / (z - bloch triangular (D * 4 / 9 / 2) k 0 0))%C) e d) ->
  distribution is_bz_average (fun k => bloch triangular (D * 4 / 9 / 2) k 0 0) (tot (fun e => triangular_dos ellipkm1 e D)) (- (2 / 3) * D) [- (4 / 9) * D; 4 / 3 * D].
Proof.
  intros Sp. apply (dist2 (- (2 / 3) * D) [- (4 / 9) * D; 4 / 3 * D] (fun e => triangular_dos ellipkm1 e D)) with (eps := eT (D * 4 / 9)); try assumption.
  - cbn. lra.
  - exact tri_out.
  - intros [k1 k2]. rewrite tri_band. f_equal. unfold eT. cbn [fst snd LatHil_Avg.k2]. field.
  - apply eT_uc.
  - intros k. cbn [final]. assert (X := eT_range (D * 4 / 9) k ltac:(lra)). lra.
  - intros q _. apply eT_na; lra.
Qed.
End Sq.
Section Rc.
Variables (ellipk : C -> result C) (D feps s : R).
Hypothesis HD : 0 < D.
Hypothesis Hs : 0 < s.
Lemma rect_out e : e < - D \/ D < e -> rectangular_dos ellipk feps e D s = Ok 0.
Proof.
  intros He. unfold rectangular_dos. rewrite !Bethe_Proofs.rdiv_ok by lra. cbn [bind]. rewrite rsqrt_ok by lra. cbn [bind]. assert (S0 := sqrt_lt_R0 s Hs). rewrite !Bethe_Proofs.rdiv_ok by lra. cbn [bind]. rewrite !Bethe_Proofs.rdiv_ok by lra. cbn [bind].
  assert (A : 1 < Rabs (e / D)). { assert (E : e = e / D * D) by (field; lra). set (x := e / D) in *. clearbody x. unfold Rabs. destruct (Rcase_abs x); nra. }
  destruct (Req_EM_T (Rabs (e / D)) 1) as [X|X]; [lra|]. destruct (Rle_dec (Rabs (e / D)) 1) as [L|L]; [lra|]. rewrite Rabs_R0. reflexivity.
Qed.
Lemma rect_dist (p : R) (ps : list R) : p = - D -> final p ps = D -> incr p ps ->
  (forall e, ~ In e (p :: ps) -> exists d, rectangular_dos ellipk feps e D s = Ok d /\ spectral (fun z => is_bz_average (fun k => 1 / (z - rectangular_band (D / (1 + s) / 2) s k))%C) e d) ->
  distribution is_bz_average (rectangular_band (D / (1 + s) / 2) s) (tot (fun e => rectangular_dos ellipk feps e D s)) p ps.
Proof.
  intros Ep Ef Inc Sp. assert (A : 0 < D / (1 + s)) by (apply Rdiv_lt_0_compat; lra). assert (E : D / (1 + s) * (1 + s) = D) by (field; lra). set (a := D / (1 + s)) in *. apply (dist2 p ps (fun e => rectangular_dos ellipk feps e D s)) with (eps := eR a (s * a)); try assumption.
  - rewrite Ef, Ep. exact rect_out.
  - intros [k1 k2]. rewrite rect_band. f_equal. unfold eR. cbn [fst snd LatHil_Avg.k2]. field.
  - apply eR_uc.
  - intros k. rewrite Ef, Ep. assert (X := eR_range a (s * a) k ltac:(lra) ltac:(nra)). replace (a + s * a) with D in X by (rewrite <- E; ring). exact X.
  - intros q _. apply eR_na; nra.
Qed.
End Rc.
Section Cub.
Variables (ellipk : C -> result C) (D : R).
Hypothesis HD : 0 < D.
Lemma bcc_out e : e < - D \/ D < e -> bcc_dos ellipk e D = Ok 0.
Proof.
  intros He. unfold bcc_dos. rewrite Bethe_Proofs.rdiv_ok by lra. cbn [bind]. assert (E : e = e / D * D) by (field; lra). set (x := e / D) in *. clearbody x. destruct (Req_EM_T x 0) as [X|X]; [subst x; lra|].
  destruct (Rle_dec (Rabs x) 1) as [L|L]; [|reflexivity]. exfalso. apply Rabs_le_between in L. nra.
Qed.
Lemma bcc_dist : (forall e, ~ In e [- D; 0; D] -> exists d, bcc_dos ellipk e D = Ok d /\ spectral (fun z => is_bz_average3 (fun k => 1 / (z - band3 body_centered (D / 8) k))%C) e d) ->
  distribution is_bz_average3 (band3 body_centered (D / 8)) (tot (fun e => bcc_dos ellipk e D)) (- D) [0; D].
Proof.
  intros Sp. apply (dist3 (- D) [0; D] (fun e => bcc_dos ellipk e D)) with (eps := eB D); try assumption.
  - cbn. lra.
  - exact bcc_out.
  - intros [[k1 k2] k3]. rewrite bcc_band. f_equal. unfold eB. cbn [fst snd LatHil_Avg.k3]. field.
  - apply eB_uc.
  - intros k. cbn [final]. apply eB_range. lra.
  - intros q _. apply eB_na; lra.
Qed.
Lemma sc_out small e : small <= 0 -> e < - D \/ D < e -> sc_dos ellipk small e D = Ok 0.
Proof.
  intros Hs He. unfold sc_dos. rewrite Bethe_Proofs.rdiv_ok by lra. cbn [bind]. assert (E : e = 3 / D * e * D / 3) by (field; lra). set (x := 3 / D * e) in *. clearbody x. assert (A : 3 < Rabs x) by (unfold Rabs; destruct (Rcase_abs x); nra).
  destruct (Rlt_dec (Rabs x) small) as [L|L]; [lra|]. destruct (Rlt_dec (Rabs x) 3) as [L'|L']; [lra|]. cbn [bind]. f_equal. ring.
Qed.
Lemma sc_dist : (forall e, ~ In e [- D; 0; D] -> exists d, sc_dos ellipk 0 e D = Ok d /\ spectral (fun z => is_bz_average3 (fun k => 1 / (z - band3 simple_cubic (D / 6) k))%C) e d) ->
  distribution is_bz_average3 (band3 simple_cubic (D / 6)) (tot (fun e => sc_dos ellipk 0 e D)) (- D) [0; D].
Proof.
  intros Sp. apply (dist3 (- D) [0; D] (fun e => sc_dos ellipk 0 e D)) with (eps := eS (D / 3)); try assumption.
  - cbn. lra.
  - intros e He. apply sc_out; [lra|exact He].
  - intros [[k1 k2] k3]. rewrite sc_band. f_equal. unfold eS. cbn [fst snd LatHil_Avg.k3]. field.
  - apply eS_uc.
  - intros k. cbn [final]. assert (X := eS_range (D / 3) k ltac:(lra)). lra.
  - intros q _. apply eS_na; lra.
Qed.
Lemma fcc_out e : e < - (1 / 2) * D \/ 3 / 2 * D < e -> fcc_dos ellipk e D = Ok 0.
Proof.
  intros He. unfold fcc_dos. destruct (Req_EM_T e (- (1 / 2) * D)) as [X|X]; [lra|]. unfold cneg. destruct (Rlt_dec (- (1 / 2) * D - e) 0) as [L|L]; [|reflexivity]. destruct (Rlt_dec (e - 3 / 2 * D) 0) as [L'|L']; [lra|reflexivity].
Qed.
Lemma fcc_dist : (forall e, ~ In e [- (1 / 2) * D; 1 / 2 * D; 3 / 2 * D] -> exists d, fcc_dos ellipk e D = Ok d /\ spectral (fun z => is_bz_average3 (fun k => 1 / (z - band3 face_centered (D / 8) k))%C) e d) ->
  distribution is_bz_average3 (band3 face_centered (D / 8)) (tot (fun e => fcc_dos ellipk e D)) (- (1 / 2) * D) [1 / 2 * D; 3 / 2 * D].
Proof.
  intros Sp. apply (dist3 (- (1 / 2) * D) [1 / 2 * D; 3 / 2 * D] (fun e => fcc_dos ellipk e D)) with (eps := eF (D / 2)); try assumption.
  - cbn. lra.
  - exact fcc_out.
  - intros [[k1 k2] k3]. rewrite fcc_band. f_equal. unfold eF. cbn [fst snd LatHil_Avg.k3]. field.
  - apply eF_uc.
  - intros k. cbn [final]. assert (X := eF_range (D / 2) k ltac:(lra)). lra.
  - intros q _. apply eF_na; lra.
Qed.
End Cub.
