(** * The honeycomb, kagome and Lieb lattices: eigenvalues and their distribution *)
From Coq Require Import Reals Lra Lia List FunctionalExtensionality.
From Coquelicot Require Import Coquelicot.
From Verif Require Import Base CBase CExp Fourier_Filon Bethe_Proofs LatMom_Spec LatDer_Spec LatDer_Model LatDer_Proofs LatEll_Model LatInt_Spec LatInt_Proofs LatInt_Local LatInt_Square LatBz_Spec LatTri_Main LatSpf_Spec LatDer_Dos LatSpf_Der
  LatHil_Spec LatHil_Poisson LatHil_Stieltjes LatHil_Main LatHil_Mean LatHil_Band LatHil_Avg LatHil_Lat LatHil_Inst LatHil_Der.
Import ListNotations.
Local Open Scope R_scope.

Lemma lat_gf_avg N nbrs t es z g : (forall k, is_spectrum N (bloch nbrs t k) (es k)) -> (forall k e, In e (es k) -> z <> RtoC e) -> is_lattice_gf N nbrs t z g -> is_bz_average (fun k => mean_of (fun e => 1 / (z - RtoC e))%C (es k)) g.
Proof.
  intros S Hz (G & R & A). replace (fun k => mean_of (fun e => (1 / (z - RtoC e))%C) (es k)) with (fun k => site_average N (G k)); [exact A|]. apply functional_extensionality. intros k. destruct (S k) as [_ Q]. destruct (Q z (Hz k)) as [_ Q2]. apply Q2, R.
Qed.
Lemma up_off (z : C) (x : R) : 0 < snd z -> z <> RtoC x.
Proof. intros Hz E. apply (f_equal snd) in E. cbn in E. lra. Qed.
Lemma off_pm (z : C) (a s : R) : (z <> RtoC (a + s) -> z <> RtoC (a - s) -> z - RtoC a - RtoC s <> 0 /\ z - RtoC a + RtoC s <> 0)%C.
Proof. intros A B. split; intros E; [apply A|apply B]; assert (E1 := f_equal fst E); assert (E2 := f_equal snd E); cbn in E1, E2; apply C_ext; cbn; lra. Qed.
Lemma off_sq (z s : C) : (z - s <> 0 -> z + s <> 0 -> z * z - s * s <> 0)%C.
Proof. intros A B. replace (z * z - s * s)%C with ((z - s) * (z + s))%C by ring. apply Cmult_neq_0; assumption. Qed.
Lemma W_eT k : W k = RtoC (2 * eT 1 (k2 k)).
Proof.
  destruct k as [k1 k2]. transitivity (RtoC 1 * W (k1, k2))%C; [change (RtoC 1) with (1 : C); ring|]. rewrite <- tri_bloch, tri_band. f_equal. unfold eT. cbn [fst snd LatHil_Avg.k2]. ring.
Qed.
Definition hE (D : R) (k : K 2) : R := D / 3 * (D / 3) * (3 + 2 * eT 1 k).
Lemma hE_b D k : 0 <= hE D k <= D * D.
Proof.
  unfold hE. assert (R := eT_range 1 k ltac:(lra)). assert (Q := Rle_0_sqr (D / 3)). unfold Rsqr in Q. replace (D * D) with (9 * (D / 3 * (D / 3))) by field. set (x := D / 3 * (D / 3)) in *. split; [apply Rmult_le_pos; lra|]. rewrite (Rmult_comm 9). apply Rmult_le_compat_l; lra.
Qed.
Lemma hE_eq D k : hE D k = 3 * (D / 3 * (D / 3)) + (2 * (D / 3 * (D / 3))) * eT 1 k. Proof. unfold hE. ring. Qed.
Lemma hE_uc D : uc 2 (hE D).
Proof. apply (uc_ext 2 (fun k => 3 * (D / 3 * (D / 3)) + (2 * (D / 3 * (D / 3))) * eT 1 k)); [intros; symmetry; apply hE_eq|]. apply uc_plus; [apply uc_const|apply uc_scal, eT_uc]. Qed.
Lemma hE_na D r : 0 < D -> noatom 2 (fun k => hE D k - r).
Proof.
  intros HD. set (w := 2 * (D / 3 * (D / 3))). assert (Hw : 0 < w) by (unfold w; nra). apply (noatom_ext 2 (fun k => eT w k - (r - 3 * (D / 3 * (D / 3))))); [|apply eT_na, Hw]. intros k. rewrite hE_eq. fold w. unfold eT. ring.
Qed.
Lemma hE_W D k : (RtoC (D / 3) * RtoC (D / 3) * (3 + W k))%C = RtoC (hE D (k2 k)).
Proof. rewrite W_eT. unfold hE. apply C_ext; cbn; ring. Qed.
Lemma pm_alg (z s : C) : (z - s <> 0 -> z + s <> 0 -> z / (z * z - s * s) = (1 / (z - s) + 1 / (z + s)) / (1 + 1))%C.
Proof.
  intros N1 N2. assert (N3 : (z * z - s * s <> 0)%C) by (replace (z * z - s * s)%C with ((z - s) * (z + s))%C by ring; apply Cmult_neq_0; assumption). field. repeat split; try assumption. exact C11_neq0.
Qed.
Lemma up_neq (z : C) (x : R) : 0 < snd z -> (z - RtoC x <> 0)%C /\ (z + RtoC x <> 0)%C.
Proof. intros Hz. split; intros E; apply (f_equal snd) in E; cbn in E; lra. Qed.

Section Hc.
Variables (km1 : R -> result R) (D : R).
Hypothesis HD : 0 < D.
Let es (k : R * R) : list R := [0 + sqrt (hE D (k2 k)); 0 - sqrt (hE D (k2 k))].
Lemma hc_prod k : (bloch honeycomb (D / 3) k 0 1 * bloch honeycomb (D / 3) k 1 0 = RtoC (hE D (k2 k)))%C.
Proof. rewrite <- hE_W, hc01, hc10, C3_eq. unfold W. field. split; apply cexp_neq_0. Qed.
Lemma hc_spectrum k : is_spectrum 2 (bloch honeycomb (2 * D / 3 / 2) k) (es k).
Proof.
  replace (2 * D / 3 / 2) with (D / 3) by field. split; [reflexivity|]. intros z Hz. set (s := sqrt (hE D (k2 k))).
  assert (Es : RtoC (hE D (k2 k)) = (RtoC s * RtoC s)%C) by (rewrite <- RtoC_mult; unfold s; rewrite sqrt_sqrt by apply hE_b; reflexivity).
  destruct (off_pm z 0 s (Hz _ (or_introl eq_refl)) (Hz _ (or_intror (or_introl eq_refl)))) as [N1 N2]. replace (z - RtoC 0)%C with z in N1, N2 by (apply C_ext; cbn; ring). assert (N := off_sq z (RtoC s) N1 N2). rewrite <- Es in N. split.
  - exists (inv2 (bloch honeycomb (D / 3) k) z). apply inv2_ok; [apply hc00|apply hc11|]. rewrite hc_prod. exact N.
  - intros G R. destruct (res2 _ _ _ R) as [_ S]; [apply hc00|apply hc11|]. rewrite S, hc_prod. unfold mean_of, es. cbn [map fold_right length]. fold s. rewrite INR2. rewrite Es. rewrite (pm_alg z (RtoC s) N1 N2).
    replace (z - RtoC (0 + s))%C with (z - RtoC s)%C by (apply C_ext; cbn; ring). replace (z - RtoC (0 - s))%C with (z + RtoC s)%C by (apply C_ext; cbn; ring). unfold Cdiv. ring.
Qed.
Lemma hc_out e : e < - D \/ D < e -> honeycomb_dos (triangular_dos km1) e D = Ok 0.
Proof.
  intros He. unfold honeycomb_dos. rewrite !Bethe_Proofs.rdiv_ok by lra. cbn [bind]. set (x := e / (D / (3 / 2))). assert (Ex : x * (D / (3 / 2)) = e) by (unfold x; field; lra). rewrite (tri_out km1 (9 / 4)).
  - cbn [bind]. f_equal. ring.
  - lra.
  - right. assert (H : 3 / 2 < x \/ x < - (3 / 2)) by (clearbody x; nra). assert (9 / 4 < x * x) by (destruct H; nra). lra.
Qed.
Lemma hc_dist : (forall e, ~ In e [- D; - (D / 3); 0; D / 3; D] -> exists d, honeycomb_dos (triangular_dos km1) e D = Ok d /\ spectral (is_lattice_gf 2 honeycomb (2 * D / 3 / 2)) e d) ->
  distributions 2 honeycomb (2 * D / 3 / 2) (tot (fun e => honeycomb_dos (triangular_dos km1) e D)) (- D) [- (D / 3); 0; D / 3; D] [].
Proof.
  intros Sp. exists es. split; [exact hc_spectrum|]. split.
  { intros k e He. assert (B := hE_b D (k2 k)). assert (S0 := sqrt_pos (hE D (k2 k))). assert (S1 := sqrt_sqrt _ (proj1 B)). assert (sqrt (hE D (k2 k)) <= D) by nra. cbn in He |- *. lra. }
  intros phi Cp. exists (RtoC 0 * phi 0 + (LL (1 / 2) 0 (hE D) (fun x => fst (phi x)), LL (1 / 2) 0 (hE D) (fun x => snd (phi x))))%C.
  assert (Hes : forall ph k, mean_of ph (es k) = (RtoC 0 * ph 0 + (RtoC (1 / 2) * ph (0 + sqrt (hE D (k2 k)))%R + RtoC (1 / 2) * ph (0 - sqrt (hE D (k2 k)))%R))%C).
  { intros ph k. unfold mean_of, es. cbn [map fold_right length]. rewrite INR2. replace (RtoC (1 / 2)) with (1 / (1 + 1))%C by (unfold Rdiv; rewrite RtoC_mult, RtoC_inv, C2_eq by lra; reflexivity). field. exact C11_neq0. }
  assert (Inc : incr (- D) [- (D / 3); 0; D / 3; D]) by (cbn; lra). split.
  - apply (two_avg (1 / 2) 0 0 0 D (- D) [- (D / 3); 0; D / 3; D] (hE D) es); try assumption; [exact (hE_uc D)|exact (hE_b D)|lra|cbn; lra].
  - assert (T := two_band (1 / 2) 0 0 0 D (- D) [- (D / 3); 0; D / 3; D] (fun e => honeycomb_dos (triangular_dos km1) e D) (is_lattice_gf 2 honeycomb (2 * D / 3 / 2)) (hE D) es ltac:(lra) ltac:(lra) HD (hE_uc D) (hE_b D) (fun r => hE_na D r HD) ltac:(lra) ltac:(cbn; lra) Inc hc_out ltac:(cbn; tauto) Sp Hes (fun z G Hz => lat_gf_avg 2 honeycomb (2 * D / 3 / 2) es z G hc_spectrum (fun k e _ => up_off z e Hz)) phi Cp).
    cbn [map fold_right]. match goal with |- is_band_integral _ _ _ ?l => replace l with (LL (1 / 2) 0 (hE D) (fun x => fst (phi x)), LL (1 / 2) 0 (hE D) (fun x => snd (phi x))) end; [exact T|].
    unfold Cdiv. rewrite Cmult_0_l. apply C_ext; cbn [fst snd Cplus Cminus Cmult Copp RtoC]; ring.
Qed.
End Hc.

Lemma third (x : C) : (x / RtoC (INR 3) = RtoC (1 / 3) * x)%C.
Proof. rewrite INR3. replace (RtoC (1 / 3)) with (1 / (1 + 1 + 1))%C by (unfold Rdiv; rewrite RtoC_mult, RtoC_inv, C3_eq by lra; reflexivity). assert (N := C111_neq0). revert N. generalize (1 + 1 + 1)%C. intros c N. field. exact N. Qed.
Lemma tri_alg (X z s : C) : (X <> 0 -> z - s <> 0 -> z + s <> 0 -> 1 / ((1 + 1 + 1) * X) + (1 + 1) / (1 + 1 + 1) * (z / (z * z - s * s)) = (1 / (z - s) + (1 / (z + s) + (1 / X + 0))) / (1 + 1 + 1))%C.
Proof. intros N0 N1 N2. rewrite (pm_alg z s N1 N2). assert (N := C111_neq0). assert (N' := C11_neq0). revert N N'. generalize (1 + 1 + 1)%C (1 + 1)%C. intros c d N N'. field. repeat split; assumption. Qed.
Section Kg.
Variables (km1 : R -> result R) (D : R).
Hypothesis HD : 0 < D.
Let es (k : R * R) : list R := [D / 3 + sqrt (hE D (k2 k)); D / 3 - sqrt (hE D (k2 k)); - (2 / 3) * D].
Lemma kg_spectrum k : is_spectrum 3 (bloch kagome (2 * D / 3 / 2) k) (es k).
Proof.
  replace (2 * D / 3 / 2) with (D / 3) by field. split; [reflexivity|]. intros z Hz. assert (HW := hE_W D k). set (t := D / 3) in *. set (s := sqrt (hE D (k2 k))).
  assert (Es : RtoC (hE D (k2 k)) = (RtoC s * RtoC s)%C) by (rewrite <- RtoC_mult; unfold s; rewrite sqrt_sqrt by apply hE_b; reflexivity).
  destruct (off_pm z t s (Hz _ (or_introl eq_refl)) (Hz _ (or_intror (or_introl eq_refl)))) as [M1 M2]. assert (N2 := off_sq _ _ M1 M2). rewrite <- Es, <- HW in N2.
  assert (ED : (det3 (z - bloch kagome t k 0 0) (0 - bloch kagome t k 0 1) (0 - bloch kagome t k 0 2) (0 - bloch kagome t k 1 0) (z - bloch kagome t k 1 1) (0 - bloch kagome t k 1 2) (0 - bloch kagome t k 2 0) (0 - bloch kagome t k 2 1) (z - bloch kagome t k 2 2)
        = (z + 2 * RtoC t) * ((z - RtoC t) * (z - RtoC t) - RtoC t * RtoC t * (3 + W k)))%C).
  { rewrite kg00, kg01, kg02, kg10, kg11, kg12, kg20, kg21, kg22. unfold det3, W. rewrite C2_eq, C3_eq. field. split; apply cexp_neq_0. }
  assert (N1 : (z + 2 * RtoC t <> 0)%C).
  { intros E. apply (Hz (- (2 / 3) * D)); [right; right; left; reflexivity|]. assert (E1 := f_equal fst E). assert (E2 := f_equal snd E). cbn in E1, E2. unfold t in *. apply C_ext; cbn; lra. }
  split.
  - exists (inv3 (bloch kagome t k) z). apply inv3_ok. rewrite ED. apply Cmult_neq_0; assumption.
  - intros G R. destruct (res3 _ _ _ R) as [_ S]. cbv zeta in S. rewrite S, ED. clear S.
    rewrite kg00, kg01, kg02, kg10, kg11, kg12, kg20, kg21, kg22. set (u := cexp (Ci * fst k)%C) in *. set (v := cexp (Ci * snd k)%C) in *.
    assert (U : u <> RtoC 0) by apply cexp_neq_0. assert (V : v <> RtoC 0) by apply cexp_neq_0. rewrite C2_eq, C3_eq in *.
    replace (((z - 0) * (z - 0) - (0 - RtoC t * (1 + u / v)) * (0 - RtoC t * (1 + v / u)) + ((z - 0) * (z - 0) - (0 - RtoC t * (1 + / v)) * (0 - RtoC t * (1 + v))) + ((z - 0) * (z - 0) - (0 - RtoC t * (1 + / u)) * (0 - RtoC t * (1 + u)))))%C
        with (((z - RtoC t) * (z - RtoC t) - RtoC t * RtoC t * (1 + 1 + 1 + W k)) + (1 + 1) * (z - RtoC t) * (z + (1 + 1) * RtoC t))%C
        by (unfold W; fold u v; field; split; assumption).
    rewrite kag_alg by assumption. rewrite HW. unfold mean_of, es. cbn [map fold_right length]. fold s. rewrite INR3. rewrite Es. rewrite tri_alg by assumption. fold t.
    replace (z - RtoC (t + s))%C with (z - RtoC t - RtoC s)%C by (apply C_ext; cbn; ring). replace (z - RtoC (t - s))%C with (z - RtoC t + RtoC s)%C by (apply C_ext; cbn; ring). replace (z - RtoC (- (2 / 3) * D))%C with (z + (1 + 1) * RtoC t)%C by (apply C_ext; cbn; unfold t; field). reflexivity.
Qed.
Lemma kg_out e : e < - (2 / 3) * D \/ 4 / 3 * D < e -> kagome_dos (triangular_dos km1) e D = Ok 0.
Proof. intros He. unfold kagome_dos. rewrite (hc_out km1 (3 * D)); [cbn [bind]; f_equal; ring|lra|lra]. Qed.
Lemma kg_dist : (forall e, ~ In e [- (2 / 3) * D; 0; D / 3; 2 / 3 * D; 4 / 3 * D] -> exists d, kagome_dos (triangular_dos km1) e D = Ok d /\ spectral (is_lattice_gf 3 kagome (2 * D / 3 / 2)) e d) ->
  distributions 3 kagome (2 * D / 3 / 2) (tot (fun e => kagome_dos (triangular_dos km1) e D)) (- (2 / 3) * D) [0; D / 3; 2 / 3 * D; 4 / 3 * D] [- (2 / 3) * D].
Proof.
  intros Sp. exists es. split; [exact kg_spectrum|]. split.
  { intros k e He. assert (B := hE_b D (k2 k)). assert (S0 := sqrt_pos (hE D (k2 k))). assert (S1 := sqrt_sqrt _ (proj1 B)). assert (sqrt (hE D (k2 k)) <= D) by nra. cbn in He |- *. lra. }
  intros phi Cp. set (f0 := - (2 / 3) * D) in *. exists (RtoC (1 / 3) * phi f0 + (LL (1 / 3) (D / 3) (hE D) (fun x => fst (phi x)), LL (1 / 3) (D / 3) (hE D) (fun x => snd (phi x))))%C.
  assert (Hes : forall ph k, mean_of ph (es k) = (RtoC (1 / 3) * ph f0 + (RtoC (1 / 3) * ph (D / 3 + sqrt (hE D (k2 k)))%R + RtoC (1 / 3) * ph (D / 3 - sqrt (hE D (k2 k)))%R))%C).
  { intros ph k. unfold mean_of, es. fold f0. cbn [map fold_right length]. rewrite third. ring. }
  assert (Inc : incr f0 [0; D / 3; 2 / 3 * D; 4 / 3 * D]) by (cbn; unfold f0; lra). split.
  - apply (two_avg (1 / 3) (1 / 3) f0 (D / 3) D f0 [0; D / 3; 2 / 3 * D; 4 / 3 * D] (hE D) es); try assumption; [exact (hE_uc D)|exact (hE_b D)|unfold f0; lra|cbn; lra].
  - assert (T := two_band (1 / 3) (1 / 3) f0 (D / 3) D f0 [0; D / 3; 2 / 3 * D; 4 / 3 * D] (fun e => kagome_dos (triangular_dos km1) e D) (is_lattice_gf 3 kagome (2 * D / 3 / 2)) (hE D) es ltac:(lra) ltac:(lra) HD (hE_uc D) (hE_b D) (fun r => hE_na D r HD) ltac:(unfold f0; lra) ltac:(cbn; lra) Inc kg_out ltac:(cbn; tauto) Sp Hes (fun z G Hz => lat_gf_avg 3 kagome (2 * D / 3 / 2) es z G kg_spectrum (fun k e _ => up_off z e Hz)) phi Cp).
    cbn [map fold_right]. rewrite third. match goal with |- is_band_integral _ _ _ ?l => replace l with (LL (1 / 3) (D / 3) (hE D) (fun x => fst (phi x)), LL (1 / 3) (D / 3) (hE D) (fun x => snd (phi x))) end; [exact T|]. apply C_ext; cbn [fst snd Cplus Cminus Cmult Copp RtoC]; ring.
Qed.
End Kg.
Section Lb.
Variables (km1 : R -> result R) (D : R).
Hypothesis HD : 0 < D.
Let t := D / sqrt 8.
Definition lE (k : K 2) : R := D * D / 8 * (4 + eR 2 2 k).
Let es (k : R * R) : list R := [0 + sqrt (lE (k2 k)); 0 - sqrt (lE (k2 k)); 0].
Lemma lt2 : t * t = D * D / 8.
Proof. unfold t. assert (H8 : 0 < sqrt 8) by (apply sqrt_lt_R0; lra). assert (Q := sqrt_sqrt 8 ltac:(lra)). replace (D / sqrt 8 * (D / sqrt 8)) with (D * D / (sqrt 8 * sqrt 8)) by (field; lra). rewrite Q. reflexivity. Qed.
Lemma lE_b k : 0 <= lE k <= D * D.
Proof. unfold lE. assert (R := eR_range 2 2 k ltac:(lra) ltac:(lra)). assert (Q : 0 < D * D) by nra. split; nra. Qed.
Lemma lE_eq k : lE k = D * D / 2 + D * D / 8 * eR 2 2 k. Proof. unfold lE. field. Qed.
Lemma lE_uc : uc 2 lE.
Proof. apply (uc_ext 2 (fun k => D * D / 2 + D * D / 8 * eR 2 2 k)); [intros; symmetry; apply lE_eq|]. apply uc_plus; [apply uc_const|apply uc_scal, eR_uc]. Qed.
Lemma lE_na r : noatom 2 (fun k => lE k - r).
Proof.
  assert (Q : 0 < D * D) by nra. apply (noatom_ext 2 (fun k => eR (D * D / 4) (D * D / 4) k - (r - D * D / 2))); [|apply eR_na; lra]. intros k. rewrite lE_eq. unfold eR. field.
Qed.
Lemma lE_W k : (RtoC t * RtoC t * (4 + bloch square (4 / 4) k 0 0))%C = RtoC (lE (k2 k)).
Proof. destruct k as [k1 k2]. rewrite square_band, <- RtoC_mult, lt2. unfold lE, eR, p1. cbn [fst snd LatHil_Avg.k2]. apply C_ext; cbn; field. Qed.
Lemma lb_spectrum k : is_spectrum 3 (bloch lieb t k) (es k).
Proof.
  split; [reflexivity|]. intros z Hz. assert (HW := lE_W k). set (s := sqrt (lE (k2 k))).
  assert (Es : RtoC (lE (k2 k)) = (RtoC s * RtoC s)%C) by (rewrite <- RtoC_mult; unfold s; rewrite sqrt_sqrt by apply lE_b; reflexivity).
  destruct (off_pm z 0 s (Hz _ (or_introl eq_refl)) (Hz _ (or_intror (or_introl eq_refl)))) as [M1 M2]. replace (z - RtoC 0)%C with z in M1, M2 by (apply C_ext; cbn; ring). assert (N2 := off_sq _ _ M1 M2). rewrite <- Es, <- HW in N2.
  assert (ED : (det3 (z - bloch lieb t k 0 0) (0 - bloch lieb t k 0 1) (0 - bloch lieb t k 0 2) (0 - bloch lieb t k 1 0) (z - bloch lieb t k 1 1) (0 - bloch lieb t k 1 2) (0 - bloch lieb t k 2 0) (0 - bloch lieb t k 2 1) (z - bloch lieb t k 2 2)
        = z * (z * z - RtoC t * RtoC t * (4 + bloch square (4 / 4) k 0 0)))%C).
  { rewrite square_bloch. rewrite lb00, lb01, lb02, lb10, lb11, lb12, lb20, lb21, lb22. replace (RtoC (4 / 4)) with (RtoC 1) by (f_equal; field). unfold det3. rewrite C4_eq. field. split; apply cexp_neq_0. }
  assert (N1 : z <> RtoC 0) by (apply Hz; right; right; left; reflexivity). split.
  - exists (inv3 (bloch lieb t k) z). apply inv3_ok. rewrite ED. apply Cmult_neq_0; assumption.
  - intros G R. destruct (res3 _ _ _ R) as [_ S]. cbv zeta in S. rewrite S, ED. clear S. revert N2 HW. rewrite square_bloch. intros N2 HW.
    rewrite lb00, lb01, lb02, lb10, lb11, lb12, lb20, lb21, lb22. set (u := cexp (Ci * fst k)%C) in *. set (v := cexp (Ci * snd k)%C) in *.
    assert (U : u <> RtoC 0) by apply cexp_neq_0. assert (V : v <> RtoC 0) by apply cexp_neq_0.
    replace (RtoC (4 / 4)) with (RtoC 1) in * by (f_equal; field). rewrite C4_eq in *.
    replace ((z - 0) * (z - 0) - (0 - 0) * (0 - 0) + ((z - 0) * (z - 0) - (0 - RtoC t * (1 + / v)) * (0 - RtoC t * (1 + v))) + ((z - 0) * (z - 0) - (0 - RtoC t * (1 + / u)) * (0 - RtoC t * (1 + u))))%C
        with ((z * z - RtoC t * RtoC t * ((1 + 1) * (1 + 1) + 1 * (u + / u + v + / v))) + (1 + 1) * z * z)%C by (field; split; assumption).
    rewrite lieb_alg by assumption. rewrite HW. unfold mean_of, es. cbn [map fold_right length]. fold s. rewrite INR3. rewrite Es.
    replace (1 / (1 + 1 + 1) / z)%C with (1 / ((1 + 1 + 1) * z))%C by (assert (N := C111_neq0); revert N; generalize (1 + 1 + 1)%C; intros c N; field; split; assumption). rewrite tri_alg by assumption.
    replace (z - RtoC (0 + s))%C with (z - RtoC s)%C by (apply C_ext; cbn; ring). replace (z - RtoC (0 - s))%C with (z + RtoC s)%C by (apply C_ext; cbn; ring). replace (z - RtoC 0)%C with z by (apply C_ext; cbn; ring). reflexivity.
Qed.
Lemma lb_out e : e < - D \/ D < e -> lieb_dos (square_dos km1) e D = Ok 0.
Proof.
  intros He. unfold lieb_dos. rewrite !Bethe_Proofs.rdiv_ok by lra. cbn [bind]. set (x := e / D). assert (Ex : x * D = e) by (unfold x; field; lra). rewrite (square_out km1 1).
  - cbn [bind]. f_equal. ring.
  - lra.
  - right. assert (H : 1 < x \/ x < - (1)) by (clearbody x; nra). assert (1 < x * x) by (destruct H; nra). lra.
Qed.
Lemma lb_dist : (forall e, ~ In e [- D; - (D / sqrt 2); 0; D / sqrt 2; D] -> exists d, lieb_dos (square_dos km1) e D = Ok d /\ spectral (is_lattice_gf 3 lieb t) e d) ->
  distributions 3 lieb t (tot (fun e => lieb_dos (square_dos km1) e D)) (- D) [- (D / sqrt 2); 0; D / sqrt 2; D] [0].
Proof.
  intros Sp. exists es. split; [exact lb_spectrum|]. split.
  { intros k e He. assert (B := lE_b (k2 k)). assert (S0 := sqrt_pos (lE (k2 k))). assert (S1 := sqrt_sqrt _ (proj1 B)). assert (sqrt (lE (k2 k)) <= D) by nra. cbn in He |- *. lra. }
  intros phi Cp. exists (RtoC (1 / 3) * phi 0 + (LL (1 / 3) 0 lE (fun x => fst (phi x)), LL (1 / 3) 0 lE (fun x => snd (phi x))))%C.
  assert (Hes : forall ph k, mean_of ph (es k) = (RtoC (1 / 3) * ph 0 + (RtoC (1 / 3) * ph (0 + sqrt (lE (k2 k)))%R + RtoC (1 / 3) * ph (0 - sqrt (lE (k2 k)))%R))%C).
  { intros ph k. unfold mean_of, es. cbn [map fold_right length]. rewrite third. ring. }
  assert (S2 : 1 < sqrt 2) by (rewrite <- sqrt_1; apply sqrt_lt_1; lra). assert (H2 : 0 < D / sqrt 2) by (apply Rdiv_lt_0_compat; lra). assert (H3 : D / sqrt 2 < D) by (apply Rmult_lt_reg_r with (sqrt 2); [lra|]; replace (D / sqrt 2 * sqrt 2) with D by (field; lra); nra).
  assert (Inc : incr (- D) [- (D / sqrt 2); 0; D / sqrt 2; D]) by (cbn; lra). split.
  - apply (two_avg (1 / 3) (1 / 3) 0 0 D (- D) [- (D / sqrt 2); 0; D / sqrt 2; D] lE es); try assumption; [exact lE_uc|exact lE_b|lra|cbn; lra].
  - assert (T := two_band (1 / 3) (1 / 3) 0 0 D (- D) [- (D / sqrt 2); 0; D / sqrt 2; D] (fun e => lieb_dos (square_dos km1) e D) (is_lattice_gf 3 lieb t) lE es ltac:(lra) ltac:(lra) HD lE_uc lE_b lE_na ltac:(lra) ltac:(cbn; lra) Inc lb_out ltac:(cbn; tauto) Sp Hes (fun z G Hz => lat_gf_avg 3 lieb t es z G lb_spectrum (fun k e _ => up_off z e Hz)) phi Cp).
    cbn [map fold_right]. rewrite third. match goal with |- is_band_integral _ _ _ ?l => replace l with (LL (1 / 3) 0 lE (fun x => fst (phi x)), LL (1 / 3) 0 lE (fun x => snd (phi x))) end; [exact T|]. apply C_ext; cbn [fst snd Cplus Cminus Cmult Copp RtoC]; ring.
Qed.
End Lb.
