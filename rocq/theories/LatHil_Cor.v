(** * Consequences of the distribution of band energies: normalisation and Hilbert transform *)
From Coq Require Import Reals Lra Lia List FunctionalExtensionality.
From Coquelicot Require Import Coquelicot.
From Verif Require Import Base CBase Fourier_Filon LatMom_Spec LatDer_Spec LatInt_Spec LatInt_Proofs LatInt_Local LatInt_Square LatBz_Spec LatSpf_Spec LatHil_Spec LatHil_Poisson LatHil_Stieltjes LatHil_Main LatHil_Mean LatHil_Band LatHil_Avg LatHil_Lat LatHil_Inst LatHil_Multi.
Import ListNotations.
Local Open Scope R_scope.

Lemma pint_ext (f g : R -> C) d B ps : 0 < d -> forall p, incr p ps -> (forall e, p < e -> ~ In e ps -> f e = g e) -> (forall I, is_pint f d p ps I -> fits d (p + d) ps B -> is_pint g d p ps I).
Proof.
  intros Hd. induction ps as [|q qs IH]; cbn [is_pint incr final fits]; intros p Inc E I H Ft; [exact H|]. destruct Inc as [Hpq Inc]. destruct Ft as [Ft1 Ft2]. destruct H as (J & I' & H1 & H2 & H3). exists J, I'. split; [|split; [|exact H3]].
  - apply (is_CInt_ext f); [|exact H1]. intros x Hx. rewrite Rmin_left, Rmax_right in Hx by lra. apply E; [lra|]. intros [X|X]; [lra|]. clear - X Hx Inc Hd. revert q Inc X Hx. induction qs as [|y ys IH]; cbn; intros q Inc X Hx; [exact X|]. destruct Inc as [A B]. destruct X as [->|X]; [lra|]. apply (IH y B X). lra.
  - apply IH; [exact Inc| |exact H2|exact Ft2]. intros e He N. apply E; [lra|]. intros [X|X]; [lra|exact (N X)].
Qed.
Lemma bint_ext (f g : R -> C) p ps l : incr p ps -> (forall e, ~ In e (p :: ps) -> f e = g e) -> is_band_integral f p ps l -> is_band_integral g p ps l.
Proof.
  intros Inc E H t Ht. destruct (H t Ht) as (r & Hr & Q). destruct (fits_ex ps (final p ps + 1) p Inc ltac:(lra)) as (d0 & Hd0 & F). exists (Rmin r d0). split; [apply Rmin_pos; lra|]. intros d Hd. assert (m1 := Rmin_l r d0). assert (m2 := Rmin_r r d0). destruct (Q d ltac:(lra)) as (I & HI & HB). exists I. split; [|exact HB].
  apply (pint_ext f g d (final p ps + 1) ps ltac:(lra) p Inc); [|exact HI|apply F; lra].
  intros e He N. apply E. intros [X|X]; [lra|exact (N X)].
Qed.

Definition outside (p b : R) (z : C) : Prop := snd z <> 0 \/ fst z < p \/ b < fst z.
Lemma out_ccont p b z x : outside p b z -> p <= x <= b -> ccont (fun e => 1 / (z - RtoC e))%C x.
Proof.
  intros O Hx. apply (ccont_ext (fun e => (1 * / (z - RtoC e))%C)); [reflexivity|]. apply ccont_mult; [apply ccont_const|]. apply ccont_inv.
  - apply ccont_minus; [apply ccont_const|]. apply ccont_R, continuous_id.
  - intros E. assert (E1 := f_equal fst E). assert (E2 := f_equal snd E). cbn in E1, E2. destruct O as [O|O]; lra.
Qed.
Lemma out_off p b z e : outside p b z -> p <= e <= b -> z <> RtoC e.
Proof. intros O He ->. destruct O as [O|O]; cbn in O; lra. Qed.
Section Single.
Variables (T : Type) (is_av : (T -> C) -> C -> Prop) (band : T -> C) (d : R -> R) (p : R) (ps : list R).
Hypothesis Uq : forall f l l', is_av f l -> is_av f l' -> l = l'.
Hypothesis Rb : forall k, snd (band k) = 0.
Hypothesis HD : distribution is_av band d p ps.
Lemma dist_val (phi : R -> C) f l : (forall x, p <= x <= final p ps -> ccont phi x) -> (forall k, phi (fst (band k)) = f k) -> is_av f l -> is_band_integral (fun e => RtoC (d e) * phi e)%C p ps l.
Proof.
  intros Cp E A. destruct (HD phi Cp) as (l' & A' & I). replace (fun k => phi (fst (band k))) with f in A' by (apply functional_extensionality; intros k; symmetry; apply E). rewrite (Uq _ _ _ A A'). exact I.
Qed.
Lemma dist_gf z G : outside p (final p ps) z -> is_av (fun k => 1 / (z - band k))%C G -> is_band_integral (fun e => RtoC (d e) * (1 / (z - RtoC e)))%C p ps G.
Proof.
  intros O A. apply (dist_val (fun e => (1 / (z - RtoC e))%C) (fun k => (1 / (z - band k))%C)); [|intros k|exact A].
  - intros x Hx. apply (out_ccont p (final p ps)); assumption.
  - replace (RtoC (fst (band k))) with (band k); [reflexivity|]. apply C_ext; [reflexivity|]. cbn. apply Rb.
Qed.
Lemma dist_norm : is_av (fun _ => RtoC 1) (RtoC 1) -> is_band_integral (fun e => RtoC (d e) * 1)%C p ps 1%C.
Proof. intros A. apply (dist_val (fun _ => RtoC 1) (fun _ => RtoC 1)); [intros; apply ccont_const|reflexivity|exact A]. Qed.
End Single.
Lemma bz2_const c : is_bz_average (fun _ => c) c.
Proof. assert (E : cmean 2 (fun _ => c) = c) by (unfold cmean; rewrite !mean_const; destruct c; reflexivity). assert (A := bz2 (fun _ => c) (uc_const _ _) (uc_const _ _)). rewrite E in A. exact A. Qed.
Lemma bz3_const c : is_bz_average3 (fun _ => c) c.
Proof. assert (E : cmean 3 (fun _ => c) = c) by (unfold cmean; rewrite !mean_const; destruct c; reflexivity). assert (A := bz3 (fun _ => c) (uc_const _ _) (uc_const _ _)). rewrite E in A. exact A. Qed.
Section Multi.
Variables (N : nat) (nbrs : site -> list site) (t : R) (d : R -> R) (p : R) (ps flat : list R).
Hypothesis HD : distributions N nbrs t d p ps flat.
Hypothesis Npos : (0 < N)%nat.
Lemma dists_gf z G : outside p (final p ps) z -> is_lattice_gf N nbrs t z G -> is_band_integral (fun e => RtoC (d e) * (1 / (z - RtoC e)))%C p ps (G - fold_right Cplus 0 (map (fun e => 1 / (z - RtoC e)) flat) / RtoC (INR N))%C.
Proof.
  intros Hz L. destruct HD as (es & S & Rg & I). destruct (I (fun e => (1 / (z - RtoC e))%C)) as (l & A & B).
  - intros x Hx. apply (out_ccont p (final p ps)); [exact Hz|exact Hx].
  - assert (A' := lat_gf_avg N nbrs t es z G S (fun k e He => out_off p (final p ps) z e Hz (Rg k e He)) L). rewrite (bz_uniq _ _ _ A' A). exact B.
Qed.
Lemma dists_norm : is_band_integral (fun e => RtoC (d e) * 1)%C p ps (1 - RtoC (INR (length flat)) / RtoC (INR N))%C.
Proof.
  destruct HD as (es & S & _ & I). destruct (I (fun _ => RtoC 1)) as (l & A & B); [intros; apply ccont_const|]. assert (El : l = RtoC 1).
  { apply (bz_uniq _ _ _ A). replace (fun k => mean_of (fun _ => RtoC 1) (es k)) with (fun _ : R * R => RtoC 1); [apply bz2_const|]. apply functional_extensionality. intros k. destruct (S k) as [Ln _]. unfold mean_of. 
    assert (F : forall xs : list R, fold_right Cplus (RtoC 0) (map (fun _ => RtoC 1) xs) = RtoC (INR (length xs))). { induction xs as [|x xs IH]; [reflexivity|]. cbn [map fold_right length]. rewrite IH, S_INR, RtoC_plus. ring. }
    rewrite F, Ln. assert (N0 : RtoC (INR N) <> RtoC 0) by (apply Bethe_Proofs.RtoC_neq0; apply lt_INR in Npos; cbn in Npos; lra). field. exact N0. }
  subst l. assert (F : forall xs : list R, fold_right Cplus (RtoC 0) (map (fun _ => RtoC 1) xs) = RtoC (INR (length xs))). { induction xs as [|x xs IH]; [reflexivity|]. cbn [map fold_right length]. rewrite IH, S_INR, RtoC_plus. ring. }
  rewrite F in B. exact B.
Qed.
End Multi.

Lemma res3_ex nbrs t es z : (forall k, is_spectrum 3 (bloch nbrs t k) (es k)) -> (forall k e, In e (es k) -> z <> RtoC e) -> exists G, forall k, is_resolvent 3 (bloch nbrs t k) z (G k).
Proof. intros S Hz. exists (fun k => LatSpf_Der.inv3 (bloch nbrs t k) z). intros k. apply LatSpf_Der.inv3_ok. destruct (S k) as [_ Q]. destruct (Q z (Hz k)) as [(G & HG) _]. exact (proj1 (LatDer_Proofs.res3 _ _ _ HG)). Qed.
Lemma res2_ex nbrs t es z : (forall k, bloch nbrs t k 0%nat 0%nat = 0%C) -> (forall k, bloch nbrs t k 1%nat 1%nat = 0%C) -> (forall k, is_spectrum 2 (bloch nbrs t k) (es k)) -> (forall k e, In e (es k) -> z <> RtoC e) -> exists G, forall k, is_resolvent 2 (bloch nbrs t k) z (G k).
Proof. intros E0 E1 S Hz. exists (fun k => LatSpf_Der.inv2 (bloch nbrs t k) z). intros k. apply LatSpf_Der.inv2_ok; [apply E0|apply E1|]. destruct (S k) as [_ Q]. destruct (Q z (Hz k)) as [(G & HG) _]. exact (proj1 (LatDer_Proofs.res2 _ _ _ HG (E0 k) (E1 k))). Qed.

(** frequencies outside of the bands *)
Lemma hc_out_es D z k : 0 < D -> outside (- D) D z -> forall e, In e [0 + sqrt (hE D (k2 k)); 0 - sqrt (hE D (k2 k))] -> z <> RtoC e.
Proof.
  intros HD O e He. apply (out_off (- D) D); [exact O|]. assert (B := hE_b D (k2 k)). assert (S0 := sqrt_pos (hE D (k2 k))). assert (S1 := sqrt_sqrt _ (proj1 B)). assert (sqrt (hE D (k2 k)) <= D) by nra. cbn in He. lra.
Qed.
Lemma hc_out_sq D z k : 0 < D -> outside (- D) D z -> (z * z - RtoC (D / 3) * RtoC (D / 3) * (3 + LatDer_Proofs.W k) <> 0)%C.
Proof.
  intros HD O. assert (H := hc_out_es D z k HD O). destruct (off_pm z 0 _ (H _ (or_introl eq_refl)) (H _ (or_intror (or_introl eq_refl)))) as [N1 N2]. replace (z - RtoC 0)%C with z in N1, N2 by (apply C_ext; cbn; ring).
  assert (N := off_sq _ _ N1 N2). rewrite <- RtoC_mult, sqrt_sqrt in N by apply hE_b. rewrite hE_W. exact N.
Qed.
Lemma kg_shift D z : outside (- (2 / 3) * D) (4 / 3 * D) z -> outside (- D) D (z - RtoC (D / 3))%C.
Proof. intros [O|O]; [left|right]; cbn; lra. Qed.
Lemma lb_out_es D z k : 0 < D -> outside (- D) D z -> forall e, In e [0 + sqrt (lE D (k2 k)); 0 - sqrt (lE D (k2 k)); 0] -> z <> RtoC e.
Proof.
  intros HD O e He. apply (out_off (- D) D); [exact O|]. assert (B := lE_b D HD (k2 k)). assert (S0 := sqrt_pos (lE D (k2 k))). assert (S1 := sqrt_sqrt _ (proj1 B)). assert (sqrt (lE D (k2 k)) <= D) by nra. cbn in He. lra.
Qed.
Lemma lb_out_sq D z k : 0 < D -> outside (- D) D z -> (z * z - RtoC (D / sqrt 8) * RtoC (D / sqrt 8) * (4 + bloch square (4 / 4) k 0 0) <> 0)%C.
Proof.
  intros HD O. assert (H := lb_out_es D z k HD O). destruct (off_pm z 0 _ (H _ (or_introl eq_refl)) (H _ (or_intror (or_introl eq_refl)))) as [N1 N2]. replace (z - RtoC 0)%C with z in N1, N2 by (apply C_ext; cbn; ring).
  assert (N := off_sq _ _ N1 N2). rewrite <- RtoC_mult, sqrt_sqrt in N by apply (lE_b D HD). rewrite (lE_W D). exact N.
Qed.
Lemma out_abs D z : snd z <> 0 \/ D < Rabs (fst z) -> outside (- D) D z.
Proof. intros [O|O]; [left; exact O|right]. unfold Rabs in O. destruct (Rcase_abs (fst z)); lra. Qed.
