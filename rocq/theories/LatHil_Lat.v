(** * The densities of states of the lattices with one site in the cell as the distributions of their band energies *)
From Coq Require Import Reals Lra Lia List.
From Coquelicot Require Import Coquelicot.
From Verif Require Import Base CBase Fourier_Filon LatMom_Spec LatDer_Spec LatInt_Spec LatInt_Proofs LatInt_Local LatInt_Square LatBz_Spec LatSpf_Spec LatHil_Spec LatHil_Poisson LatHil_Stieltjes LatHil_Main LatHil_Mean LatHil_Band LatHil_Avg.
Import ListNotations.
Local Open Scope R_scope.

Lemma res_uc n eps M z : uc n eps -> (forall k, - M <= eps k <= M) -> snd z <> 0 -> uc n (fun k => fst (1 / (z - RtoC (eps k)))%C) /\ uc n (fun k => snd (1 / (z - RtoC (eps k)))%C).
Proof. intros U B Hz. apply (uc_phi n eps M U B (fun x => (1 / (z - RtoC x))%C)). intros x _. apply res_ccont, Hz. Qed.
Lemma range_M p b x : p <= x <= b -> - Rmax (Rabs p) (Rabs b) <= x <= Rmax (Rabs p) (Rabs b).
Proof. intros H. assert (A1 := Rmax_l (Rabs p) (Rabs b)). assert (A2 := Rmax_r (Rabs p) (Rabs b)). apply Rabs_le_between in A1. apply Rabs_le_between in A2. lra. Qed.
Section Bands.
Variables (p : R) (ps : list R) (dos : R -> result R).
Hypothesis Inc : incr p ps.
Hypothesis Out : forall e, e < p \/ final p ps < e -> dos e = Ok 0.
Section B2.
Variables (eps : K 2 -> R) (band : R * R -> C).
Hypothesis Eb : forall k, band k = RtoC (eps (k2 k)).
Hypothesis U : uc 2 eps.
Hypothesis B : forall k, p <= eps k <= final p ps.
Hypothesis Sp : forall e, ~ In e (p :: ps) -> exists d, dos e = Ok d /\ spectral (fun z => is_bz_average (fun k => 1 / (z - band k))%C) e d.
Hypothesis Na : forall q, In q (p :: ps) -> noatom 2 (fun k => eps k - q).
Lemma dist2 : distribution is_bz_average band (tot dos) p ps.
Proof.
  intros phi Cp. exists (cmean 2 (fun k => phi (eps k))). assert (BM := fun k => range_M _ _ _ (B k)). split.
  - replace (fun k => phi (fst (band k))) with (fun k => phi (eps (k2 k))) by (apply FunctionalExtensionality.functional_extensionality; intros k; now rewrite Eb). apply (bz2 (fun k => phi (eps k)));
    [apply (uc_comp 2 (fun x => fst (phi x)) eps p (final p ps))|apply (uc_comp 2 (fun x => snd (phi x)) eps p (final p ps))]; try assumption; intros x Hx; apply (Cp x Hx).
  - apply (single_band 2 eps p ps dos (fun z => is_bz_average (fun k => 1 / (z - band k))%C)); try assumption. intros z G Hz HG. apply (bz_uniq _ _ _ HG).
    destruct (res_uc 2 eps _ z U BM ltac:(lra)) as [U1 U2]. assert (A := bz2 _ U1 U2). cbn beta in A.
    replace (fun k => (1 / (z - band k))%C) with (fun k => (1 / (z - RtoC (eps (k2 k))))%C) by (apply FunctionalExtensionality.functional_extensionality; intros k; now rewrite Eb). exact A.
Qed.
End B2.
Section B3.
Variables (eps : K 3 -> R) (band : R * R * R -> C).
Hypothesis Eb : forall k, band k = RtoC (eps (k3 k)).
Hypothesis U : uc 3 eps.
Hypothesis B : forall k, p <= eps k <= final p ps.
Hypothesis Sp : forall e, ~ In e (p :: ps) -> exists d, dos e = Ok d /\ spectral (fun z => is_bz_average3 (fun k => 1 / (z - band k))%C) e d.
Hypothesis Na : forall q, In q (p :: ps) -> noatom 3 (fun k => eps k - q).
Lemma dist3 : distribution is_bz_average3 band (tot dos) p ps.
Proof.
  intros phi Cp. exists (cmean 3 (fun k => phi (eps k))). assert (BM := fun k => range_M _ _ _ (B k)). split.
  - replace (fun k => phi (fst (band k))) with (fun k => phi (eps (k3 k))) by (apply FunctionalExtensionality.functional_extensionality; intros k; now rewrite Eb). apply (bz3 (fun k => phi (eps k)));
    [apply (uc_comp 3 (fun x => fst (phi x)) eps p (final p ps))|apply (uc_comp 3 (fun x => snd (phi x)) eps p (final p ps))]; try assumption; intros x Hx; apply (Cp x Hx).
  - apply (single_band 3 eps p ps dos (fun z => is_bz_average3 (fun k => 1 / (z - band k))%C)); try assumption. intros z G Hz HG. apply (bz3_uniq _ _ _ HG).
    destruct (res_uc 3 eps _ z U BM ltac:(lra)) as [U1 U2]. assert (A := bz3 _ U1 U2). cbn beta in A.
    replace (fun k => (1 / (z - band k))%C) with (fun k => (1 / (z - RtoC (eps (k3 k))))%C) by (apply FunctionalExtensionality.functional_extensionality; intros k; now rewrite Eb). exact A.
Qed.
End B3.
End Bands.

(** ** ingredients *)
Lemma uc_cos n : uc (S n) (fun k => cos (snd k)).
Proof. apply (uc_snd n cos 1). intros x y. rewrite Rmult_1_l. apply cos_lip. Qed.
Lemma uc_shift n X q : uc n X -> uc n (fun k => X k - q).
Proof. intros U. apply (uc_plus n X (fun _ => - q)); [exact U|apply uc_const]. Qed.
Lemma bd_shift n X q : bounded n X -> bounded n (fun k => X k - q).
Proof. intros (B & H). exists (Rabs B + Rabs q). intros k. specialize (H k). assert (A := Rle_abs B). assert (A1 := Rle_abs q). assert (A2 := Rle_abs (- q)). rewrite Rabs_Ropp in A2. lra. Qed.
(** comparison *)
Lemma noatom_dom n X Y c : uc n X -> bounded n X -> uc n Y -> bounded n Y -> 1 <= c -> (forall k, Rabs (Y k) <= c * Rabs (X k)) -> noatom n Y -> noatom n X.
Proof.
  intros UX BX UY BY Hc D N t Ht. assert (cc : 0 < c * c) by nra. destruct (N (t / (c * c))) as (r & Hr & B); [apply Rdiv_lt_0_compat; lra|]. exists r. split; [exact Hr|]. intros d Hd. specialize (B d Hd).
  apply Rle_trans with (mean n (fun k => c * c * lor d (Y k))).
  - apply mean_mono; [apply uc_lor; try assumption; lra|apply uc_scal, uc_lor; try assumption; lra|]. intros k. unfold lor. assert (A1 := lor_den d (X k) ltac:(lra)). assert (A2 := lor_den d (Y k) ltac:(lra)). specialize (D k).
    assert (Q : forall x, x * x = Rabs x * Rabs x) by (intros x; unfold Rabs; destruct (Rcase_abs x); ring). assert (H : Y k * Y k + d * d <= c * c * (X k * X k + d * d)).
    { rewrite (Q (Y k)), (Q (X k)). assert (P := Rabs_pos (Y k)). assert (Rabs (Y k) * Rabs (Y k) <= c * Rabs (X k) * (c * Rabs (X k))) by (apply Rmult_le_compat; assumption). assert (0 < d * d) by (apply Rmult_lt_0_compat; lra). assert (1 <= c * c) by nra. nra. }
    apply Rmult_le_reg_r with ((X k * X k + d * d) * (Y k * Y k + d * d)); [apply Rmult_lt_0_compat; assumption|]. replace (d * d / (X k * X k + d * d) * ((X k * X k + d * d) * (Y k * Y k + d * d))) with (d * d * (Y k * Y k + d * d)) by (field; lra).
    replace (c * c * (d * d / (Y k * Y k + d * d)) * ((X k * X k + d * d) * (Y k * Y k + d * d))) with (d * d * (c * c * (X k * X k + d * d))) by (field; lra). apply Rmult_le_compat_l; [nra|exact H].
  - rewrite mean_scal by (apply uc_lor; try assumption; lra). apply Rle_trans with (c * c * (t / (c * c))); [apply Rmult_le_compat_l; lra|right; field; lra].
Qed.
Lemma noatom_chain n c a phi X : a <> 0 -> uc (S n) X -> bounded (S n) X -> (forall k s, X (k, s) = c k + a * cos (s + phi)) -> noatom (S n) X.
Proof.
  intros Ha U B E. apply (noatom_step n c (fun _ => a) (fun _ => phi) X); try assumption; [apply uc_const|exists (Rabs a); intros _; apply Rabs_le_between; lra|apply noatom_const, Ha].
Qed.
