(** * square.stress_trafo is the Brillouin zone average of the inverse mass over the distance to the band *)
From Coq Require Import Reals List Lra Lia.
From Coquelicot Require Import Coquelicot.
From Verif Require Import Base CBase CExp CSqrt Lattice_Model Bethe_Proofs Bethe_Main Fourier_Filon LatMom_Spec LatDer_Spec LatDer_Model LatDer_Proofs LatInt_Spec LatInt_Proofs LatInt_Hilbert LatInt_Fubini LatInt_Square LatInt_Local LatMp_Model.
Local Open Scope C_scope.

Lemma clip2_mult (c : R -> R -> R) (g : R -> R -> C) (L M : R) : (forall u v, (Rabs (c u v) <= 1)%R) -> lip2 1 c -> (forall u v, (Cmod (g u v) <= M)%R) -> clip2 L g -> clip2 (L + M) (fun u v => RtoC (c u v) * g u v).
Proof.
  intros C1 Cl GM GL u v u' v'. set (X := (Rabs (u - u') + Rabs (v - v'))%R). assert (X0 : (0 <= X)%R) by (unfold X; assert (Q1 := Rabs_pos (u - u')); assert (Q2 := Rabs_pos (v - v')); lra).
  replace (RtoC (c u v) * g u v - RtoC (c u' v') * g u' v') with (RtoC (c u v) * (g u v - g u' v') + RtoC (c u v - c u' v') * g u' v') by (rewrite RtoC_minus; ring).
  eapply Rle_trans; [apply Cmod_triangle|]. rewrite !Cmod_mult, !Cmod_R. assert (A := C1 u v). assert (B := Cl u v u' v'). assert (E := GL u v u' v'). assert (F := GM u' v'). fold X in B, E.
  assert (P1 := Cmod_ge_0 (g u v - g u' v')%C). assert (P2 := Cmod_ge_0 (g u' v')). assert (P3 := Rabs_pos (c u v)). assert (P4 := Rabs_pos (c u v - c u' v')).
  assert (Y1 := Rmult_le_compat _ _ _ _ P3 P1 A E). assert (Y2 := Rmult_le_compat _ _ _ _ P4 P2 B F). lra.
Qed.
Section Stress.
  Variables (D : R) (z : C).
  Hypothesis HD : (0 < D)%R.
  Hypothesis O : off_band D z.
  Let g (u v : R) : C := RtoC (cos u) * F1 D z u v.
  Lemma g_clip : exists L, clip2 L g.
  Proof.
    destruct (F1_clip D HD z O) as [L HL]. destruct (band_gap D HD z O) as (s & S0 & S). exists (L + / s)%R.
    apply clip2_mult; [intros u v; apply Rabs_le, COS_bound| | |exact HL].
    - intros u v u' v'. assert (A := cos_lip u u'). assert (B := Rabs_pos (v - v')). lra.
    - intros u v. unfold F1. assert (T := S _ (p1_range u v)). assert (N : z - RtoC (D * p1 u v) <> 0) by (intros E; rewrite E, Cmod_0 in T; lra).
      rewrite Cmod_div by exact N. rewrite Cmod_1. unfold Rdiv. rewrite Rmult_1_l. apply Rinv_le_contravar; assumption.
  Qed.
  Lemma F1_sym u v : F1 D z u v = F1 D z v u. Proof. unfold F1, p1. rewrite (Rplus_comm (cos u)). reflexivity. Qed.
  Lemma g_sum u v : g u v + g v u = RtoC (2 / D) * (z * F1 D z u v - 1).
  Proof.
    unfold g. rewrite (F1_sym v u). replace (RtoC (cos u) * F1 D z u v + RtoC (cos v) * F1 D z u v) with (RtoC (2 / D) * RtoC (D * p1 u v) * F1 D z u v).
    2:{ rewrite <- RtoC_mult. replace (2 / D * (D * p1 u v))%R with (cos u + cos v)%R by (unfold p1; field; lra). rewrite RtoC_plus. ring. }
    assert (N := ze_neq0 D z O (D * p1 u v)%R). assert (N' : z - RtoC (D * p1 u v) <> 0). { apply N. assert (R := p1_range u v). split; nra. }
    unfold F1. field. exact N'.
  Qed.
  Lemma stress_average (m : R * R -> R) (G : C) :
    (forall k1 k2, is_derive_n (fun x => fst (bloch square (D / 4) (x, k2) 0 0)) 2 k1 (m (k1, k2))) ->
    is_bz_average (fun k => 1 / (z - bloch square (D / 4) k 0 0)) G ->
    is_bz_average (fun k => RtoC (m k) / (z - bloch square (D / 4) k 0 0)) (RtoC (- (1 / 2)) * (z * G - 1)).
  Proof.
    intros Hm (inner & HI & HG). destruct g_clip as [L HL]. assert (HP := PI_RGT_0). assert (PP := four_pi2). assert (dc := RtoC_neq0 D ltac:(lra)).
    assert (Em : forall k1 k2, m (k1, k2) = (- (D / 2) * cos k1)%R).
    { intros k1 k2. assert (H := Hm k1 k2). apply is_derive_n_unique in H. rewrite <- H. apply is_derive_n_unique.
      apply (is_derive_n_ext (fun x => D / 2 * cos x + D / 2 * cos k2)%R). { intros x. rewrite square_band. unfold p1. cbn [fst RtoC]. field. }
      assert (Z : forall x, Derive (fun x => D / 2 * cos x + D / 2 * cos k2)%R x = (D / 2 * - sin x)%R) by (intros x; apply is_derive_unique; auto_derive; [exact I|ring]).
      change (is_derive (Derive_n (fun x => D / 2 * cos x + D / 2 * cos k2)%R 1) k1 (- (D / 2) * cos k1)%R).
      apply (is_derive_ext (fun x => D / 2 * - sin x)%R). { intros x. symmetry. apply Z. } auto_derive; [exact I|ring]. }
    assert (C1 : forall u, is_CInt (fun v => g u v) (- PI) PI (CInt (fun v => g u v) (- PI) PI)) by (intros u; apply CInt_ok; intros; apply (clip2_cont2 L); exact HL).
    assert (C2 : forall u, is_CInt (fun v => g v u) (- PI) PI (CInt (fun v => g v u) (- PI) PI)) by (intros u; apply CInt_ok; intros; apply (clip2_cont1 L); exact HL).
    assert (F := cfubini L g (- PI) PI (- PI) PI HL). set (A := CInt (fun v => CInt (fun u => g u v) (- PI) PI) (- PI) PI) in F.
    assert (HL' : clip2 L (fun u v => g v u)) by (intros u v u' v'; rewrite Rplus_comm; apply HL).
    assert (F' : is_CInt (fun u => CInt (fun v => g v u) (- PI) PI) (- PI) PI A) by (apply CInt_ok; intros; apply (cfubini_cont L (fun u v => g v u)); exact HL').
    assert (EA : A + A = RtoC (2 / D) * (z * (RtoC (4 * (PI * PI)) * G) - RtoC (4 * (PI * PI)))).
    { apply (is_CInt_unique (fun u => RtoC (2 / D) * (z * inner u - RtoC (2 * PI))) (- PI) PI).
      - apply (is_CInt_ext (fun u => CInt (fun v => g u v) (- PI) PI + CInt (fun v => g v u) (- PI) PI)); [|exact (is_CInt_plus _ _ _ _ _ _ F F')]. intros u _.
        apply (is_CInt_unique (fun v => g u v + g v u) (- PI) PI); [exact (is_CInt_plus _ _ _ _ _ _ (C1 u) (C2 u))|].
        apply (is_CInt_ext (fun v => RtoC (2 / D) * (z * (1 / (z - bloch square (D / 4) (u, v) 0 0)) - 1))).
        + intros v _. rewrite g_sum. unfold F1. rewrite square_band. reflexivity.
        + apply is_CInt_scal, is_CInt_minus; [apply is_CInt_scal, HI|]. eapply is_CInt_eq; [apply is_CInt_const|]. rewrite Cmult_1_r. f_equal. ring.
      - apply is_CInt_scal, is_CInt_minus; [apply is_CInt_scal, HG|]. eapply is_CInt_eq; [apply is_CInt_const|]. rewrite <- RtoC_mult. f_equal. ring. }
    exists (fun u => RtoC (- (D / 2)) * CInt (fun v => g u v) (- PI) PI). split.
    - intros u. apply (is_CInt_ext (fun v => RtoC (- (D / 2)) * g u v)); [|apply is_CInt_scal, C1]. intros v _. rewrite Em. unfold g, F1. rewrite square_band, (RtoC_mult (- (D / 2)) (cos u)). unfold Cdiv. rewrite Cmult_1_l. ring.
    - eapply is_CInt_eq; [apply is_CInt_scal, F|]. assert (EA2 : A = RtoC (1 / D) * RtoC (4 * (PI * PI)) * (z * G - 1)).
      { assert (T : RtoC 2 <> 0) by (apply RtoC_neq0; lra). transitivity (RtoC (1 / 2) * (A + A)); [rewrite RtoC_div by lra; apply C_ext; cbn; field|]. rewrite EA. rewrite !RtoC_div by lra. field. split; assumption. }
      rewrite EA2, !RtoC_opp, !RtoC_div by lra. field. split; [apply RtoC_neq0; lra|exact dc].
  Qed.
End Stress.
