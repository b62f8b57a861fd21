(** * The upper band edge of the face-centred cubic lattice *)
From Coq Require Import Reals Lra Lia List.
From Coquelicot Require Import Coquelicot.
From Verif Require Import Base CBase CExp CSqrt Lattice_Model Bethe_Proofs Bethe_Main Fourier_Filon LatMom_Spec LatDer_Spec LatDer_Model LatDer_Dos LatEll_Model LatEll_Dos LatInt_Spec LatInt_Legendre LatInt_Local LatInt_Square CAnal CHol CEll CHolo LatBz_Spec LatRect_Main LatTri_Proofs LatTri_Main LatSc_Proofs LatFcc_Red LatFcc_Y LatFcc_Main LatCut_Spec LatCut_Proofs LatSpf_Spec LatSpf_Proofs LatSpf_Tri LatSpf_Sc LatSpf_Fcc.
Local Open Scope C_scope.

(** the parameter of the second elliptic integral stays in the upper half plane *)
Lemma edge_real (br bi ar ai ur ui : R) : (0 <= br)%R -> (bi < 0)%R -> (br * br + bi * bi < 1 / 16)%R -> (1 / 2 <= ar)%R -> (ur = 1 - (br * br - bi * bi))%R -> (ui = - (2 * br * bi))%R -> (ar * ai = br * bi / 4)%R ->
  (0 < (ur * ai + ui * ar) - ((1 - 1 / 2 * ur) * bi - 1 / 2 * ui * br))%R.
Proof.
  intros Hb Hi S A U V E. assert (B1 : (br <= 1 / 4)%R) by nra. assert (B2 : (bi * bi < 1 / 16)%R) by nra. assert (U2 : (0 <= ur <= 2)%R) by (rewrite U; nra). set (c := (- bi)%R). assert (Pc : (0 < c)%R) by (unfold c; lra). assert (Eb : bi = (- c)%R) by (unfold c; ring). clearbody c. subst bi.
  assert (P0 : (0 <= br * c)%R) by (apply Rmult_le_pos; lra). assert (A1 : (- (br * c / 2) <= ai)%R) by nra. assert (A2 : (- (br * c) <= ur * ai)%R) by nra. assert (A3 : (0 <= ui * ar)%R) by (apply Rmult_le_pos; lra).
  assert (A4 : (- ((1 - 1 / 2 * ur) * - c - 1 / 2 * ui * br) = 1 / 2 * (c * (1 + 3 * (br * br) - c * c)))%R) by (rewrite U, V; field). assert (A5 : (15 / 16 * c <= c * (1 + 3 * (br * br) - c * c))%R) by nra. assert (A6 : (br * c <= 1 / 4 * c)%R) by nra. lra.
Qed.
Lemma edge_up (u : C) : (0 < snd u)%R -> (Cmod (u - 1)%C < 1 / 16)%R -> (0 < snd (cP u))%R.
Proof.
  intros H L. rewrite cP_AB by (left; lra). assert (OB : offcut (1 - u)) by (left; destruct u; cbn in *; lra). assert (OA : offcut (1 - RtoC (1 / 4) * u)) by (left; destruct u; cbn in *; lra).
  assert (PB := csqrt_pos _ OB). assert (IB := csqrt_im _ OB). assert (PA := csqrt_pos _ OA). assert (IA := csqrt_im _ OA). assert (SB := csqrt_sqr (1 - u)). assert (SA := csqrt_sqr (1 - RtoC (1 / 4) * u)). fold (fB u) in *. fold (fA u) in *.
  assert (NB : (fst (fB u) * fst (fB u) + snd (fB u) * snd (fB u) < 1 / 16)%R).
  { replace (fst (fB u) * fst (fB u) + snd (fB u) * snd (fB u))%R with (Cmod (fB u) * Cmod (fB u))%R by (rewrite <- Cmod_sqr; reflexivity). rewrite <- Cmod_mult, SB. rewrite <- Cmod_opp. replace (- (1 - u)) with (u - 1) by ring. exact L. }
  revert PB IB PA IA SB SA NB. generalize (fB u) (fA u). clear L OB OA. intros [br bi] [ar ai] PB IB PA IA SB SA NB. destruct u as [ur ui]. apply (f_equal fst) in SB, SA. cbn in *.
  assert (X : (0 < (ur * ai + ui * ar) - ((1 - 1 / 2 * ur) * bi - 1 / 2 * ui * br))%R); [|lra]. apply edge_real; try lra; nra.
Qed.
Section Edge.
Variable D : R.
Hypothesis HD : (0 < D)%R.
Let u (z : C) : C := wz (Cconj z).
Lemma ue_lim : ulim 3 u 1.
Proof.
  assert (L : ulim 3 u (4 / (3 + 1))).
  { unfold u, wz. apply ulim_mul; [apply ulim_const|]. apply ulim_inv.
    - apply ulim_add; [|apply ulim_const]. rewrite <- Cconj_R. apply ulim_conj, ulim_id.
    - rewrite <- RtoC_plus. apply RtoC_neq0. lra. }
  replace (4 / (3 + 1)) with (RtoC 1) in L by (rewrite <- RtoC_plus, <- RtoC_div by lra; f_equal; field). exact L.
Qed.
Lemma ue_up (z : C) : (0 < snd z)%R -> (0 < snd (u z))%R. Proof. intros H. apply wz_low. cbn. lra. Qed.
Lemma Ae_lim : ulim 3 (fun z => fA (u z)) (RtoC (sqrt (3 / 4))).
Proof.
  unfold fA. rewrite <- csqrt_R by lra. apply (ulim_cont 3 (fun z => 1 - RtoC (1 / 4) * u z) _ csqrt); [|apply ccat_csqrt; right; cbn; lra]. replace (RtoC (3 / 4)) with (1 - RtoC (1 / 4) * 1) by (rewrite <- RtoC_mult, RtoC_1m; f_equal; field).
  apply (ulim_cont 3 u 1 (fun w => 1 - RtoC (1 / 4) * w) ue_lim). apply ccat_minus; [apply ccat_const|apply ccat_mult; [apply ccat_const|apply ccat_id]].
Qed.
Lemma Be_lim : ulim 3 (fun z => fB (u z)) 0.
Proof.
  assert (E0 : RtoC 0 = Cconj (csqrt (RtoC 0))) by (rewrite csqrt_R, sqrt_0 by lra; apply C_ext; cbn; ring). rewrite E0 at 1. unfold fB. apply ulim_root_low.
  - replace (RtoC 0) with (RtoC 1 - RtoC 1) by ring. apply (ulim_cont 3 u 1 (fun w => 1 - w) ue_lim). apply ccat_minus; [apply ccat_const|apply ccat_id].
  - apply uev_true. intros z H. assert (X := ue_up z H). destruct (u z). cbn in *. lra.
Qed.
Lemma Pe_lim (sg : R) : ulim 3 (fun z => RtoC (1 / 2) * (1 + RtoC sg * (u z * fA (u z)) - (1 - RtoC (1 / 2) * u z) * fB (u z))) (RtoC (1 / 2 * (1 + sg * sqrt (3 / 4)))).
Proof.
  assert (E : RtoC (1 / 2 * (1 + sg * sqrt (3 / 4))) = RtoC (1 / 2) * ((1 + RtoC sg * (1 * RtoC (sqrt (3 / 4)))) + (- (1) + RtoC (1 / 2) * 1) * 0)) by (rewrite !RtoC_mult, RtoC_plus, RtoC_mult; ring). rewrite E.
  apply (ulim_ext 3 (fun z => RtoC (1 / 2) * ((1 + RtoC sg * (u z * fA (u z))) + (- (1) + RtoC (1 / 2) * u z) * fB (u z)))); [apply uev_true; intros z _; ring|].
  apply ulim_mul; [apply ulim_const|]. apply ulim_add.
  - apply ulim_add; [apply ulim_const|]. apply ulim_mul; [apply ulim_const|]. apply ulim_mul; [exact ue_lim|exact Ae_lim].
  - apply ulim_mul; [|exact Be_lim]. apply ulim_add; [apply ulim_const|]. apply ulim_mul; [apply ulim_const|exact ue_lim].
Qed.
Lemma s34 : (0 < sqrt (3 / 4) < 1)%R.
Proof. split; [apply sqrt_lt_R0; lra|]. replace 1%R with (sqrt 1) by apply sqrt_1. apply sqrt_lt_1; lra. Qed.
Definition gedge : C := pf * (Kf (RtoC (1 / 2 * (1 + - (1) * sqrt (3 / 4)))) * Kf (RtoC (1 / 2 * (1 + 1 * sqrt (3 / 4))))) / (RtoC D * (3 + 1)).
Lemma gedge_im : snd gedge = 0%R.
Proof.
  assert (S := s34). assert (HP := PI_RGT_0). unfold gedge, pf. rewrite (Kf_R (1 / 2 * (1 + - (1) * sqrt (3 / 4)))) by lra. rewrite (Kf_R (1 / 2 * (1 + 1 * sqrt (3 / 4)))) by lra. generalize (fst (Kf (RtoC (1 / 2 * (1 + - (1) * sqrt (3 / 4)))))) (fst (Kf (RtoC (1 / 2 * (1 + 1 * sqrt (3 / 4)))))). intros k1 k2. rewrite <- RtoC_plus, <- !RtoC_mult. rewrite <- RtoC_div by (apply Rgt_not_eq, Rmult_lt_0_compat; lra). reflexivity.
Qed.
Lemma edge_lim : ulim 3 (fun z => Fj 0 (wz (Cconj z)) / (RtoC D * (Cconj z + 1))) gedge.
Proof.
  assert (S := s34). assert (EV : uev 3 (fun z => (0 < snd (cP (u z)))%R)).
  { destruct (ue_lim (1 / 16)%R ltac:(lra)) as (r & Hr & B). exists r. split; [exact Hr|]. intros w Hw Hx. apply edge_up; [apply ue_up, Hw|apply B; assumption]. }
  apply (ulim_ext 3 (fun z => pf * (Kf (cM (u z)) * Kf (cP (u z))) / (RtoC D * (Cconj z + 1)))).
  - revert EV. apply uev_imp. intros z Hz H. cbv beta. fold (u z). rewrite (fcc_up (u z)) by (apply ue_up, Hz). rewrite Ef_up by exact H. reflexivity.
  - unfold gedge. apply ulim_mul.
    + apply ulim_mul; [apply ulim_const|]. apply ulim_mul.
      * apply (ulim_cont 3 (fun z => cM (u z)) _ Kf); [|apply ccat_Kf; right; cbn; lra]. apply (ulim_ext 3 (fun z => RtoC (1 / 2) * (1 + RtoC (- (1)) * (u z * fA (u z)) - (1 - RtoC (1 / 2) * u z) * fB (u z)))); [|apply Pe_lim].
        apply uev_true. intros z Hz. rewrite cM_AB by (left; assert (X := ue_up z Hz); lra). rewrite RtoC_opp. ring.
      * apply (ulim_cont 3 (fun z => cP (u z)) _ Kf); [|apply ccat_Kf; right; cbn; lra]. apply (ulim_ext 3 (fun z => RtoC (1 / 2) * (1 + RtoC 1 * (u z * fA (u z)) - (1 - RtoC (1 / 2) * u z) * fB (u z)))); [|apply Pe_lim].
        apply uev_true. intros z Hz. rewrite cP_AB by (left; assert (X := ue_up z Hz); lra). ring.
    + apply ulim_inv; [apply ulim_mul; [apply ulim_const|apply ulim_add; [|apply ulim_const]]; rewrite <- Cconj_R; apply ulim_conj, ulim_id|]. rewrite <- RtoC_plus, <- RtoC_mult. apply RtoC_neq0, Rgt_not_eq, Rmult_lt_0_compat; lra.
Qed.
End Edge.
Lemma fcc_bd_edge (ellipk : C -> result C) hb : (0 < hb)%R -> exists g, boundary (fcc_gf_z ellipk_above) (3 / 2 * hb) hb g /\ fcc_dos ellipk (3 / 2 * hb) hb = Ok (- snd g / PI)%R.
Proof.
  intros Hb. assert (HP := PI_RGT_0). assert (P : (0 < hb / 2)%R) by lra. exists (Cconj (gedge (hb / 2))). split.
  - apply (bd_ulim _ (fun w => Cconj (fccF hb (w / RtoC (hb / 2))))); [|apply uev_true; exact (fcc_val_up hb Hb)]. apply ulim_conj. replace (3 / 2 * hb)%R with (hb / 2 * 3)%R by field. apply (ulim_scale 3 (hb / 2) (fccF hb)); [exact P|exact (edge_lim (hb / 2) P)].
  - unfold fcc_dos. destruct (Req_EM_T _ _) as [X|_]; [lra|]. rewrite (cneg_ge (3 / 2 * hb - 3 / 2 * hb)) by lra. rewrite Bool.andb_false_r. f_equal. cbn [Cconj snd]. rewrite gedge_im by exact P. field. lra.
Qed.
