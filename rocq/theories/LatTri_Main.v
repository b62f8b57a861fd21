(** * The Green's function of the triangular lattice is the average of the resolvent over the Brillouin zone *)
From Coq Require Import Reals Lra List ZArith.
From Coquelicot Require Import Coquelicot.
From Verif Require Import Base CBase CExp CSqrt Lattice_Model Bethe_Proofs Bethe_Main Fourier_Filon LatMom_Spec LatDer_Spec LatDer_Proofs LatEll_Model LatInt_Spec LatInt_Proofs LatInt_Hilbert LatInt_Fubini LatInt_Square LatInt_Local LatInt_Legendre CAnal CHol CEll CHolo LatBz_Spec LatRect_Proofs LatRect_Main LatTri_Proofs.
Local Open Scope C_scope.

(** on the cut the elliptic integral is continuous from above *)
Definition tri_ok (ellipk : C -> result C) (w : C) : Prop := tri_cut w -> forall x, (1 < x)%R -> ellipk (RtoC x) = Ok (Ef (RtoC x)).
Lemma cneg_ge x : (0 <= x)%R -> cneg x = false. Proof. intros H. unfold cneg. destruct (Rlt_dec x 0); [lra|reflexivity]. Qed.
Lemma cneg_lt x : (x < 0)%R -> cneg x = true. Proof. intros H. unfold cneg. destruct (Rlt_dec x 0); [reflexivity|lra]. Qed.
Lemma tri_signed_up (z : C) : (0 <= snd z)%R -> tri_signed_sqrt z = csqrt z.
Proof. intros H. unfold tri_signed_sqrt. rewrite (cneg_ge (snd z)) by exact H. rewrite Bool.andb_false_r. reflexivity. Qed.
Lemma csqrt_up (z : C) : (0 <= snd z)%R -> (0 <= snd (csqrt z))%R.
Proof.
  intros H. unfold csqrt. destruct (Rle_dec 0 (snd z)); [|lra]. cbn. assert (X := sqrt_pos ((Cmod z - fst z) / 2)). lra.
Qed.
Section Core.
Variable ellipk : C -> result C.
Hypothesis HK : computes_K ellipk.
Lemma ellipk_ok m : offK m -> ellipk m = Ok (Kf m). Proof. intros H. destruct (HK m H) as (k & E & L). rewrite E. f_equal. apply Kf_eq, L. Qed.
Lemma tri_core_ok (w : C) (D : R) : (0 < D)%R -> (0 <= snd w)%R -> offT w -> tri_ok ellipk w -> tri_core ellipk w D = Ok (RtoC (1 / PI / D) * trig (triR w) * sheet (trik (triR w))).
Proof.
  intros HD Hi O NC. assert (HP := PI_RGT_0). assert (RR : triR w * triR w = 2 * w + 3) by apply csqrt_sqr. assert (Cases : ((0 < snd (triR w))%R /\ (0 <= fst (triR w))%R) \/ exists S, (3 < S)%R /\ triR w = RtoC S).
  { destruct (Rlt_dec 0 (snd w)) as [L|L]; [left; destruct (upper_R w L); lra|]. assert (E : w = RtoC (fst w)) by (apply C_ext; cbn; lra). destruct O as [X|[X|X]]; [lra| |].
    - left. rewrite E. destruct (triR_below (fst w) X) as [_ E2]. rewrite E2. cbn. split; [apply sqrt_lt_R0; lra|lra].
    - right. rewrite E. destruct (triR_real (fst w) X) as (S & HS & _ & ES). exists S. split; assumption. }
  assert (Ri : (0 <= snd (triR w))%R) by (destruct Cases as [[A _]|(S & _ & ->)]; [lra|cbn; lra]).
  assert (OC : offcut (triR w - 1) /\ offcut (triR w + 3)). { destruct Cases as [[A _]|(S & HS & ->)]; [|split; right; cbn; lra]. destruct (triR w) as [x y]; split; left; cbn in *; lra. } destruct OC as [O1 O3].
  unfold tri_core. rewrite (tri_signed_up (2 * w + 3)) by (destruct w; cbn in *; lra). fold (triR w). rewrite (tri_signed_up (triR w - 1)) by (destruct (triR w); cbn in *; lra). rewrite (tri_signed_up (triR w + 3)) by (destruct (triR w); cbn in *; lra). rewrite (tri_signed_up (triR w)) by exact Ri. cbv zeta.
  assert (N1 := offcut_csqrt _ O1). assert (N3 := offcut_csqrt _ O3). rewrite cdiv_ok by (apply Cmult_neq_0; [apply Cmult_neq_0; [apply Cmult_neq_0|]|]; assumption). cbn [bind]. fold (trig (triR w)). fold (trik (triR w)).
  assert (Q := trik_sqr _ O1 O3). rewrite rdiv_ok by lra. set (r := triR w) in *.
  destruct Cases as [[A B]|(S & HS & ES)].
  - assert (T := trik_region r A B). assert (TS := trik_sheet r A B). set (k := trik r) in *. unfold sheet. destruct (Rlt_dec (snd k) 0) as [L|L].
    + rewrite (ellipk_ok (k * k)) by (apply low_offK, L). cbn [bind]. rewrite cneg_ge by lra. cbn [bind]. reflexivity.
    + destruct T as [T|T]; [lra|]. destruct (Rlt_dec (fst k) 0) as [L2|L2]; [|lra]. destruct (Req_EM_T (snd k) 0) as [Z|Z].
      * set (mu := (fst k * fst k)%R). assert (EM : k * k = RtoC mu) by (unfold mu; clearbody k; destruct k as [a b]; cbn in *; subst b; apply C_ext; cbn; ring). assert (M0 : (0 < mu)%R) by (unfold mu; nra).
        assert (M1 : (1 < mu)%R). { destruct TS as [X|[[_ X]|[X _]]]; [lra| |lra]. rewrite EM in X. destruct X as [X|X]; cbn in X; lra. }
        assert (TC : tri_cut w).
        { exists r, (16 / mu)%R. split; [exact B|]. split; [exact RR|]. split; [|split; [apply Rdiv_lt_0_compat; lra|apply Rmult_lt_reg_r with mu; [lra|]; replace (16 / mu * mu)%R with 16%R by (field; lra); nra]].
        rewrite EM in Q. unfold trim in Q. assert (NM : RtoC mu <> 0) by (apply RtoC_neq0; lra). rewrite RtoC_div by lra. replace (RtoC 16 / RtoC mu * r) with (16 * r / RtoC mu) by (unfold Cdiv; ring). rewrite Q. assert (N0 : r <> 0) by (intros Y; rewrite Y in A; cbn in A; lra).
        assert (M3 := offcut_neq0 _ O3). assert (M1' := offcut_neq0 _ O1). assert (N16 : RtoC 16 <> 0) by (apply RtoC_neq0; lra). revert M3 N16. generalize (r + 3) (RtoC 16). intros c d Nc Nd. field. repeat split; assumption. }
        rewrite EM, (NC TC mu M1). cbn [bind]. rewrite cneg_ge by (rewrite Z; lra). cbn [bind]. reflexivity.
      * assert (SM : (snd (k * k)%C < 0)%R) by (clearbody k; destruct k as [a b]; cbn in *; nra). rewrite (ellipk_ok (k * k)) by (left; lra). cbn [bind]. rewrite cneg_lt by lra. rewrite (ellipk_ok (1 - k * k)) by (apply offE_1m; left; lra). cbn [bind]. rewrite Ef_low by exact SM. reflexivity.
  - rewrite ES in *. rewrite trik_real in * by exact HS. assert (KP : (0 < sqrt S * gS S)%R) by (apply Rmult_lt_0_compat; [apply sqrt_lt_R0; lra|now apply gS_pos]). rewrite sheet_real by lra. rewrite <- RtoC_mult. rewrite (ellipk_ok (RtoC (sqrt S * gS S * (sqrt S * gS S)))) by (right; apply kS_lt, HS). cbn [bind]. rewrite cneg_ge by (cbn; lra). cbn [bind]. reflexivity.
Qed.
End Core.
Lemma tri_band (t k1 k2 : R) : bloch triangular t (k1, k2) 0 0 = RtoC (2 * t * (cos k1 + cos k2 + cos (k1 - k2))).
Proof.
  unfold bloch, phase, triangular, bravais, origin. cbn [map fold_right snd fst Nat.eqb Z.add].
  replace (IZR 1 * k1 + IZR 0 * k2)%R with k1 by (cbn; ring). replace (IZR (-1) * k1 + IZR 0 * k2)%R with (- k1)%R by (cbn; ring). replace (IZR 0 * k1 + IZR 1 * k2)%R with k2 by (cbn; ring). replace (IZR 0 * k1 + IZR (-1) * k2)%R with (- k2)%R by (cbn; ring).
  replace (IZR 1 * k1 + IZR (-1) * k2)%R with (k1 - k2)%R by (cbn; ring). replace (IZR (-1) * k1 + IZR 1 * k2)%R with (- (k1 - k2))%R by (cbn; ring).
  assert (H : forall x, cexp (Ci * RtoC (- x)) = / cexp (Ci * RtoC x)). { intros x. rewrite <- cexp_opp. f_equal. rewrite RtoC_opp. ring. }
  rewrite !H. set (u := cexp (Ci * RtoC k1)). set (v := cexp (Ci * RtoC k2)). set (w := cexp (Ci * RtoC (k1 - k2))). transitivity (RtoC t * ((u + / u) + (v + / v) + (w + / w))); [ring|]. unfold u, v, w. rewrite !cexp_cos, <- !RtoC_plus, <- RtoC_mult. f_equal. ring.
Qed.
Lemma cos_pair (k1 k2 : R) : (cos k2 + cos (k1 - k2) = 2 * cos (k1 / 2) * cos (k2 - k1 / 2))%R.
Proof. set (d := (k2 - k1 / 2)%R). replace k2 with (k1 / 2 + d)%R by (unfold d; ring). replace (k1 - (k1 / 2 + d))%R with (k1 / 2 - d)%R by field. rewrite cos_plus, cos_minus. ring. Qed.
Lemma tri_inner (w : C) (k1 : R) : offT w -> is_CInt (fun k2 => 1 / (w - RtoC (cos k1 + cos k2 + cos (k1 - k2)))) (- PI) PI (RtoC (2 * PI) * ker tq w k1).
Proof.
  intros O. set (a := (2 * cos (k1 / 2))%R). assert (OB := tri_off w k1 O). fold a in OB. assert (N : w - RtoC (cos k1) <> 0) by (apply (off_neq (Rabs a)); [apply Rabs_pos|exact OB]).
  assert (T : forall k2, (cos k2 + cos (k1 - k2) = a * cos (k2 - k1 / 2))%R). { intros k2. apply cos_pair. }
  assert (I := is_CInt_shift _ _ _ _ (k1 / 2) (chain_iota a _ N OB)). replace (a * a)%R with (tq k1) in I by (rewrite tq_sqr; reflexivity). fold (ker tq w k1) in I.
  assert (I2 : is_CInt (fun k2 => 1 / (w - RtoC (cos k1 + cos k2 + cos (k1 - k2)))) (- PI + k1 / 2) (- PI + k1 / 2 + 2 * PI) (RtoC (2 * PI) * ker tq w k1)).
  { replace (- PI + k1 / 2 + 2 * PI)%R with (PI + k1 / 2)%R by ring. apply is_CInt_ext with (2 := I). intros k2 _. rewrite <- T. f_equal. rewrite !RtoC_plus. ring. }
  replace PI with (- PI + 2 * PI)%R at 2 by ring. apply (periodic_any _ (2 * PI) (- PI + k1 / 2) (- PI)); [| |exact I2].
  - intros k2. apply (ccont_mult (fun _ => 1) (fun k2 => / (w - RtoC (cos k1 + cos k2 + cos (k1 - k2))))); [apply ccont_const|]. apply (ccont_inv (fun k2 => w - RtoC (cos k1 + cos k2 + cos (k1 - k2)))).
    + apply (ccont_minus (fun _ => w) (fun k2 => RtoC (cos k1 + cos k2 + cos (k1 - k2)))); [apply ccont_const|]. apply ccont_R. apply (ex_derive_continuous (fun k2 => cos k1 + cos k2 + cos (k1 - k2))%R). auto_derive. exact Logic.I.
    + replace (w - RtoC (cos k1 + cos k2 + cos (k1 - k2))) with (w - RtoC (cos k1) - RtoC (a * cos (k2 - k1 / 2))) by (rewrite <- T, !RtoC_plus; ring). apply off_cos, OB.
  - intros k2. rewrite cos_2PI. replace (k1 - (k2 + 2 * PI))%R with (- (k2 - k1 + 2 * PI))%R by ring. rewrite cos_neg, cos_2PI. rewrite <- (cos_neg (k1 - k2)). do 5 f_equal. ring.
Qed.
Lemma is_bz_conj f l : is_bz_average f l -> is_bz_average (fun k => Cconj (f k)) (Cconj l).
Proof.
  intros (inner & A & B). exists (fun k => Cconj (inner k)). split; [intros k1; apply (is_CInt_conj _ _ _ _ (A k1))|]. eapply is_CInt_eq; [apply (is_CInt_conj _ _ _ _ B)|]. apply C_ext; cbn; ring.
Qed.
Lemma is_bz_ext f g l : (forall k, f k = g k) -> is_bz_average f l -> is_bz_average g l.
Proof. intros H (inner & A & B). exists inner. split; [|exact B]. intros k1. apply is_CInt_ext with (2 := A k1). intros; apply H. Qed.
Lemma tri_avg (w z : C) (D : R) : (0 < D)%R -> z = RtoC D * w -> offT w -> is_bz_average (fun k => 1 / (z - bloch triangular (D / 2) k 0 0)) (RtoC (1 / (2 * PI) / D) * trA w).
Proof.
  intros HD E O. assert (HP := PI_RGT_0). assert (DC : RtoC D <> 0) by (apply RtoC_neq0; lra). exists (fun k1 => RtoC (2 * PI) / RtoC D * ker tq w k1). split.
  - intros k1. eapply is_CInt_eq; [apply is_CInt_ext with (2 := is_CInt_scal (/ RtoC D) _ _ _ _ (tri_inner w k1 O))|unfold Cdiv; ring]. intros k2 _. cbv beta. rewrite tri_band, E. replace (2 * (D / 2) * (cos k1 + cos k2 + cos (k1 - k2)))%R with (D * (cos k1 + cos k2 + cos (k1 - k2)))%R by field.
    rewrite RtoC_mult. set (e := RtoC (cos k1 + cos k2 + cos (k1 - k2))). assert (NE : w - e <> 0).
    { unfold e. set (a := (2 * cos (k1 / 2))%R). assert (OB := tri_off w k1 O). fold a in OB. replace (w - RtoC (cos k1 + cos k2 + cos (k1 - k2))) with (w - RtoC (cos k1) - RtoC (a * cos (k2 - k1 / 2))); [apply off_cos, OB|].
      replace (a * cos (k2 - k1 / 2))%R with (cos k2 + cos (k1 - k2))%R; [rewrite !RtoC_plus; ring|]. apply cos_pair. }
    replace (RtoC D * w - RtoC D * e) with (RtoC D * (w - e)) by ring. field. split; assumption.
  - eapply is_CInt_eq; [apply is_CInt_scal, (trA_is w O)|]. rewrite Cmult_assoc, <- RtoC_mult, <- RtoC_div by lra. f_equal. f_equal. field. lra.
Qed.
Lemma tri_val (w : C) : (0 <= snd w)%R -> offT w -> trA w = trF w.
Proof.
  intros Hi O. destruct (Rlt_dec 0 (snd w)) as [L|L]; [apply tri_upper, L|]. assert (E : w = RtoC (fst w)) by (apply C_ext; cbn; lra). destruct O as [X|[X|X]]; [lra| |]; rewrite E; [apply tri_below|apply tri_above]; exact X.
Qed.
Lemma cut_conj w : tri_cut (Cconj w) -> tri_cut w.
Proof.
  intros (r & q & N & A & B & H). exists (Cconj r), q. split; [destruct r; exact N|]. split; [|split; [|exact H]].
  - rewrite <- Cconj_mul, A. apply C_ext; cbn; ring.
  - apply (f_equal Cconj) in B. rewrite (Cconj_mul (RtoC q) r) in B. replace (Cconj (RtoC q)) with (RtoC q) in B by (apply C_ext; cbn; ring). rewrite <- B, !Cconj_mul, Cconj_add. replace (Cconj (r - 1)) with (Cconj r - 1) by (apply C_ext; cbn; ring). replace (Cconj 3) with (RtoC 3) by (apply C_ext; cbn; ring). reflexivity.
Qed.
Section Main.
Variable ellipk : C -> result C.
Hypothesis HK : computes_K ellipk.
Lemma tri_average (hb : R) (z : C) : (0 < hb)%R -> snd z <> 0%R \/ (fst z < - (2 / 3 * hb))%R \/ (4 / 3 * hb < fst z)%R -> z <> - (1) -> tri_ok ellipk (z / RtoC (hb * 4 / 9)) ->
  exists G, triangular_gf_z ellipk z hb = Ok G /\ is_bz_average (fun k => 1 / (z - bloch triangular (hb * 4 / 9 / 2) k 0 0)) G.
Proof.
  intros Hb O N1 NC. assert (HP := PI_RGT_0). set (D := (hb * 4 / 9)%R) in *. assert (HD : (0 < D)%R) by (unfold D; lra). assert (DC : RtoC D <> 0) by (apply RtoC_neq0; lra).
  unfold triangular_gf_z. fold D. rewrite rdiv_ok by lra. cbn [bind]. set (w := RtoC (1 / D) * z). assert (Ew : w = z / RtoC D) by (unfold w; rewrite RtoC_div by lra; field; exact DC). rewrite <- Ew in NC. assert (Ez : z = RtoC D * w) by (rewrite Ew; field; exact DC).
  assert (OW : offT w). { assert (Ef : fst w = (fst z / D)%R /\ snd w = (snd z / D)%R) by (rewrite Ew, div_real by lra; split; reflexivity). destruct Ef as [E1 E2]. unfold offT. rewrite E1, E2.
    assert (Q : forall x y : R, (x * D < y)%R -> (x < y / D)%R). { intros x y H. apply Rmult_lt_reg_r with D; [exact HD|]. unfold Rdiv. rewrite Rmult_assoc, Rinv_l; lra. } assert (Q' : forall x y : R, (y < x * D)%R -> (y / D < x)%R). { intros x y H. apply Rmult_lt_reg_r with D; [exact HD|]. unfold Rdiv. rewrite Rmult_assoc, Rinv_l; lra. }
    destruct O as [H|[H|H]]; [left|right; left|right; right]. - apply Rmult_integral_contrapositive_currified; [exact H|apply Rinv_neq_0_compat; lra]. - apply Q'. unfold D. lra. - apply Q. unfold D. lra. }
  set (v := if cneg (snd w) then Cconj w else w). assert (Hv : (0 <= snd v)%R). { unfold v, cneg. destruct (Rlt_dec (snd w) 0) as [L|L]; cbn [Cconj fst snd]; lra. }
  assert (OV : offT v). { unfold v. destruct (cneg (snd w)); [|exact OW]. clear - OW. destruct w as [x y]. unfold offT in *. cbn in *. destruct OW as [H|H]; [left; lra|right; exact H]. }
  assert (NV : tri_ok ellipk v). { unfold v. destruct (cneg (snd w)); [|exact NC]. intros X. apply NC, cut_conj, X. }
  cbv zeta. fold v. destruct (Ceq_dec (RtoC D * v) (- (1))) as [X|X].
  { exfalso. apply N1. assert (SV : snd v = 0%R). { apply (f_equal snd) in X. destruct v as [a b]. cbn in *. assert (D * b = 0)%R by lra. apply Rmult_integral in H. destruct H; [lra|assumption]. }
    assert (v = w). { unfold v in *. unfold cneg in *. destruct (Rlt_dec (snd w) 0); [cbn [Cconj fst snd] in SV; lra|reflexivity]. } rewrite Ez, <- H. exact X. }
  rewrite (tri_core_ok ellipk HK v D HD Hv OV NV). cbn [bind].
  assert (EV : RtoC (1 / PI / D) * trig (triR v) * sheet (trik (triR v)) = RtoC (1 / (2 * PI) / D) * trA v).
  { rewrite (tri_val v Hv OV). unfold trF. replace (1 / (2 * PI) / D)%R with (1 / PI / D / 2)%R by (field; lra). rewrite (RtoC_div (1 / PI / D)) by lra. cfield. }
  assert (EV2 : (cneg (snd w) = false /\ v = w) \/ (cneg (snd w) = true /\ v = Cconj w)) by (unfold v; destruct (cneg (snd w)); [right|left]; split; reflexivity). clearbody v. rewrite EV. destruct EV2 as [[EA EV2]|[EA EV2]]; rewrite EA; (eexists; split; [reflexivity|]).
  { rewrite EV2 in *. apply tri_avg; assumption. }
  apply (is_bz_ext (fun k => Cconj (1 / (Cconj z - bloch triangular (D / 2) k 0 0)))).
  - intros [k1 k2]. rewrite tri_band. unfold Cdiv. rewrite Cconj_mul, <- Cconj_inv. replace (Cconj 1) with (RtoC 1) by (apply C_ext; cbn; ring). do 2 f_equal. apply C_ext; cbn; ring.
  - apply is_bz_conj. apply tri_avg; [exact HD| |exact OV]. rewrite EV2, Ez. rewrite Cconj_mul. f_equal. apply C_ext; cbn; ring.
Qed.
End Main.
