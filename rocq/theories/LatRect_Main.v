(** * The Green's function of the rectangular lattice is the average of the resolvent over the Brillouin zone *)
From Coq Require Import Reals Lra List ZArith.
From Coquelicot Require Import Coquelicot.
From Verif Require Import Base CBase CExp CSqrt Lattice_Model Bethe_Proofs Bethe_Main Fourier_Filon LatMom_Spec LatDer_Spec LatDer_Model LatDer_Proofs LatInt_Spec LatInt_Proofs LatInt_Hilbert LatInt_Fubini LatInt_Square LatInt_Local LatInt_Legendre CAnal CHol CEll LatBz_Spec LatRect_Proofs.
Import ListNotations.
Local Open Scope C_scope.

Lemma rect_band t s k1 k2 : rectangular_band t s (k1, k2) = RtoC (2 * t * (cos k1 + s * cos k2)).
Proof.
  unfold rectangular_band, bloch, phase, bravais, origin. cbn [map fold_right snd fst Nat.eqb Z.add]. 
  replace (IZR 1 * k1 + IZR 0 * k2)%R with k1 by (cbn; ring). replace (IZR (-1) * k1 + IZR 0 * k2)%R with (- k1)%R by (cbn; ring). replace (IZR 0 * k1 + IZR 1 * k2)%R with k2 by (cbn; ring). replace (IZR 0 * k1 + IZR (-1) * k2)%R with (- k2)%R by (cbn; ring).
  assert (H : forall x, cexp (Ci * RtoC (- x)) = / cexp (Ci * RtoC x)). { intros x. rewrite <- cexp_opp. f_equal. rewrite RtoC_opp. ring. }
  rewrite !H. rewrite !Cplus_0_r, !cexp_cos, <- !RtoC_mult, <- RtoC_plus. f_equal. ring.
Qed.
Lemma iota_form w q : iota w q = 1 / (w * csqrt (1 - q / (w * w))). Proof. unfold iota, iden, Cdiv. ring. Qed.
Lemma div_real (z : C) (D : R) : (D <> 0)%R -> z / RtoC D = (fst z / D, snd z / D)%R.
Proof. intros H. unfold Cdiv. rewrite <- RtoC_inv by exact H. apply C_ext; cbn; unfold Rdiv; ring. Qed.
Lemma off_div (b D : R) (z : C) : (0 < D)%R -> off_band (b * D) z -> off_band b (z / RtoC D).
Proof.
  intros HD O. rewrite div_real by lra. destruct O as [H|H]; [left|right]; cbn [fst snd].
  - apply Rmult_integral_contrapositive_currified; [exact H|apply Rinv_neq_0_compat; lra].
  - unfold Rdiv. rewrite Rabs_mult, (Rabs_pos_eq (/ D)) by (apply Rlt_le, Rinv_0_lt_compat, HD). apply Rmult_lt_reg_r with D; [exact HD|]. rewrite Rmult_assoc, Rinv_l, Rmult_1_r by lra. exact H.
Qed.
(** one chain of amplitude a *)
Lemma chain_iota (a : R) (w : C) : w <> 0 -> off_band (Rabs a) w -> is_CInt (fun t => 1 / (w - RtoC (a * cos t))) (- PI) PI (RtoC (2 * PI) * iota w (RtoC (a * a))).
Proof.
  intros N O. destruct (Req_EM_T a 0) as [-> | Na].
  - eapply is_CInt_eq; [apply is_CInt_ext with (2 := is_CInt_const (1 / w) (- PI) PI)|].
    + intros t _. rewrite Rmult_0_l. f_equal. ring.
    + replace (PI - - PI)%R with (2 * PI)%R by ring. rewrite iota_form. rewrite Rmult_0_l. replace (1 - RtoC 0 / (w * w)) with (RtoC 1) by (field; exact N). rewrite csqrt_1, Cmult_1_r. reflexivity.
  - assert (HA : (0 < Rabs a)%R) by (apply Rabs_pos_lt, Na). set (e := (a / Rabs a)%R). assert (Ea : (Rabs a * e = a)%R) by (unfold e; field; lra).
    assert (He : (e = 1 \/ e = -1)%R). { unfold e. unfold Rabs. destruct Rcase_abs; [right|left]; field; lra. }
    assert (I := chain_int (Rabs a) HA w O e ltac:(destruct He; lra)). eapply is_CInt_eq; [apply is_CInt_ext with (2 := I)|].
    + intros t _. rewrite <- Rmult_assoc, Ea. reflexivity.
    + rewrite iota_form. replace (RtoC (Rabs a) / w * (RtoC (Rabs a) / w) * RtoC (e * e)) with (RtoC (a * a) / (w * w)); [unfold Cdiv; ring|].
      rewrite <- Ea at 1 2. rewrite !RtoC_mult. field. exact N.
Qed.
Lemma off_shift (s t : R) (w : C) : (0 <= s)%R -> off_band (1 + s) w -> off_band (Rabs s) (w - RtoC (cos t)).
Proof.
  intros Hs OW. rewrite Rabs_pos_eq by lra. destruct w as [x y]. destruct OW as [H|H]; [left|right]; cbn in *.
  - intros E; apply H. lra.
  - destruct (COS_bound t). revert H. unfold Rabs. repeat destruct Rcase_abs; lra.
Qed.
Lemma off_cos (s t : R) (w : C) : off_band (Rabs s) w -> w - RtoC (s * cos t) <> 0.
Proof.
  intros O E. destruct w as [x y]. assert (E1 := f_equal fst E). assert (E2 := f_equal snd E). destruct O as [H|H]; cbn in *; [apply H; lra|].
  assert (X : x = (s * cos t)%R) by lra. rewrite X, Rabs_mult in H. assert (C := COS_bound t). assert (Rabs (cos t) <= 1)%R by (apply Rabs_le; lra). assert (P := Rabs_pos s). nra.
Qed.
Lemma legendre_K_ok : computes_K ellipk_legendre. Proof. intros m Hm. eexists. split; [reflexivity|exact (K_ex m Hm)]. Qed.
Section Main.
Variable ellipk : C -> result C.
Hypothesis HK : computes_K ellipk.
Variables (hb s : R) (z : C).
Hypothesis (Hb : (0 < hb)%R) (Hs : (0 <= s)%R) (O : off_band hb z).
Let D := (hb / (1 + s))%R.
Lemma D_pos : (0 < D)%R. Proof. unfold D. apply Rdiv_lt_0_compat; lra. Qed.
Lemma zD_off : off_band (1 + s) (z / RtoC D).
Proof. apply off_div; [apply D_pos|]. replace ((1 + s) * D)%R with hb by (unfold D; field; lra). exact O. Qed.
Let w := z / RtoC D.
Lemma rect_ok : rectangular_gf_z ellipk z hb s = Ok (RtoC (2 / PI) / RtoC D * iota w (RtoC ((s - 1) * (s - 1))) * Kf (RtoC (4 * s) / (w * w - RtoC ((s - 1) * (s - 1))))).
Proof.
  assert (HD := D_pos). assert (OW := zD_off). fold w in OW. assert (DC : RtoC D <> 0) by (apply RtoC_neq0; lra). assert (Hs' : (0 <= s)%R) by lra. assert (G := good_z s Hs' w OW). destruct G as [W0 G].
  unfold rectangular_gf_z. rewrite rdiv_ok by lra. cbn [bind]. fold D. rewrite (cdiv_ok z _ DC). cbn [bind]. fold w. rewrite (cdiv_ok _ _ (den_neq0 s Hs' w OW)). cbn [bind].
  destruct (HK _ (rect_param s Hs' w OW)) as (k & Ek & Hk). rewrite Ek. cbn [bind]. rewrite (cdiv_ok 1 w W0). cbn [bind].
  assert (EQ : 1 - RtoC ((s - 1) * (s - 1)) * (1 / w * (1 / w)) = 1 - RtoC ((s - 1) * (s - 1)) / (w * w)) by (field; exact W0). rewrite EQ.
  assert (Q0 : csqrt (1 - RtoC ((s - 1) * (s - 1)) / (w * w)) <> 0) by (apply csqrt_neq0, offcut_neq0, G). rewrite (cdiv_ok 1 _ Q0). cbn [bind]. rewrite (cdiv_ok _ _ DC). cbn [bind]. f_equal.
  rewrite (Kf_eq _ _ Hk). unfold iota, iden. field. auto.
Qed.
Lemma rect_average : exists G, rectangular_gf_z ellipk z hb s = Ok G /\ is_bz_average (fun k => 1 / (z - rectangular_band (hb / (1 + s) / 2) s k)) G.
Proof.
  assert (HD := D_pos). assert (OW := zD_off). fold w in OW. assert (DC : RtoC D <> 0) by (apply RtoC_neq0; lra). assert (Hs' : (0 <= s)%R) by lra. assert (HP := PI_RGT_0).
  eexists. split; [apply rect_ok|]. exists (fun k1 => RtoC (2 * PI) / RtoC D * ker (rq s) w k1). split.
  - intros k1. assert (OB := off_shift s k1 w Hs' OW). assert (N : w - RtoC (cos k1) <> 0) by apply (good_k s Hs' w k1 OW).
    eapply is_CInt_eq; [apply is_CInt_ext with (2 := is_CInt_scal (/ RtoC D) _ _ _ _ (chain_iota s _ N OB))|].
    + intros t _. rewrite rect_band. fold D. replace (2 * (D / 2) * (cos k1 + s * cos t))%R with (D * cos k1 + D * (s * cos t))%R by field.
      assert (N2 := off_cos s t _ OB).
      replace (z - RtoC (D * cos k1 + D * (s * cos t))) with (RtoC D * (w - RtoC (cos k1) - RtoC (s * cos t))); [field; auto|]. unfold w. rewrite RtoC_plus, !(RtoC_mult D). field. exact DC.
    + unfold ker, rq. field. exact DC.
  - eapply is_CInt_eq; [apply is_CInt_scal, (rect_all s Hs' w OW)|]. unfold rrhs. rewrite RtoC_div by lra. rewrite !RtoC_mult. cnum. field. split; [apply RtoC_neq0; lra|exact DC].
Qed.
End Main.
