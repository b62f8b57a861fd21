(** * The mean over the Brillouin zone and the square lattice *)
From Coq Require Import Reals List Lra Lia.
From Coquelicot Require Import Coquelicot.
From Verif Require Import Base CBase CExp CSqrt Lattice_Model Bethe_Proofs Bethe_Main Fourier_Filon LatMom_Spec LatMom_Int LatDer_Spec LatDer_Model LatDer_Proofs LatInt_Proofs LatInt_Hilbert LatInt_Fubini LatInt_Square.
Local Open Scope C_scope.

Lemma cexp_cos (x : R) : cexp (Ci * RtoC x) + / cexp (Ci * RtoC x) = RtoC (2 * cos x).
Proof.
  rewrite <- cexp_opp. replace (- (Ci * RtoC x)) with (Ci * RtoC (- x)) by (rewrite RtoC_opp; ring).
  unfold cexp. apply C_ext; cbn; rewrite ?cos_neg, ?sin_neg; replace (0 * x - 1 * 0)%R with 0%R by ring; replace (0 * - x - 1 * 0)%R with 0%R by ring; replace (0 * 0 + 1 * x)%R with x by ring; replace (0 * 0 + 1 * - x)%R with (- x)%R by ring; rewrite ?cos_neg, ?sin_neg, exp_0; ring.
Qed.
Lemma square_band D k1 k2 : bloch square (D / 4) (k1, k2) 0 0 = RtoC (D * p1 k1 k2).
Proof.
  rewrite square_bloch. cbn [fst snd]. replace (cexp (Ci * RtoC k1) + / cexp (Ci * RtoC k1) + cexp (Ci * RtoC k2) + / cexp (Ci * RtoC k2)) with ((cexp (Ci * RtoC k1) + / cexp (Ci * RtoC k1)) + (cexp (Ci * RtoC k2) + / cexp (Ci * RtoC k2))) by ring.
  rewrite !cexp_cos, <- RtoC_plus, <- RtoC_mult. f_equal. unfold p1. field.
Qed.
Lemma four_pi2 : RtoC (4 * (PI * PI)) <> 0.
Proof. apply RtoC_neq0. assert (H := PI_RGT_0). nra. Qed.

Section Square.
Variable D : R.
Hypothesis HD : (0 < D)%R.
Let band := fun k => bloch square (D / 4) k 0 0.
Lemma band_off x : (forall k, x - band k <> 0) -> off_band D x.
Proof.
  intros H. destruct (Req_dec (snd x) 0) as [E|N]; [right|left; exact N]. apply Rnot_le_lt. intros L. apply Rabs_le_between in L.
  assert (B : (-1 <= fst x / D <= 1)%R) by (split; apply Rmult_le_reg_r with D; try exact HD; unfold Rdiv; rewrite Rmult_assoc, Rinv_l by lra; lra).
  apply (H (acos (fst x / D), acos (fst x / D))%R). unfold band. rewrite square_band. unfold p1. rewrite cos_acos by exact B. apply C_ext; cbn; [field; lra|rewrite E; ring].
Qed.
Lemma off_not_band x : off_band D x -> forall k, x - band k <> 0.
Proof. intros H [k1 k2]. unfold band. rewrite square_band. apply (ze_neq0 D x H). assert (R := p1_range k1 k2). split; nra. Qed.
Lemma mean_affine a b x : (forall k, x - band k <> 0) -> bz_mean (fun k => a + b / (x - band k)) = a + b * bz_mean (fun k => 1 / (x - band k)).
Proof.
  intros H. assert (O := band_off x H). destruct (F1_clip D HD x O) as [L HL]. assert (HP := PI_RGT_0).
  assert (I1 : forall k1, is_CInt (F1 D x k1) (- PI) PI (CInt (F1 D x k1) (- PI) PI)) by (intros k1; apply CInt_ok; intros; apply (clip2_cont2 L); exact HL).
  assert (E1 : forall k1, CInt (fun k2 => a + b / (x - band (k1, k2))) (- PI) PI = RtoC (2 * PI) * a + b * CInt (F1 D x k1) (- PI) PI).
  { intros k1. apply CInt_val.
    apply (is_CInt_ext (fun k2 => a + b * F1 D x k1 k2)). { intros k2 _. unfold F1, band. rewrite square_band. unfold Cdiv. rewrite Cmult_1_l. reflexivity. }
    apply is_CInt_plus; [|apply is_CInt_scal, I1]. eapply is_CInt_eq; [apply is_CInt_const|]. f_equal. f_equal. ring. }
  assert (I2 : is_CInt (fun k1 => CInt (F1 D x k1) (- PI) PI) (- PI) PI (CInt (fun k1 => CInt (F1 D x k1) (- PI) PI) (- PI) PI)) by (apply CInt_ok; intros; apply (cfubini_cont L (F1 D x)); exact HL).
  assert (E2 : CInt (fun k1 => CInt (fun k2 => a + b / (x - band (k1, k2))) (- PI) PI) (- PI) PI = RtoC (4 * (PI * PI)) * a + b * CInt (fun k1 => CInt (F1 D x k1) (- PI) PI) (- PI) PI).
  { apply CInt_val. apply (is_CInt_ext (fun k1 => RtoC (2 * PI) * a + b * CInt (F1 D x k1) (- PI) PI)); [intros k1 _; symmetry; apply E1|].
    apply is_CInt_plus; [|apply is_CInt_scal, I2]. eapply is_CInt_eq; [apply is_CInt_const|]. rewrite Cmult_assoc, <- RtoC_mult. f_equal. f_equal. ring. }
  assert (E3 : CInt (fun k1 => CInt (fun k2 => 1 / (x - band (k1, k2))) (- PI) PI) (- PI) PI = CInt (fun k1 => CInt (F1 D x k1) (- PI) PI) (- PI) PI).
  { apply CInt_val. apply (is_CInt_ext (fun k1 => CInt (F1 D x k1) (- PI) PI)); [|exact I2]. intros k1 _. symmetry. apply CInt_val. apply (is_CInt_ext (F1 D x k1)); [|apply I1]. intros k2 _. unfold F1, band. rewrite square_band. reflexivity. }
  unfold bz_mean. rewrite E2, E3. field. exact four_pi2.
Qed.
Variable ellipk : C -> result C.
Hypothesis HK : computes_K ellipk.
Lemma square_gf_ok z : off_band D z -> exists k, legendre_K (RtoC D / z * (RtoC D / z)) k /\ square_gf_z ellipk z D = Ok (RtoC (2 / PI) / z * k).
Proof.
  intros O. assert (z0 := off_band_neq0 D HD z O). destruct (HK _ (param_off D HD z O)) as (k & Ek & Hk). exists k. split; [exact Hk|].
  unfold square_gf_z. rewrite (cdiv_ok (RtoC D) z z0). cbn [bind]. rewrite Ek. cbn [bind]. assert (DC : RtoC D <> 0) by (apply RtoC_neq0; lra). rewrite (cdiv_ok (RtoC (2 / PI)) (RtoC D) DC). cbn [bind]. f_equal. field. split; assumption.
Qed.
Lemma square_average z : off_band D z -> exists G, square_gf_z ellipk z D = Ok G /\ is_bz_average (fun k => 1 / (z - band k)) G.
Proof.
  intros O. destruct (square_gf_ok z O) as (k & Hk & E). eexists. split; [exact E|]. destruct (F1_clip D HD z O) as [L HL].
  exists (fun k1 => CInt (F1 D z k1) (- PI) PI). split; [|apply square_bz; assumption].
  intros k1. apply (is_CInt_ext (F1 D z k1)); [intros k2 _; unfold F1, band; rewrite square_band; reflexivity|]. apply CInt_ok; intros; apply (clip2_cont2 L); exact HL.
Qed.
Lemma average_mean f l : is_bz_average f l -> bz_mean f = l.
Proof.
  intros (inner & H1 & H2). unfold bz_mean. rewrite (CInt_val (fun k1 => CInt (fun k2 => f (k1, k2)) (- PI) PI) (- PI) PI (RtoC (4 * (PI * PI)) * l)); [field; exact four_pi2|].
  apply is_CInt_ext with (2 := H2). intros k1 _. symmetry. apply CInt_val, H1.
Qed.
Lemma square_local : is_local_gf bz_mean band (fun x => square_gf_z ellipk x D).
Proof. intros x Hx. destruct (square_average x (band_off x Hx)) as (G & E & A). rewrite E. f_equal. symmetry. apply average_mean, A. Qed.
Lemma square_averages : averages bz_mean band.
Proof. intros a b x Hx. apply mean_affine, Hx. Qed.
End Square.

(** ** the closed forms give values off the band *)
Definition tot (f : R -> result R) (e : R) : R := match f e with Ok d => d | Err _ => 0%R end.
Lemma tot_ok f : (forall e, exists d, f e = Ok d) -> forall e, f e = Ok (tot f e).
Proof. intros H e. destruct (H e) as [d E]. unfold tot. rewrite E. reflexivity. Qed.
Lemma bethe_dos_total D : (0 < D)%R -> forall e, exists d, bethe_dos e D = Ok d.
Proof. intros HD e. unfold bethe_dos. rewrite rdiv_ok by lra. cbn [bind]. eexists. reflexivity. Qed.
Lemma box_dos_total D : (0 < D)%R -> forall e, exists d, box_dos e D = Ok d.
Proof. intros HD e. unfold box_dos. rewrite rdiv_ok by lra. cbn [bind]. eexists. reflexivity. Qed.
Lemma bethez_dos_total D Z : (0 < D)%R -> (2 < Z)%R -> forall e, exists d, bethez_dos e D Z = Ok d.
Proof.
  intros HD HZ e. assert (HP := PI_RGT_0). unfold bethez_dos. destruct (Rlt_dec 1 Z) as [_|]; [|lra]. rewrite rdiv_ok by lra. cbn [bind].
  destruct (Rle_dec (Rabs (e / D)) 1) as [L|N]; [|eexists; reflexivity]. rewrite rdiv_ok by (apply Rgt_not_eq, Rmult_lt_0_compat; lra). cbn [bind].
  rewrite rdiv_ok; [eexists; reflexivity|]. apply Rgt_not_eq, (zden_pos D HD Z HZ). apply Rabs_le_between in L.
  destruct L as [L1 L2]. apply (Rmult_le_compat_r D) in L1, L2; try lra. unfold Rdiv in L1, L2. rewrite Rmult_assoc, Rinv_l in L1, L2 by lra. lra.
Qed.
Lemma sq_off D z : (0 < D)%R -> off_band D z -> sq (z / D) <> 0.
Proof. intros HD O. assert (z0 := off_band_neq0 D HD z O). apply re_pos_neq0. apply sq_pos; [apply zD_neq; assumption|apply off_band_cut; assumption]. Qed.
Lemma box_gf_total D z : (0 < D)%R -> off_band D z -> exists G, box_gf_z z D = Ok G.
Proof.
  intros HD O. assert (Dc : RtoC D <> 0) by (apply RtoC_neq0; lra). unfold box_gf_z. rewrite (cdiv_ok z (RtoC D) Dc). cbn [bind].
  assert (N1 := ze_neq0 D z O D ltac:(lra)). assert (N2 := ze_neq0 D z O (- D)%R ltac:(lra)).
  assert (M1 : z / D - 1 <> 0). { intros E. apply N1. transitivity (RtoC D * (z / D - 1)); [field; exact Dc|rewrite E; ring]. }
  assert (M2 : z / D + 1 <> 0). { intros E. apply N2. transitivity (RtoC D * (z / D + 1)); [rewrite RtoC_opp; field; exact Dc|rewrite E; ring]. }
  rewrite (cdiv_ok _ _ M1). cbn [bind]. destruct (Ceq_dec _ 0) as [E|_].
  - exfalso. assert (I : (z / D + 1) / (z / D - 1) * ((z / D - 1) / (z / D + 1)) = 1) by (generalize (z / D) M1 M2; intros w; intros; field; split; assumption). rewrite E in I. rewrite Cmult_0_l in I. apply C11_neq0. rewrite <- I. ring.
  - rewrite (cdiv_ok _ _ Dc). cbn [bind]. eexists. reflexivity.
Qed.
