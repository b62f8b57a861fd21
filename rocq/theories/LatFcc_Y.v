(** * Face-centred cubic lattice: products of elliptic integrals solve the same differential equation *)
From Coq Require Import Reals Lra Lia.
From Coquelicot Require Import Coquelicot.
From Verif Require Import Base CBase CExp CSqrt Bethe_Proofs Fourier_Filon LatInt_Proofs LatRect_Main CAnal CHol CEll CHolo CTheta CTheta2 LatBcc_Proofs CFub LatSc_Red LatSc_Proofs LatSc_L LatSc_Y LatFcc_Mom LatFcc_Red.
Local Open Scope C_scope.

Definition fA (w : C) : C := csqrt (1 - RtoC (1 / 4) * w).
Definition fB (w : C) : C := csqrt (1 - w).
Definition fT (w : C) : C := 2 * fA w + fB w.
Lemma fA_off w : offK w -> offcut (1 - RtoC (1 / 4) * w). Proof. destruct w as [a b]. unfold offK, offcut. cbn. intros [H|H]; [left|right]; lra. Qed.
Lemma fA_pos w : offK w -> (0 < fst (fA w))%R. Proof. intros H. now apply csqrt_pos, fA_off. Qed.
Lemma fB_pos w : offK w -> (0 < fst (fB w))%R. Proof. intros H. now apply csqrt_pos, scB_off. Qed.
Lemma fA_sqr w : fA w * fA w = 1 - RtoC (1 / 4) * w. Proof. apply csqrt_sqr. Qed.
Lemma fB_sqr w : fB w * fB w = 1 - w. Proof. apply csqrt_sqr. Qed.
Lemma fA0 w : offK w -> fA w <> 0. Proof. intros H. apply fst_neq0. assert (X := fA_pos w H). lra. Qed.
Lemma fB0 w : offK w -> fB w <> 0. Proof. intros H. apply fst_neq0. assert (X := fB_pos w H). lra. Qed.
Lemma fT_pos w : offK w -> (0 < fst (fT w))%R. Proof. intros H. assert (X := fA_pos w H). assert (Y := fB_pos w H). unfold fT. destruct (fA w), (fB w). cbn in *. lra. Qed.
Lemma fT0 w : offK w -> fT w <> 0. Proof. intros H. apply fst_neq0. assert (X := fT_pos w H). lra. Qed.
Lemma fT_conj w : fT w * (2 * fA w - fB w) = 3.
Proof. unfold fT. transitivity (4 * (fA w * fA w) - fB w * fB w); [sring|]. rewrite fA_sqr, fB_sqr. snum. ffin. Qed.
Lemma fA_T w : offK w -> fA w = (fT w * fT w + 3) / (4 * fT w).
Proof. intros H. assert (N := fT0 w H). rewrite <- (fT_conj w). unfold fT in *. revert N. generalize (fA w) (fB w). intros a b. snum. intros N. ffin. Qed.
Lemma fB_T w : offK w -> fB w = (fT w * fT w - 3) / (2 * fT w).
Proof. intros H. assert (N := fT0 w H). rewrite <- (fT_conj w). unfold fT in *. revert N. generalize (fA w) (fB w). intros a b. snum. intros N. ffin. Qed.
Definition nT (T : C) : C := T * T * (T * T) - 9.
Definition pT (T : C) : C := (T * T - 1) * (T * T - 9).
Lemma nT_AB w : offK w -> nT (fT w) = 8 * (fT w * fT w) * (fA w * fB w).
Proof. intros H. assert (N := fT0 w H). rewrite (fA_T w H), (fB_T w H). unfold nT. revert N. generalize (fT w). intros t. snum. intros N. ffin. Qed.
Lemma nT0 w : offK w -> nT (fT w) <> 0.
Proof. intros H. rewrite (nT_AB w H). apply Cmult_neq_0; [apply Cmult_neq_0; [apply RtoC_neq0; lra|apply Cmult_neq_0; now apply fT0]|apply Cmult_neq_0; [now apply fA0|now apply fB0]]. Qed.
Lemma w_T w : offK w -> w = - pT (fT w) / (4 * (fT w * fT w)).
Proof. intros H. assert (N := fT0 w H). transitivity (1 - fB w * fB w); [rewrite fB_sqr; ring|]. rewrite (fB_T w H). unfold pT. revert N. generalize (fT w). intros t. snum. intros N. ffin. Qed.
Definition tau (T : C) : C := RtoC (1 / 2) * pT T * / nT T.
Lemma fT_th : th offK fT (fun w => tau (fT w) * fT w).
Proof.
  assert (A : th offK (fun w => 1 - RtoC (1 / 4) * w) _) by thr. assert (TA : th offK fA _) by exact (th_csqrt _ _ _ A fA_off). assert (B : th offK (fun w => 1 - w) _) by thr. assert (TB : th offK fB _) by exact (th_csqrt _ _ _ B scB_off).
  eapply th_val; [|unfold fT; thr]. intros w Hw. cbv beta. clear A B TA TB. fold (fA w) (fB w). assert (NA := fA0 w Hw). assert (NB := fB0 w Hw). assert (NT := fT0 w Hw). unfold tau. rewrite (nT_AB w Hw). replace (pT (fT w)) with (- w * (4 * (fT w * fT w))); [|rewrite (w_T w Hw) at 1; revert NT; generalize (fT w); intros t; snum; intros; ffin].
  unfold fT in *. revert NT NA NB. generalize (fA w) (fB w). clear. intros a b. snum. intros NT NA NB. ffin.
Qed.
(** the arguments of the elliptic integrals *)
Definition mP (T : C) : C := - RtoC (1 / 16) * ((T + 1) * (T + 1) * (T + 1) * (T - 3)) * / T.
Definition mM (T : C) : C := - RtoC (1 / 16) * ((T - 3) * (T - 3) * (T - 3) * (T + 1)) * / (T * T * T).
Definition muP (T : C) : C := RtoC (3 / 2) * ((T - 1) * (T - 1) * (T - 1) * (T + 3)) * / nT T.
Definition muM (T : C) : C := RtoC (1 / 2) * ((T - 1) * ((T + 3) * (T + 3) * (T + 3))) * / nT T.
Definition kaP (T : C) : C := - RtoC (3 / 2) * ((T + 1) * (T + 1) * (T + 1) * (T - 3)) * / nT T.
Definition kaM (T : C) : C := - RtoC (1 / 2) * ((T - 3) * (T - 3) * (T - 3) * (T + 1)) * / nT T.
Definition cP (w : C) : C := mP (fT w).
Definition cM (w : C) : C := mM (fT w).
Definition iN (w : C) : C := / nT (fT w).
Lemma iN_th : th offK iN (fun w => - (4) * (fT w * fT w * (fT w * fT w)) * tau (fT w) * (iN w * iN w)).
Proof. assert (T := fT_th). assert (A : th offK (fun w => nT (fT w)) _) by (unfold nT; thr). eapply th_val; [|exact (th_inv _ _ _ A nT0)]. intros w Hw. cbv beta. assert (N := nT0 w Hw). unfold iN. revert N. generalize (nT (fT w)) (tau (fT w)) (fT w). intros n t u. snum. intros N. ffin. Qed.
Lemma cP_th : th offK cP (fun w => muP (fT w) * cP w).
Proof.
  assert (T := fT_th). assert (I := th_inv _ _ _ T fT0). eapply th_val; [|unfold cP, mP; thr]. intros w Hw. cbv beta. assert (N := fT0 w Hw). assert (N2 := nT0 w Hw). unfold cP, mP, muP, tau, pT, nT in *. revert N N2. generalize (fT w). clear. intros t. snum. intros N N2. ffin.
Qed.
Lemma cM_th : th offK cM (fun w => muM (fT w) * cM w).
Proof.
  assert (T := fT_th). assert (T3 : th offK (fun w => fT w * fT w * fT w) _) by thr. assert (N3 : forall w, offK w -> fT w * fT w * fT w <> 0) by (intros w H; assert (N := fT0 w H); apply Cmult_neq_0; [apply Cmult_neq_0|]; assumption). assert (I := th_inv _ _ _ T3 N3). eapply th_val; [|unfold cM, mM; thr]. intros w Hw. cbv beta. assert (N := fT0 w Hw). assert (N2 := nT0 w Hw). unfold cM, mM, muM, tau, pT, nT in *. revert N N2. generalize (fT w). clear. intros t. snum. intros N N2. ffin.
Qed.
Lemma muka_P (t : C) : t <> 0 -> nT t <> 0 -> muP t * mP t = kaP t * (1 - mP t).
Proof. unfold muP, kaP, mP, nT. snum. intros N N2. ffin. Qed.
Lemma muka_M (t : C) : t <> 0 -> nT t <> 0 -> muM t * mM t = kaM t * (1 - mM t).
Proof. unfold muM, kaM, mM, nT. snum. intros N N2. ffin. Qed.

Definition fN (w : C) : C := (1 - w) * (4 - w).
Definition fP (w : C) : C := RtoC (1 / 2) * (w * (5 - 2 * w)) * / fN w.
Definition fQ (w : C) : C := RtoC (1 / 4) * (w * (2 - w)) * / fN w.
Lemma fN_ne w : offK w -> 1 - w <> 0 /\ 4 - w <> 0.
Proof. intros H. destruct w as [x y]; unfold offK in H; cbn in H; split; intros E; assert (F1 := f_equal fst E); assert (F2 := f_equal snd E); cbn in F1, F2; destruct H; lra. Qed.
Lemma fN0 w : offK w -> fN w <> 0. Proof. intros H. apply Cmult_neq_0; now apply fN_ne. Qed.
Lemma fPQ_T w : offK w -> fP w = - pT (fT w) * (10 * (fT w * fT w) + pT (fT w)) * (iN w * iN w) /\ fQ w = - RtoC (1 / 4) * pT (fT w) * (8 * (fT w * fT w) + pT (fT w)) * (iN w * iN w).
Proof.
  intros H. assert (NT := fT0 w H). assert (N := nT0 w H). assert (W := w_T w H).
  assert (EN : fN w = nT (fT w) * nT (fT w) / (16 * (fT w * fT w * (fT w * fT w)))). { unfold fN. replace (1 - w) with (fB w * fB w) by apply fB_sqr. replace (4 - w) with (4 * (fA w * fA w)) by (rewrite fA_sqr; snum; ffin). rewrite (nT_AB w H). revert NT. generalize (fT w) (fA w) (fB w). clear. intros t a b. snum. intros N. ffin. }
  unfold fP, fQ. rewrite EN. unfold iN. set (t := fT w) in *. clearbody t. rewrite W. clear W EN. revert N NT. generalize (nT t) (pT t). intros n p. rewrite ?C5e. snum. intros N NT. split; ffin.
Qed.
Section Solve.
Variable U : C -> Prop.
Hypothesis UO : forall w, U w -> offK w.
Hypothesis UP : forall w, U w -> offK (cP w).
Hypothesis UM : forall w, U w -> offK (cM w).
Definition ya (w : C) : C := Kf (cM w).
Definition yb (w : C) : C := Kf (cP w).
Definition ya1 (w : C) : C := T1 (cM w).
Definition yb1 (w : C) : C := T1 (cP w).
Definition hta (w : C) : C := RtoC (1 / 2) * tau (fT w).
Definition Ea (w : C) : C := muM (fT w) * ya1 w - hta w * ya w.
Definition Eb (w : C) : C := muP (fT w) * yb1 w + hta w * yb w.
Lemma ya_th : th U ya (fun w => muM (fT w) * ya1 w). Proof. exact (th_comp U offK Kf T1 cM _ T1_th (th_sub _ _ _ _ UO cM_th) UM). Qed.
Lemma yb_th : th U yb (fun w => muP (fT w) * yb1 w). Proof. exact (th_comp U offK Kf T1 cP _ T1_th (th_sub _ _ _ _ UO cP_th) UP). Qed.
Lemma ya1_th : th U ya1 (fun w => kaM (fT w) * (ya1 w + RtoC (1 / 4) * ya w)).
Proof.
  eapply th_val; [|exact (th_comp U offK T1 _ cM _ T1_2 (th_sub _ _ _ _ UO cM_th) UM)]. intros w Hw. cbv beta. rewrite (T2_ode _ (UM w Hw)). assert (G := T2_ode _ (UM w Hw)). assert (E1 : gT (cM w) = cM w * gT (cM w) + T1 (cM w) + RtoC (1 / 4) * Kf (cM w)) by (rewrite <- G; reflexivity). fold (ya1 w) (ya w) in E1.
  assert (M := muka_M (fT w) (fT0 w (UO w Hw)) (nT0 w (UO w Hw))). fold (cM w) in M. transitivity ((muM (fT w) * cM w) * gT (cM w)); [ring|]. rewrite M. transitivity (kaM (fT w) * (gT (cM w) - cM w * gT (cM w))); [ring|]. f_equal. rewrite E1 at 1. ring.
Qed.
Lemma yb1_th : th U yb1 (fun w => kaP (fT w) * (yb1 w + RtoC (1 / 4) * yb w)).
Proof.
  eapply th_val; [|exact (th_comp U offK T1 _ cP _ T1_2 (th_sub _ _ _ _ UO cP_th) UP)]. intros w Hw. cbv beta. rewrite (T2_ode _ (UP w Hw)). assert (G := T2_ode _ (UP w Hw)). assert (E1 : gT (cP w) = cP w * gT (cP w) + T1 (cP w) + RtoC (1 / 4) * Kf (cP w)) by (rewrite <- G; reflexivity). fold (yb1 w) (yb w) in E1.
  assert (M := muka_P (fT w) (fT0 w (UO w Hw)) (nT0 w (UO w Hw))). fold (cP w) in M. transitivity ((muP (fT w) * cP w) * gT (cP w)); [ring|]. rewrite M. transitivity (kaP (fT w) * (gT (cP w) - cP w * gT (cP w))); [ring|]. f_equal. rewrite E1 at 1. ring.
Qed.
Lemma Ea_th : th U Ea (fun w => (fP w + hta w) * Ea w + fQ w * ya w).
Proof.
  assert (T := th_sub _ _ _ _ UO fT_th). assert (I := th_sub _ _ _ _ UO iN_th). assert (A := ya_th). assert (A1 := ya1_th). eapply th_val; [|unfold Ea, hta, muM, tau, pT; thr].
  intros w Hw. cbv beta. assert (Hw' := UO w Hw). destruct (fPQ_T w Hw') as [-> ->]. assert (N := nT0 w Hw'). unfold Ea, hta, muM, kaM, tau, pT, iN, nT in *. revert N. generalize (fT w) (ya w) (ya1 w). clear. intros t a a1. snum. intros N. ffin.
Qed.
Lemma Eb_th : th U Eb (fun w => (fP w - hta w) * Eb w + fQ w * yb w).
Proof.
  assert (T := th_sub _ _ _ _ UO fT_th). assert (I := th_sub _ _ _ _ UO iN_th). assert (A := yb_th). assert (A1 := yb1_th). eapply th_val; [|unfold Eb, hta, muP, tau, pT; thr].
  intros w Hw. cbv beta. assert (Hw' := UO w Hw). destruct (fPQ_T w Hw') as [-> ->]. assert (N := nT0 w Hw'). unfold Eb, hta, muP, kaP, tau, pT, iN, nT in *. revert N. generalize (fT w) (yb w) (yb1 w). clear. intros t a a1. snum. intros N. ffin.
Qed.
Definition Yf (w : C) : C := ya w * yb w.
Lemma Yf_ode : exists Y1 Y2 Y3, th U Yf Y1 /\ th U Y1 Y2 /\ th U Y2 Y3 /\
  forall w, U w -> 8 * Y3 w = w * (10 * Y3 w + 15 * Y2 w + 9 * Y1 w + 2 * Yf w) + w * w * (- (2) * Y3 w + - (6) * Y2 w + - (6) * Y1 w + - (2) * Yf w).
Proof.
  set (Z1 := fun w => RtoC (1 / 2) * (ya w * Eb w + yb w * Ea w)). set (Z2 := fun w => Ea w * Eb w). assert (TA := ya_th). assert (TB := yb_th). assert (TE := Ea_th). assert (TF := Eb_th).
  assert (EA : forall w, muM (fT w) * ya1 w = Ea w + hta w * ya w) by (intros w; unfold Ea; ring). assert (EB : forall w, muP (fT w) * yb1 w = Eb w - hta w * yb w) by (intros w; unfold Eb; ring).
  assert (T0 : th U Yf (fun w => 2 * Z1 w)). { eapply th_val; [|unfold Yf; thr]. intros w _. cbv beta. rewrite EA, EB. unfold Z1. snum. ffin. }
  assert (T1 : th U Z1 (fun w => Z2 w + fP w * Z1 w + fQ w * Yf w)). { eapply th_val; [|unfold Z1; thr]. intros w _. cbv beta. rewrite EA, EB. unfold Z1, Z2, Yf. snum. ffin. }
  assert (T2 : th U Z2 (fun w => 2 * fP w * Z2 w + 2 * fQ w * Z1 w)). { eapply th_val; [|unfold Z2; thr]. intros w _. cbv beta. unfold Z1, Z2. snum. ffin. }
  assert (TN : th U fN _) by (unfold fN; thr). assert (TI := th_inv _ _ _ TN (fun w H => fN0 w (UO w H))). assert (TP : th U fP _) by (unfold fP; thr). assert (TQ : th U fQ _) by (unfold fQ; thr).
  eexists. eexists. eexists. split; [exact T0|]. clear TA TB TE TF TN TI. split; [thr|]. split; [thr|]. intros w Hw. cbv beta. destruct (fN_ne w (UO w Hw)) as [N1 N4]. unfold fP, fQ, fN. generalize (Z1 w) (Z2 w) (Yf w). clear - N1 N4. intros z1 z2 y.
  assert (E15 : RtoC 15 = (1 + 1 + 1) * (1 + 1 + 1) + (1 + 1) * (1 + 1 + 1)) by (rewrite <- !RtoC_plus, <- !RtoC_mult, <- RtoC_plus; f_equal; ring).
  rewrite E15, ?C5e. revert N4. snum. intros N4. ffin.
Qed.
End Solve.
