(** * Simple cubic lattice: the integral over one wave vector as a squared elliptic integral *)
From Coq Require Import Reals Lra Lia.
From Coquelicot Require Import Coquelicot.
From Verif Require Import Base CBase CExp CSqrt Bethe_Proofs Bethe_Main Fourier_Filon LatInt_Spec LatInt_Proofs LatInt_Hilbert LatInt_Fubini LatInt_Square LatInt_Legendre CAnal CHol CEll CHolo CTheta CTheta2 CFub LatRect_Proofs LatRect_Main LatTri_Proofs LatTri_Main LatBcc_Proofs LatSc_Red.
Local Open Scope C_scope.

Lemma C9e : RtoC 9 = (1 + 1 + 1) * (1 + 1 + 1). Proof. rewrite <- !RtoC_plus, <- !RtoC_mult. f_equal; ring. Qed.
Lemma C6e : RtoC 6 = (1 + 1) * (1 + 1 + 1). Proof. rewrite <- !RtoC_plus, <- !RtoC_mult. f_equal; ring. Qed.
Lemma C12e : RtoC 12 = (1 + 1) * (1 + 1) * (1 + 1 + 1). Proof. rewrite <- !RtoC_plus, <- !RtoC_mult. f_equal; ring. Qed.
Lemma C10e : RtoC 10 = (1 + 1) * (1 + 1) * (1 + 1) + (1 + 1). Proof. rewrite <- !RtoC_plus, <- !RtoC_mult, <- RtoC_plus. f_equal; ring. Qed.
Lemma C18e : RtoC 18 = (1 + 1) * ((1 + 1 + 1) * (1 + 1 + 1)). Proof. rewrite <- !RtoC_plus, <- !RtoC_mult. f_equal; ring. Qed.
Lemma C36e : RtoC 36 = (1 + 1) * (1 + 1) * ((1 + 1 + 1) * (1 + 1 + 1)). Proof. rewrite <- !RtoC_plus, <- !RtoC_mult. f_equal; ring. Qed.
Ltac snum := rewrite ?(RtoC_div 3 4), ?(RtoC_div 1 9), ?(RtoC_div 11 4), ?(RtoC_div 3 16) by lra; rewrite ?C9e, ?C6e, ?C12e, ?C10e, ?C18e, ?C36e; cnum.
Ltac sring := snum; ring.
Ltac sfield := snum; field; repeat split; try apply C11; try (intros ZZ; apply (f_equal fst) in ZZ; cbn in ZZ; lra).
Ltac ffin := field; repeat split; try assumption; try apply C11; try (match goal with N : ~ (@eq C _ _) |- _ => intros ZZ; apply N; rewrite <- ZZ; apply C_ext; cbn; change R1 with 1%R; change R0 with 0%R; ring end); try (intros ZZ; apply (f_equal fst) in ZZ; cbn in ZZ; lra).
Ltac thr := first [eassumption | apply th_const | apply th_id | eapply th_plus; [thr|thr] | eapply th_minus; [thr|thr] | eapply th_mult; [thr|thr]].

(** ** relation to the triangular lattice *)
Lemma Hn_tri (x : R) : (0 < x < 1 / 9)%R -> Hn (RtoC (9 * x)) = RtoC (/ (4 * PI * x)) * trA (RtoC ((1 / x - 3) / 2)).
Proof.
  intros Hx. assert (HP := PI_RGT_0). set (W := RtoC ((1 / x - 3) / 2)). assert (O : offT W). { right. right. cbn. assert (9 < 1 / x)%R; [|lra]. apply Rmult_lt_reg_r with x; [lra|]. replace (1 / x * x)%R with 1%R by (field; lra). lra. }
  assert (NX : RtoC x <> 0) by (apply RtoC_neq0; lra).
  assert (I1 : forall a, CInt (hk 0 (RtoC (9 * x)) a) (- PI) PI = RtoC (PI / x) * ker tq W a).
  { intros a. apply CInt_val. eapply is_CInt_eq; [apply is_CInt_ext with (2 := is_CInt_scal (RtoC (/ (2 * x))) _ _ _ _ (tri_inner W a O))|].
    - intros b _. cbv beta. unfold hk. cbn [Cpow]. assert (OK : offK (RtoC (9 * x))) by (right; cbn; lra). assert (N := q2_off _ a b OK). unfold q2 in *. set (e := (cos a + cos b + cos (a - b))%R) in *.
      replace (1 - RtoC (9 * x) * RtoC ((3 + 2 * e) / 9)) with (RtoC (2 * x) * (W - RtoC e)) in * by (unfold W; rewrite <- RtoC_minus, <- !RtoC_mult, <- RtoC_minus; f_equal; field; lra).
      assert (NW : W - RtoC e <> 0) by (intros Z; apply N; rewrite Z; ring). assert (N2 : RtoC (2 * x) <> 0) by (apply RtoC_neq0; lra). rewrite RtoC_inv by lra. field. split; assumption.
    - rewrite Cmult_assoc, <- RtoC_mult. f_equal. f_equal. field. lra. }
  unfold Hn. rewrite (CInt_ex _ (fun a => RtoC (PI / x) * ker tq W a)) by exact I1. rewrite (CInt_val _ _ _ _ (is_CInt_scal (RtoC (PI / x)) _ _ _ _ (trA_is W O))). rewrite Cmult_assoc, <- RtoC_mult. f_equal. f_equal. field. lra.
Qed.
Definition Pq (x : C) : C := (1 - x) * (1 - x) * (1 - x) * (1 + 3 * x).
Definition mq (x : C) : C := 16 * (x * x * x) * / Pq x.
Definition sq (x : C) : C := / (csqrt (1 - x) * csqrt (1 - x) * csqrt (1 - x) * csqrt (1 + 3 * x)).
Lemma Hn_real (x : R) : (0 < x < 1 / 3)%R -> Hn (9 * (RtoC x * RtoC x)) = RtoC (2 / PI) * (sq (RtoC x) * Kf (mq (RtoC x))).
Proof.
  intros Hx. assert (HP := PI_RGT_0). assert (X2 : (0 < x * x < 1 / 9)%R) by nra. rewrite <- !RtoC_mult. rewrite (Hn_tri (x * x) X2). set (S := (/ x)%R). assert (HS : (3 < S)%R). { unfold S. apply Rmult_lt_reg_r with x; [lra|]. rewrite Rinv_l by lra. lra. }
  set (W := ((1 / (x * x) - 3) / 2)%R). assert (QS : (S * S = 2 * W + 3)%R) by (unfold S, W; field; lra). assert (HW : (3 < W)%R) by nra. rewrite (tri_above W HW). unfold trF.
  assert (ES : triR (RtoC W) = RtoC S). { unfold triR. rewrite <- RtoC_mult, <- RtoC_plus, <- QS, csq_R by nra. f_equal. apply sqrt_square. lra. }
  rewrite ES, trig_real, trik_real by exact HS. rewrite sheet_real by (apply Rmult_le_pos; [apply sqrt_pos|left; now apply gS_pos]).
  replace (sqrt S * gS S * (sqrt S * gS S))%R with (sqrt S * sqrt S * (gS S * gS S))%R by ring. rewrite sqrt_sqrt, gS_sqr by lra.
  assert (P0 : (0 < (1 - x) * (1 - x) * (1 - x) * (1 + 3 * x))%R) by (repeat apply Rmult_lt_0_compat; lra).
  assert (EP : Pq (RtoC x) = RtoC ((1 - x) * (1 - x) * (1 - x) * (1 + 3 * x))) by (unfold Pq; now rewrite !RtoC_mult, !RtoC_minus, RtoC_plus, RtoC_mult).
  assert (ES4 : ((S - 1) * (S - 1) * (S - 1) * (S + 3) = (1 - x) * (1 - x) * (1 - x) * (1 + 3 * x) / (x * x * (x * x)))%R) by (unfold S; field; lra).
  replace (mq (RtoC x)) with (RtoC (S * (16 / ((S - 1) * (S - 1) * (S - 1) * (S + 3))))).
  2:{ unfold mq. rewrite EP, <- RtoC_inv by lra. rewrite <- !RtoC_mult. f_equal. rewrite ES4. unfold S. field. repeat split; lra. }
  replace (sq (RtoC x)) with (RtoC (gS S / (4 * (x * x)))).
  - replace (2 * RtoC (gS S) * Kf (RtoC (S * (16 / ((S - 1) * (S - 1) * (S - 1) * (S + 3)))))) with (RtoC (2 * gS S) * Kf (RtoC (S * (16 / ((S - 1) * (S - 1) * (S - 1) * (S + 3)))))) by (rewrite RtoC_mult; reflexivity).
    rewrite !Cmult_assoc, <- !RtoC_mult. f_equal. f_equal. field. repeat split; lra.
  - unfold sq. rewrite <- RtoC_mult, <- RtoC_minus, <- RtoC_plus, !csq_R by lra. rewrite <- !RtoC_mult, <- RtoC_inv by (apply Rgt_not_eq; repeat apply Rmult_lt_0_compat; apply sqrt_lt_R0; lra). f_equal.
    unfold gS. assert (E1 : (sqrt (S - 1) = sqrt (1 - x) / sqrt x)%R). { rewrite <- sqrt_div_alt by lra. f_equal. unfold S. field. lra. } assert (E3 : (sqrt (S + 3) = sqrt (1 + 3 * x) / sqrt x)%R). { rewrite <- sqrt_div_alt by lra. f_equal. unfold S. field. lra. }
    rewrite E1, E3. assert (A := sqrt_lt_R0 x ltac:(lra)). assert (B := sqrt_lt_R0 (1 - x) ltac:(lra)). assert (B3 := sqrt_lt_R0 (1 + 3 * x) ltac:(lra)). assert (Q := sqrt_sqrt x ltac:(lra)). set (q := sqrt x) in *. set (b1 := sqrt (1 - x)) in *. set (b3 := sqrt (1 + 3 * x)) in *. clearbody b1 b3. rewrite <- Q. field. repeat split; lra.
Qed.
(** ** the parameter near the origin *)
Definition Uq : C -> Prop := disc 0 (1 / 10).
Lemma Uq_mod x : Uq x -> (Cmod x < 1 / 10)%R. Proof. unfold Uq, disc. now replace (x - 0) with x by ring. Qed.
Lemma Uq_re x : Uq x -> (- (1 / 10) < fst x < 1 / 10)%R. Proof. intros H. apply Uq_mod in H. assert (A := Cmod_fst x). apply Rabs_le_between in A. lra. Qed.
Lemma Uq_1 x : Uq x -> offcut (1 - x). Proof. intros H. apply Uq_re in H. right. destruct x as [a b]. cbn in *. lra. Qed.
Lemma Uq_3 x : Uq x -> offcut (1 + 3 * x). Proof. intros H. apply Uq_re in H. right. destruct x as [a b]. cbn in *. lra. Qed.
Lemma Pq_0 x : Uq x -> Pq x <> 0.
Proof. intros H. assert (A := offcut_neq0 _ (Uq_1 x H)). assert (B := offcut_neq0 _ (Uq_3 x H)). unfold Pq. apply Cmult_neq_0; [apply Cmult_neq_0; [apply Cmult_neq_0|]|]; assumption. Qed.
Lemma mq_off x : Uq x -> offK (mq x).
Proof.
  intros H. assert (M := Uq_mod x H). assert (R := Uq_re x H). assert (N := Pq_0 x H). assert (L1 : (9 / 10 <= Cmod (1 - x)%C)%R). { eapply Rle_trans; [|apply Cmod_fst]. eapply Rle_trans; [|apply Rle_abs]. destruct x as [a b]. cbn in *. lra. }
  assert (L3 : (7 / 10 <= Cmod (1 + 3 * x)%C)%R). { eapply Rle_trans; [|apply Cmod_fst]. eapply Rle_trans; [|apply Rle_abs]. destruct x as [a b]. cbn in *. lra. }
  assert (LP : (1 / 2 <= Cmod (Pq x))%R). { unfold Pq. rewrite !Cmod_mult. set (p := Cmod (1 - x)%C) in *. set (q := Cmod (1 + 3 * x)%C) in *. assert (81 / 100 <= p * p)%R by nra. assert (729 / 1000 <= p * p * p)%R by nra. nra. }
  right. eapply Rle_lt_trans; [apply Rle_abs|]. eapply Rle_lt_trans; [apply Cmod_fst|]. unfold mq. rewrite !Cmod_mult, Cmod_inv by exact N. rewrite Cmod_R, Rabs_pos_eq by lra. set (p := Cmod (Pq x)) in *. set (y := Cmod x) in *. assert (Y0 : (0 <= y)%R) by apply Cmod_ge_0.
  apply Rmult_lt_reg_r with p; [lra|]. rewrite Rmult_assoc, Rinv_l by lra. assert (y * y <= 1 / 100)%R by nra. assert (y * y * y <= 1 / 1000)%R by nra. lra.
Qed.
Definition qq (x : C) : C := (1 - x) * (1 + 3 * x).
Definition muq (x : C) : C := 3 * ((1 + x) * (1 + x)) * / qq x.
Definition nuq (x : C) : C := 6 * (x * x) * / qq x.
Lemma qq_0 x : Uq x -> qq x <> 0. Proof. intros H. apply Cmult_neq_0; [apply offcut_neq0, Uq_1, H|apply offcut_neq0, Uq_3, H]. Qed.
Lemma mq_th : th Uq mq (fun x => muq x * mq x).
Proof.
  assert (A : th Uq Pq _) by (unfold Pq; thr). assert (B := th_inv _ _ _ A Pq_0). eapply th_val; [|unfold mq; thr].
  intros x Hx. cbv beta. assert (N1 := offcut_neq0 _ (Uq_1 x Hx)). assert (N3 := offcut_neq0 _ (Uq_3 x Hx)). unfold muq, mq, qq, Pq. revert N1 N3. snum. intros N1 N3. ffin.
Qed.
Lemma sq_th : th Uq sq (fun x => nuq x * sq x).
Proof.
  assert (A : th Uq (fun x => 1 - x) _) by thr. assert (A' := th_csqrt _ _ _ A Uq_1). assert (B : th Uq (fun x => 1 + 3 * x) _) by thr. assert (B' := th_csqrt _ _ _ B Uq_3).
  assert (Dt : th Uq (fun x => csqrt (1 - x) * csqrt (1 - x) * csqrt (1 - x) * csqrt (1 + 3 * x)) _) by thr.
  assert (N : forall x, Uq x -> csqrt (1 - x) * csqrt (1 - x) * csqrt (1 - x) * csqrt (1 + 3 * x) <> 0). { intros x Hx. assert (N1 := offcut_csqrt _ (Uq_1 x Hx)). assert (N3 := offcut_csqrt _ (Uq_3 x Hx)). apply Cmult_neq_0; [apply Cmult_neq_0; [apply Cmult_neq_0|]|]; assumption. }
  eapply th_val; [|exact (th_inv _ _ _ Dt N)]. intros x Hx. cbv beta. assert (N1 := offcut_csqrt _ (Uq_1 x Hx)). assert (N3 := offcut_csqrt _ (Uq_3 x Hx)). assert (S1 := csqrt_sqr (1 - x)). assert (S3 := csqrt_sqr (1 + 3 * x)). unfold nuq, qq, sq. set (a := csqrt (1 - x)) in *. set (b := csqrt (1 + 3 * x)) in *. rewrite <- S1, <- S3.
  transitivity (3 * x * (b * b - a * a) / (2 * (a * a) * (b * b)) * / (a * a * a * b)); [clear S1 S3; clearbody a b; sfield; assumption|]. replace (b * b - a * a) with (4 * x) by (rewrite S1, S3; sring). clear S1 S3. clearbody a b. sfield. all: assumption.
Qed.
Definition HT (w : C) : C := w * Hd w.
Definition HT2 (w : C) : C := w * Hd w + w * (w * cD Hd w).
Lemma HT_th : th offK Hn HT. Proof. exists Hd. split; [apply Hn_hol|reflexivity]. Qed.
Lemma HT2_th : th offK HT HT2.
Proof. eapply th_ext; [apply offK_open| | |apply (th_mult offK (fun w => w)); [apply th_id|exists (cD Hd); split; [apply (hol_derive offK Hn); [apply offK_open|apply Hn_hol]|reflexivity]]]; intros; reflexivity. Qed.
Definition kq1 (x : C) : C := T1 (mq x).
Definition Mq (x : C) : C := 16 * (x * x * x) * / ((1 + x) * (1 + x) * (1 + x) * (1 - 3 * x)).
Lemma Uq_d x : Uq x -> (1 + x) <> 0 /\ 1 - 3 * x <> 0.
Proof. intros H. apply Uq_re in H. split; intros X; apply (f_equal fst) in X; destruct x as [a b]; cbn in *; lra. Qed.
Lemma kq_th : th Uq (fun x => Kf (mq x)) (fun x => muq x * kq1 x).
Proof. apply (th_comp Uq offK Kf T1 mq muq T1_th mq_th mq_off). Qed.
Lemma kq1_th : th Uq kq1 (fun x => muq x * (Mq x * (kq1 x + RtoC (1 / 4) * Kf (mq x)))).
Proof.
  eapply th_val; [|apply (th_comp Uq offK T1 _ mq muq T1_2 mq_th mq_off)]. intros x Hx. cbv beta. f_equal. rewrite (T2_ode _ (mq_off x Hx)). assert (O := mq_off x Hx). assert (G := T2_ode _ O).
  assert (E1 : gT (mq x) = mq x * gT (mq x) + T1 (mq x) + RtoC (1 / 4) * Kf (mq x)) by (rewrite <- G; reflexivity). fold (kq1 x) in *. set (g := gT (mq x)) in *. set (k := RtoC (1 / 4) * Kf (mq x)) in *. clearbody g k. clear G.
  assert (N1 := offcut_neq0 _ (Uq_1 x Hx)). assert (N3 := offcut_neq0 _ (Uq_3 x Hx)). destruct (Uq_d x Hx) as [N4 N5]. unfold Mq. set (t := kq1 x) in *. clearbody t.
  replace (t + k) with (g - mq x * g) by (rewrite E1 at 1; ring). unfold mq, Pq. clear E1 O. revert N1 N3 N4 N5. snum. intros N1 N3 N4 N5. ffin.
Qed.
Theorem Hn_ode w : offK w -> (1 - w) * (9 - w) * HT2 w = w * ((10 - 2 * w) * HT w + (3 - w) * Hn w).
Proof.
  assert (HP := PI_RGT_0). set (c := RtoC (2 / PI)).
  assert (P : th Uq (fun x => 9 * (x * x)) (fun x => 2 * (9 * (x * x)))). { eapply th_val; [|thr]. intros x _. cbv beta. sring. }
  assert (PO : forall x, Uq x -> offK (9 * (x * x))). { intros x Hx. assert (M := Uq_mod x Hx). right. eapply Rle_lt_trans; [apply Rle_abs|]. eapply Rle_lt_trans; [apply Cmod_fst|]. rewrite !Cmod_mult, Cmod_R, Rabs_pos_eq by lra. assert (X := Cmod_ge_0 x). nra. }
  assert (F1 := th_comp Uq offK Hn HT _ (fun _ => 2) HT_th P PO). assert (F2 := th_scal _ 2 _ _ (th_comp Uq offK HT HT2 _ (fun _ => 2) HT2_th P PO)). cbv beta in F1, F2.
  assert (Y0 := th_scal _ c _ _ (th_mult _ _ _ _ _ sq_th kq_th)). cbv beta in Y0.
  assert (HF : holo Uq (fun x => Hn (9 * (x * x)))) by exact (th_holo _ _ _ F1). assert (HY : holo Uq (fun x => c * (sq x * Kf (mq x)))) by exact (th_holo _ _ _ Y0).
  assert (U0 : Uq 0) by (unfold Uq, disc; replace (0 - 0 : C) with (RtoC 0) by ring; rewrite Cmod_0; lra).
  assert (EQ : forall x, Uq x -> Hn (9 * (x * x)) = c * (sq x * Kf (mq x))).
  { apply (identity2 Uq (fun x => Hn (9 * (x * x))) (fun x => c * (sq x * Kf (mq x))) 0 (disc_open 0 (1 / 10))); [|exact U0|exact HF|exact HY|].
    - intros q s Hq Hs. unfold Uq, disc in *. replace (0 + RtoC s * (q - 0) - 0) with (RtoC s * (q - 0)) by ring. rewrite Cmod_mult, Cmod_R, Rabs_pos_eq by lra. assert (X := Cmod_ge_0 (q - 0)). nra.
    - intros e He. exists (RtoC (Rmin (e / 2) (1 / 8))). assert (M1 := Rmin_l (e / 2) (1 / 8)). assert (M2 := Rmin_r (e / 2) (1 / 8)). assert (M3 : (0 < Rmin (e / 2) (1 / 8))%R) by (apply Rmin_pos; lra). set (q := Rmin (e / 2) (1 / 8)) in *. split.
      + replace (RtoC q - 0) with (RtoC q) by ring. rewrite Cmod_R, Rabs_pos_eq by lra. lra.
      + rewrite Hn_real by lra. fold c. ring. }
  assert (E1 := th_unique Uq _ _ _ _ (disc_open 0 (1 / 10)) EQ F1 Y0). cbv beta in E1.
  assert (QT : th Uq qq _) by (unfold qq; thr). assert (QI := th_inv _ _ _ QT qq_0). assert (NT : th Uq nuq _) by (unfold nuq; thr). assert (MT : th Uq muq _) by (unfold muq; thr).
  assert (sT := sq_th). assert (kT := kq_th). assert (k1T := kq1_th). assert (Y1 : th Uq (fun x => c * (nuq x * sq x * Kf (mq x) + sq x * (muq x * kq1 x))) _) by thr.
  assert (E2 := th_unique Uq _ _ _ _ (disc_open 0 (1 / 10)) E1 F2 Y1). cbv beta in E2. clear QT QI NT MT Y1 sT kT k1T F1 F2 P Y0 HF HY.
  assert (R1 : forall x : R, (0 < x < 1 / 10)%R -> let v := 9 * (RtoC x * RtoC x) in (1 - v) * (9 - v) * HT2 v = v * ((10 - 2 * v) * HT v + (3 - v) * Hn v)).
  { intros x Hx v. assert (Ux : Uq (RtoC x)) by (unfold Uq, disc; replace (RtoC x - 0) with (RtoC x) by ring; rewrite Cmod_R, Rabs_pos_eq; lra). specialize (EQ _ Ux). specialize (E1 _ Ux). specialize (E2 _ Ux).
    assert (N1 := offcut_neq0 _ (Uq_1 _ Ux)). assert (N3 := offcut_neq0 _ (Uq_3 _ Ux)). destruct (Uq_d _ Ux) as [N4 N5]. fold v in EQ, E1, E2. unfold v in *. set (X := RtoC x) in *. rewrite EQ. assert (D2 : HT (9 * (X * X)) = RtoC (1 / 2) * (2 * HT (9 * (X * X)))) by (generalize (HT (9 * (X * X))); intros; snum; ffin). assert (D4 : HT2 (9 * (X * X)) = RtoC (1 / 4) * (2 * (2 * HT2 (9 * (X * X))))) by (generalize (HT2 (9 * (X * X))); intros; snum; ffin). rewrite D2, D4, E1, E2. clear D2 D4 E1 E2 EQ.
    unfold nuq, muq, Mq, qq. generalize (sq X) (Kf (mq X)) (kq1 X) c. intros s k0 k1 c0. clear - N1 N3 N4 N5. revert N1 N3 N4 N5. snum. intros N1 N3 N4 N5. ffin. }
  intros Hw. apply (identity2 offK (fun w => (1 - w) * (9 - w) * HT2 w) (fun w => w * ((10 - 2 * w) * HT w + (3 - w) * Hn w)) 0 offK_open offK_star offK_0).
  - assert (A := th_holo' _ _ _ offK_open HT2_th). assert (I := holo_id offK). assert (S : forall a, holo offK (fun w => a - w)) by (intros a; apply holo_minus; [apply holo_const|apply holo_id]). apply (holo_mult offK (fun w => (1 - w) * (9 - w))); [|exact A]. apply (holo_mult offK (fun w => 1 - w)); apply S.
  - assert (A := th_holo' _ _ _ offK_open HT_th). assert (B := th_holo _ _ _ HT_th). assert (I := holo_id offK). assert (S : forall a, holo offK (fun w => a - w)) by (intros a; apply holo_minus; [apply holo_const|apply holo_id]). assert (S2 : holo offK (fun w => 10 - 2 * w)) by (apply (holo_minus offK (fun _ => RtoC 10)); [apply holo_const|apply (holo_mult offK (fun _ => RtoC 2)); [apply holo_const|exact I]]).
    apply (holo_mult offK (fun w => w)); [exact I|]. apply (holo_plus offK (fun w => (10 - 2 * w) * HT w)); [apply (holo_mult offK (fun w => 10 - 2 * w)); assumption|apply (holo_mult offK (fun w => 3 - w)); [apply S|exact B]].
  - intros e He. set (q := Rmin (e / 2) (1 / 20)). assert (M1 : (q <= e / 2)%R) by apply Rmin_l. assert (M2 : (q <= 1 / 20)%R) by apply Rmin_r. assert (M3 : (0 < q)%R) by (apply Rmin_pos; lra). exists (RtoC q). split.
    + replace (RtoC q - 0) with (RtoC q) by ring. rewrite Cmod_R, Rabs_pos_eq by lra. lra.
    + assert (S0 := sqrt_lt_R0 q M3). assert (SS := sqrt_sqrt q ltac:(lra)). assert (L : (0 < sqrt q / 3 < 1 / 10)%R) by (split; [lra|nra]). assert (Z := R1 (sqrt q / 3)%R L). cbv zeta in Z. replace (9 * (RtoC (sqrt q / 3) * RtoC (sqrt q / 3))) with (RtoC q) in Z by (rewrite <- !RtoC_mult; f_equal; rewrite <- SS at 1; field). rewrite Z. ring.
  - exact Hw.
Qed.
