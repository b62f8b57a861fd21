(** * The triangular lattice: sheets of the elliptic integral and the average over the Brillouin zone *)
From Coq Require Import Reals Lra List ZArith.
From Coquelicot Require Import Coquelicot.
From Verif Require Import Base CBase CExp CSqrt Lattice_Model Bethe_Proofs Bethe_Main Fourier_Filon LatMom_Spec LatDer_Spec LatInt_Spec LatInt_Proofs LatInt_Hilbert LatInt_Fubini LatInt_Square LatInt_Local CAnal CHol CEll CHolo LatRect_Proofs LatRect_Main.
Local Open Scope C_scope.

Lemma Cconj_mul (a b : C) : Cconj (a * b) = Cconj a * Cconj b. Proof. apply C_ext; cbn; ring. Qed.
Lemma Cconj_add (a b : C) : Cconj (a + b) = Cconj a + Cconj b. Proof. apply C_ext; cbn; ring. Qed.
Lemma Cconj_inv (a : C) : / Cconj a = Cconj (/ a). Proof. destruct a as [x y]. apply C_ext; cbn; unfold Rdiv; replace (- y * (- y * 1))%R with (y * (y * 1))%R by ring; ring. Qed.
Lemma Cconj_conj (a : C) : Cconj (Cconj a) = a. Proof. apply C_ext; cbn; ring. Qed.
(** ** K continued from the upper half plane to the right of 1 *)
Definition offE (m : C) : Prop := snd m <> 0%R \/ (1 < fst m)%R.
Definition Ef (m : C) : C := csqrt (/ m) * Kf (/ m) + Ci * Kf (1 - m).
Lemma offE_open : opn offE. Proof. apply opn_or; [apply off_real_open|apply half_open_re']. Qed.
Lemma offE_cut m : offE m -> offcut m. Proof. intros [H|H]; [left; exact H|right; lra]. Qed.
Lemma offE_inv m : offE m -> offK (/ m).
Proof.
  intros H. assert (N := offcut_neq0 m (offE_cut m H)). destruct (Req_EM_T (snd m) 0) as [E|E].
  - right. destruct H as [H|H]; [contradiction|]. destruct m as [x y]. cbn in *. subst y. replace (x / (x * (x * 1) + 0 * (0 * 1)))%R with (/ x)%R by (field; lra). rewrite <- Rinv_1. apply Rinv_lt_contravar; lra.
  - left. apply inv_im, E.
Qed.
Lemma offE_1m m : offE m -> offK (1 - m).
Proof. destruct m as [x y]. unfold offE, offK. cbn. intros [H|H]; [left; intros E; apply H; lra|right; lra]. Qed.
Lemma Ef_holo U g : holo U g -> (forall w, U w -> offE (g w)) -> holo U (fun z => Ef (g z)).
Proof.
  intros G H. assert (GI : holo U (fun z => / g z)) by (apply holo_inv; [exact G|intros w Hw; apply offcut_neq0, offE_cut, H, Hw]).
  apply (holo_plus U (fun z => csqrt (/ g z) * Kf (/ g z)) (fun z => Ci * Kf (1 - g z))).
  - apply (holo_mult U (fun z => csqrt (/ g z)) (fun z => Kf (/ g z))); [apply holo_csqrt; [exact GI|intros w Hw; apply offcut_inv, offE_cut, H, Hw]|apply holo_Kf; [exact GI|intros w Hw; apply offE_inv, H, Hw]].
  - apply (holo_mult U (fun _ => Ci)); [apply holo_const|]. apply (holo_Kf U (fun z => 1 - g z)); [apply holo_minus; [apply holo_const|exact G]|intros w Hw; apply offE_1m, H, Hw].
Qed.
Lemma Ef_up (m : C) : (0 < snd m)%R -> Ef m = Kf m. Proof. intros H. symmetry. apply reciprocal_modulus, H. Qed.
Lemma Ef_low (m : C) : (snd m < 0)%R -> Ef m = Kf m + 2 * Ci * Kf (1 - m).
Proof.
  intros H. assert (HM : (0 < snd (Cconj m))%R) by (cbn; lra). assert (X := reciprocal_modulus (Cconj m) HM). assert (O : offE m) by (left; lra). apply (f_equal Cconj) in X.
  rewrite Cconj_inv in X. replace (1 - Cconj m) with (Cconj (1 - m)) in X by (apply C_ext; cbn; ring).
  rewrite !Kf_conj in X by (try apply offE_inv, O; try apply offE_1m, O; left; lra).
  rewrite csqrt_conj in X by (apply offcut_inv, offE_cut, O). rewrite Cconj_add, !Cconj_mul, !Cconj_conj in X. replace (Cconj Ci) with (- Ci) in X by (apply C_ext; cbn; ring). unfold Ef. rewrite X. cring.
Qed.
(** ** the sheet as a function of the modulus k *)
Definition sheet (k : C) : C := if Rlt_dec (snd k) 0 then Kf (k * k) else if Rlt_dec (fst k) 0 then Ef (k * k) else Kf (k * k).
Definition sheetU (k : C) : Prop := (snd k < 0)%R \/ ((fst k < 0)%R /\ offE (k * k)) \/ ((0 < fst k)%R /\ (fst (k * k)%C < 1)%R).
Lemma sq_holo U : holo U (fun k => k * k). Proof. apply (holo_mult U (fun k => k) (fun k => k)); apply holo_id. Qed.
Lemma low_offK (k : C) : (snd k < 0)%R -> offK (k * k).
Proof. destruct k as [x y]. unfold offK. cbn. intros H. destruct (Req_EM_T x 0) as [-> | N]; [right; nra|left]. intros E. apply N. nra. Qed.
Lemma left_half_open : opn (fun z => (fst z < 0)%R). Proof. apply half_open_re. Qed.
Lemma hol_open_pre (V : C -> Prop) f : opn V -> (forall w, ccat f w) -> opn (fun z => V (f z)).
Proof.
  intros O F w Hw. destruct (O (f w) Hw) as (r & Hr & B). destruct (proj1 (ccat_eps f w) (F w) r Hr) as (d & Hd & D). exists d. split; [exact Hd|]. intros v Hv. apply B, D, Hv.
Qed.
Lemma sq_ccat w : ccat (fun k => k * k) w. Proof. apply (ccat_mult (fun k => k) (fun k => k)); apply ccat_id. Qed.
Lemma sheet_holo : holo sheetU sheet.
Proof.
  apply holo_local. intros k [H|[[H1 H2]|[H1 H2]]].
  - exists (fun k => (snd k < 0)%R), (fun k => Kf (k * k)). split; [apply lower_open|]. split; [exact H|]. split; [apply (holo_Kf _ (fun k => k * k)); [apply sq_holo|intros; now apply low_offK]|]. intros v Hv. unfold sheet. destruct (Rlt_dec (snd v) 0); [reflexivity|contradiction].
  - exists (fun k => (fst k < 0)%R /\ offE (k * k)), (fun k => Ef (k * k)). split; [apply opn_and; [apply half_open_re|apply (hol_open_pre offE (fun k => k * k)); [apply offE_open|intros; apply sq_ccat]]|]. split; [split; assumption|].
    split; [apply (Ef_holo _ (fun k => k * k)); [apply sq_holo|intros w [_ X]; exact X]|]. intros v [V1 V2]. unfold sheet. destruct (Rlt_dec (snd v) 0) as [L|L]; [|destruct (Rlt_dec (fst v) 0); [reflexivity|contradiction]].
    symmetry. apply Ef_up. destruct v as [x y]. cbn in *. nra.
  - exists (fun k => (0 < fst k)%R /\ (fst (k * k)%C < 1)%R), (fun k => Kf (k * k)). split; [apply opn_and; [apply half_open_re'|apply (hol_open_pre (fun z => (fst z < 1)%R) (fun k => k * k)); [apply half_open_re|intros; apply sq_ccat]]|]. split; [split; assumption|].
    split; [apply (holo_Kf _ (fun k => k * k)); [apply sq_holo|intros w [_ X]; right; exact X]|]. intros v [V1 V2]. unfold sheet. destruct (Rlt_dec (snd v) 0) as [L|L]; [reflexivity|]. destruct (Rlt_dec (fst v) 0); [lra|reflexivity].
Qed.
(** ** the modulus as a function of r = sqrt (2 z + 3) *)
Definition trig (r : C) : C := 4 / (csqrt (r - 1) * csqrt (r - 1) * csqrt (r - 1) * csqrt (r + 3)).
Definition trik (r : C) : C := csqrt r * trig r.
Definition trim (r : C) : C := 16 * r / ((r - 1) * (r - 1) * (r - 1) * (r + 3)).
Lemma trik_sqr r : offcut (r - 1) -> offcut (r + 3) -> trik r * trik r = trim r.
Proof.
  intros O1 O3. unfold trik, trig, trim. assert (N1 := offcut_csqrt _ O1). assert (N3 := offcut_csqrt _ O3). assert (S1 := csqrt_sqr (r - 1)). assert (S3 := csqrt_sqr (r + 3)). assert (S := csqrt_sqr r). set (a := csqrt (r - 1)) in *. set (b := csqrt (r + 3)) in *. set (c := csqrt r) in *.
  rewrite <- S at 1. rewrite <- S1, <- S3. cfield; assumption.
Qed.
Lemma trik_region (r : C) : (0 < snd r)%R -> (0 <= fst r)%R -> (snd (trik r) < 0)%R \/ (fst (trik r) < 0)%R.
Proof.
  intros Hi Hr. destruct (pol_upper r Hi) as (c & g & Hc & Hg & Ec). destruct (pol_upper (r - 1)) as (b & be & Hb & Hbe & Eb). { destruct r; cbn in *; lra. }
  destruct (pol_upper (r + 3)) as (a & al & Ha & Hal & Ea). { destruct r; cbn in *; lra. }
  assert (O1 : (g < be)%R). { apply (pol_order c g b be); try assumption. rewrite <- Ec, <- Eb. destruct r as [x y]. cbn in *. nra. }
  assert (O2 : (al < g)%R). { apply (pol_order a al c g); try assumption. rewrite <- Ec, <- Ea. destruct r as [x y]. cbn in *. nra. }
  assert (E : trik r = pol (4 * sqrt c / (sqrt b * sqrt b * sqrt b * sqrt a)) ((g - 3 * be - al) / 2)).
  { unfold trik, trig. rewrite Eb, Ea. rewrite Ec. rewrite !pol_csqrt by lra. rewrite !pol_mul. assert (B := sqrt_lt_R0 b Hb). assert (A := sqrt_lt_R0 a Ha). assert (BA : (0 < sqrt b * sqrt b * sqrt b * sqrt a)%R) by (repeat apply Rmult_lt_0_compat; assumption).
    unfold Cdiv. rewrite pol_inv by lra. replace (RtoC 4) with (pol 4 0) by (unfold pol; rewrite cos_0, sin_0; apply C_ext; cbn; ring). rewrite !pol_mul. f_equal; field. lra. }
  rewrite E. set (p := ((g - 3 * be - al) / 2)%R). assert (HP := PI_RGT_0). assert (P1 : (- (3 * (PI / 2)) < p < 0)%R) by (unfold p; lra).
  assert (Q : (0 < 4 * sqrt c / (sqrt b * sqrt b * sqrt b * sqrt a))%R). { apply Rdiv_lt_0_compat; [|repeat apply Rmult_lt_0_compat; apply sqrt_lt_R0; assumption]. assert (X := sqrt_lt_R0 c Hc). lra. }
  cbn [pol fst snd]. destruct (Rlt_dec (- PI) p) as [L|L].
  - left. assert (sin p < 0)%R by (apply sin_lt_0_var; lra). nra.
  - right. assert (cos p < 0)%R. { rewrite <- (Ropp_involutive p), cos_neg. apply cos_lt_0; lra. } nra.
Qed.
(** the parameter is not in (0, 1] for r in the first quadrant *)
Lemma tri_poly (r : C) (q : R) : (0 < snd r)%R -> (0 <= fst r)%R -> (r - 1) * (r - 1) * (r - 1) * (r + 3) = RtoC q * r -> (q <= 8)%R.
Proof.
  intros Hy Hx E. destruct r as [x y]. cbn [fst snd] in *. assert (E1 := f_equal fst E). assert (E2 := f_equal snd E). cbn in E1, E2. clear E.
  (* E1, E2: real and imaginary part of r^4 - 6 r^2 + 8 r - 3 = q r *)
  set (n := (x * x + y * y)%R). assert (Hn : (0 < n)%R) by (unfold n; nra).
  (* multiply with conj r *)
  assert (I : (y * (n * (3 * (x * x) - y * y) - 6 * n + 3) = 0)%R). { unfold n. nra. }
  assert (J : (x * (n * (x * x - 3 * (y * y)) - 6 * n - 3) + 8 * n = q * n)%R) by (unfold n; nra).
  assert (I' : (n * (3 * (x * x) - y * y) - 6 * n + 3 = 0)%R) by (apply Rmult_integral in I; destruct I; [lra|assumption]).
  assert (K : ((8 - q) * n = 2 * x * (n * n + 3))%R). { unfold n in *. nra. }
  assert (0 <= 2 * x * (n * n + 3))%R by (apply Rmult_le_pos; nra). nra.
Qed.
(** ** the band in the units of the code: cos k1 + cos k2 + cos (k1 - k2), between -3/2 and 3 *)
Definition offT (z : C) : Prop := snd z <> 0%R \/ (fst z < - (3 / 2))%R \/ (3 < fst z)%R.
Definition tq (t : R) : R := (2 + 2 * cos t)%R.
Lemma tq_sqr t : tq t = (2 * cos (t / 2) * (2 * cos (t / 2)))%R.
Proof. unfold tq. replace t with (2 * (t / 2))%R at 1 by field. rewrite cos_2a_cos. ring. Qed.
Lemma tri_off (z : C) t : offT z -> off_band (Rabs (2 * cos (t / 2))) (z - RtoC (cos t)).
Proof.
  intros O. destruct z as [x y]. unfold offT in O. cbn [fst snd] in O. destruct O as [H|H]; [left; cbn; intros E; apply H; lra|right]. cbn.
  assert (E : cos t = (2 * (cos (t / 2) * cos (t / 2)) - 1)%R). { assert (X := tq_sqr t). unfold tq in X. lra. }
  assert (B := COS_bound (t / 2)). set (u := cos (t / 2)) in *. rewrite E. assert (Rabs (2 * u) <= Rabs (x + - (2 * (u * u) - 1)) /\ Rabs (2 * u) <> Rabs (x + - (2 * (u * u) - 1)))%R as [L N].
  { assert (0 <= (2 * u - 1) * (2 * u - 1))%R by apply Rle_0_sqr. assert (0 <= (2 * u + 1) * (2 * u + 1))%R by apply Rle_0_sqr. assert (0 <= (1 - u) * (2 + u))%R by (apply Rmult_le_pos; lra). assert (0 <= (1 + u) * (2 - u))%R by (apply Rmult_le_pos; lra). destruct H as [H|H]; (split; [|apply Rlt_not_eq]); unfold Rabs; repeat destruct Rcase_abs; nra. }
  lra.
Qed.
Lemma off_neq (a : R) (w : C) : (0 <= a)%R -> off_band a w -> w <> 0.
Proof. intros Ha O E. rewrite E in O. destruct O as [H|H]; cbn in H; [lra|rewrite Rabs_R0 in H; lra]. Qed.
Lemma good_tri (z : C) t : offT z -> good (z - RtoC (cos t)) (RtoC (tq t)).
Proof.
  intros O. assert (B := tri_off z t O). rewrite tq_sqr. replace (2 * cos (t / 2) * (2 * cos (t / 2)))%R with (Rabs (2 * cos (t / 2)) * Rabs (2 * cos (t / 2)))%R by (rewrite <- Rabs_mult; apply Rabs_pos_eq, Rle_0_sqr).
  apply good_band; [apply Rabs_pos| |exact B]. apply (off_neq (Rabs (2 * cos (t / 2)))); [apply Rabs_pos|exact B].
Qed.
Lemma tq_cont t : continuous tq t. Proof. apply (ex_derive_continuous tq). unfold tq. auto_derive. exact I. Qed.
Lemma offT_open : opn offT. Proof. apply opn_or; [apply off_real_open|]. apply opn_or; [apply half_open_re|apply half_open_re']. Qed.
Definition trA (z : C) : C := CInt (ker tq z) (- PI) PI.
Lemma trA_holo : holo offT trA.
Proof. assert (HP := PI_RGT_0). apply (avg_hol offT tq (- PI) PI offT_open tq_cont ltac:(lra) ltac:(intros; now apply good_tri)). Qed.
Lemma trA_is z : offT z -> is_CInt (ker tq z) (- PI) PI (trA z).
Proof. intros O. apply CInt_ok. intros t _. apply (ker_cont offT tq tq_cont); [intros; now apply good_tri|exact O]. Qed.
(** ** real frequencies above the band *)
Lemma csq_R (x : R) : (0 < x)%R -> csqrt (RtoC x) = RtoC (sqrt x). Proof. intros H. apply csqrt_R. lra. Qed.
Definition gS (S : R) : R := (4 / (sqrt (S - 1) * sqrt (S - 1) * sqrt (S - 1) * sqrt (S + 3)))%R.
Lemma gS_pos S : (3 < S)%R -> (0 < gS S)%R.
Proof. intros H. apply Rdiv_lt_0_compat; [lra|]. repeat apply Rmult_lt_0_compat; apply sqrt_lt_R0; lra. Qed.
Lemma trig_real S : (3 < S)%R -> trig (RtoC S) = RtoC (gS S).
Proof.
  intros H. unfold trig, gS. rewrite <- RtoC_minus, <- RtoC_plus, !csq_R by lra. rewrite <- !RtoC_mult. rewrite <- RtoC_div; [reflexivity|]. apply Rgt_not_eq. repeat apply Rmult_lt_0_compat; apply sqrt_lt_R0; lra.
Qed.
Lemma trik_real S : (3 < S)%R -> trik (RtoC S) = RtoC (sqrt S * gS S).
Proof. intros H. unfold trik. rewrite trig_real, csq_R, <- RtoC_mult by lra. reflexivity. Qed.
Lemma gS_sqr S : (3 < S)%R -> (gS S * gS S = 16 / ((S - 1) * (S - 1) * (S - 1) * (S + 3)))%R.
Proof.
  intros H. unfold gS. assert (A := sqrt_lt_R0 (S - 1) ltac:(lra)). assert (B := sqrt_lt_R0 (S + 3) ltac:(lra)). assert (A2 := sqrt_sqrt (S - 1) ltac:(lra)). assert (B2 := sqrt_sqrt (S + 3) ltac:(lra)).
  set (a := sqrt (S - 1)) in *. set (b := sqrt (S + 3)) in *. rewrite <- A2, <- B2. field. lra.
Qed.
Lemma kS_lt S : (3 < S)%R -> (sqrt S * gS S * (sqrt S * gS S) < 1)%R.
Proof.
  intros H. replace (sqrt S * gS S * (sqrt S * gS S))%R with (sqrt S * sqrt S * (gS S * gS S))%R by ring. rewrite sqrt_sqrt, gS_sqr by lra. assert (P : (0 < (S - 1) * (S - 1) * (S - 1) * (S + 3))%R) by (repeat apply Rmult_lt_0_compat; lra).
  apply Rmult_lt_reg_r with ((S - 1) * (S - 1) * (S - 1) * (S + 3))%R; [exact P|]. replace (S * (16 / ((S - 1) * (S - 1) * (S - 1) * (S + 3))) * ((S - 1) * (S - 1) * (S - 1) * (S + 3)))%R with (16 * S)%R by (field; lra).
  replace (1 * ((S - 1) * (S - 1) * (S - 1) * (S + 3)) )%R with (16 * S + (S - 3) * (S + 1) * (S + 1) * (S + 1))%R by ring. assert (0 < (S - 3) * (S + 1) * (S + 1) * (S + 1))%R by (repeat apply Rmult_lt_0_compat; lra). lra.
Qed.
Lemma sheet_real (x : R) : (0 <= x)%R -> sheet (RtoC x) = Kf (RtoC (x * x)).
Proof. intros H. unfold sheet. cbn [fst snd RtoC]. destruct (Rlt_dec 0 0); [lra|]. destruct (Rlt_dec x 0); [lra|]. rewrite <- RtoC_mult. reflexivity. Qed.
Definition triR (z : C) : C := csqrt (2 * z + 3).
Definition trF (z : C) : C := 2 * trig (triR z) * sheet (trik (triR z)).
Lemma triR_real (x : R) : (3 < x)%R -> exists S, (3 < S)%R /\ (S * S = 2 * x + 3)%R /\ triR (RtoC x) = RtoC S.
Proof.
  intros H. exists (sqrt (2 * x + 3)). assert (Q := sqrt_sqrt (2 * x + 3) ltac:(lra)). assert (P := sqrt_lt_R0 (2 * x + 3) ltac:(lra)). split; [nra|]. split; [exact Q|]. unfold triR. rewrite <- RtoC_mult, <- RtoC_plus. apply csq_R. lra.
Qed.
Lemma tri_above (x : R) : (3 < x)%R -> trA (RtoC x) = trF (RtoC x).
Proof.
  intros H. destruct (triR_real x H) as (S & HS & QS & ES). unfold trA, trF. rewrite ES, trig_real, trik_real by exact HS. rewrite sheet_real by (apply Rmult_le_pos; [apply sqrt_pos|left; now apply gS_pos]).
  assert (R := real_full (x + 1) S ltac:(lra) ltac:(nra)). apply CInt_val. eapply is_CInt_eq; [apply is_CInt_ext with (2 := R)|].
  - intros t _. unfold ker. rewrite <- !RtoC_minus. destruct (COS_bound t). assert (P1 : (S < x)%R) by nra. rewrite !iota_real; try lra; unfold tq; try nra. f_equal. f_equal. f_equal. rewrite QS. ring.
  - assert (X : ((x + 1) * (x + 1) - (S - 1) * (S - 1) = (S - 1) * (S - 1) * (S - 1) * (S + 3) / 4)%R). { replace (x + 1)%R with ((S * S - 1) / 2)%R by lra. field. }
    assert (P : (0 < (S - 1) * (S - 1) * (S - 1) * (S + 3))%R) by (repeat apply Rmult_lt_0_compat; lra). rewrite iota_real by lra. rewrite X.
    replace (/ sqrt ((S - 1) * (S - 1) * (S - 1) * (S + 3) / 4))%R with (gS S / 2)%R.
    + replace (sqrt S * gS S * (sqrt S * gS S))%R with (sqrt S * sqrt S * (gS S * gS S))%R by ring. rewrite sqrt_sqrt, gS_sqr by lra.
      replace (4 * S / ((S - 1) * (S - 1) * (S - 1) * (S + 3) / 4))%R with (S * (16 / ((S - 1) * (S - 1) * (S - 1) * (S + 3))))%R by (field; lra). rewrite RtoC_div by lra. cfield.
    + assert (G := gS_pos S HS). assert (G2 := gS_sqr S HS). apply Rmult_eq_reg_l with (sqrt ((S - 1) * (S - 1) * (S - 1) * (S + 3) / 4)); [|apply Rgt_not_eq, sqrt_lt_R0; lra]. rewrite Rinv_r by (apply Rgt_not_eq, sqrt_lt_R0; lra).
      replace (gS S / 2)%R with (sqrt (gS S / 2 * (gS S / 2))) by (apply sqrt_square; lra). rewrite <- sqrt_mult_alt by lra. replace (gS S / 2 * (gS S / 2))%R with (gS S * gS S / 4)%R by field. rewrite G2. transitivity (sqrt 1); [f_equal; field; lra|apply sqrt_1].
Qed.
(** ** continuation to the upper half plane *)
Definition triD (z : C) : Prop := (0 < snd z)%R \/ (3 < fst z)%R.
Lemma triD_cut z : triD z -> offcut (2 * z + 3).
Proof. destruct z as [x y]. unfold triD, offcut. cbn. intros [H|H]; [left|right]; lra. Qed.
Lemma upper_R (z : C) : (0 < snd z)%R -> (0 < snd (triR z))%R /\ (0 < fst (triR z))%R.
Proof.
  intros H. assert (O := triD_cut z (or_introl H)). assert (P := csqrt_pos _ O). assert (I := csqrt_im _ O). unfold triR. split; [|exact P]. assert (S : (0 < snd (2 * z + 3)%C)%R) by (destruct z; cbn in *; lra). nra.
Qed.
Lemma right_R (z : C) : (3 < fst z)%R -> (3 < fst (triR z))%R.
Proof.
  intros H. assert (O := triD_cut z (or_intror H)). assert (P := csqrt_pos _ O). assert (Q := csqrt_sqr (2 * z + 3)). apply (f_equal fst) in Q. unfold triR. assert (S : (9 < fst (2 * z + 3)%C)%R) by (destruct z; cbn in *; lra). rewrite <- Q in S. set (r := csqrt _) in *. clearbody r. destruct r as [x y]. cbn in *. nra.
Qed.
Lemma triD_R z : triD z -> offcut (triR z) /\ offcut (triR z - 1) /\ offcut (triR z + 3).
Proof.
  intros [H|H].
  - destruct (upper_R z H) as [A B]. destruct (triR z) as [x y]. unfold offcut. cbn in *. repeat split; left; lra.
  - assert (A := right_R z H). destruct (triR z) as [x y]. unfold offcut. cbn in *. repeat split; right; lra.
Qed.
Lemma triR_holo (U : C -> Prop) : (forall z, U z -> offcut (2 * z + 3)) -> holo U triR.
Proof. intros H. apply (holo_csqrt U (fun z => 2 * z + 3)); [|exact H]. apply (holo_plus U (fun z => 2 * z)); [apply (holo_mult U (fun _ => 2)); [apply holo_const|apply holo_id]|apply holo_const]. Qed.
Lemma trig_holo U g : holo U g -> (forall z, U z -> offcut (g z - 1) /\ offcut (g z + 3)) -> holo U (fun z => trig (g z)).
Proof.
  intros G H. assert (A : holo U (fun z => csqrt (g z - 1))) by (apply (holo_csqrt U (fun z => g z - 1)); [apply holo_minus; [exact G|apply holo_const]|intros w Hw; apply H, Hw]). assert (B : holo U (fun z => csqrt (g z + 3))) by (apply (holo_csqrt U (fun z => g z + 3)); [apply holo_plus; [exact G|apply holo_const]|intros w Hw; apply H, Hw]).
  apply (holo_div U (fun _ => 4) (fun z => csqrt (g z - 1) * csqrt (g z - 1) * csqrt (g z - 1) * csqrt (g z + 3))); [apply holo_const| |].
  - apply (holo_mult U (fun z => csqrt (g z - 1) * csqrt (g z - 1) * csqrt (g z - 1))); [|exact B]. apply (holo_mult U (fun z => csqrt (g z - 1) * csqrt (g z - 1))); [|exact A]. apply (holo_mult U (fun z => csqrt (g z - 1)) (fun z => csqrt (g z - 1))); exact A.
  - intros w Hw. destruct (H w Hw) as [H1 H3]. assert (N1 := offcut_csqrt _ H1). assert (N3 := offcut_csqrt _ H3). apply Cmult_neq_0; [apply Cmult_neq_0; [apply Cmult_neq_0|]|]; assumption.
Qed.
Lemma trik_holo U g : holo U g -> (forall z, U z -> offcut (g z) /\ offcut (g z - 1) /\ offcut (g z + 3)) -> holo U (fun z => trik (g z)).
Proof.
  intros G H. apply (holo_mult U (fun z => csqrt (g z)) (fun z => trig (g z))); [apply holo_csqrt; [exact G|intros w Hw; apply H, Hw]|apply trig_holo; [exact G|intros w Hw; apply H, Hw]].
Qed.
Lemma trik_sheet (r : C) : (0 < snd r)%R -> (0 <= fst r)%R -> sheetU (trik r).
Proof.
  intros Hi Hr. destruct (trik_region r Hi Hr) as [H|H]; [left; exact H|]. destruct (Rlt_dec (snd (trik r)) 0) as [L|L]; [left; exact L|]. right. left. split; [exact H|].
  assert (O1 : offcut (r - 1)) by (destruct r as [x y]; left; cbn in *; lra). assert (O3 : offcut (r + 3)) by (destruct r as [x y]; left; cbn in *; lra). assert (Q := trik_sqr r O1 O3).
  destruct (Req_EM_T (snd (trik r * trik r)%C) 0) as [E|E]; [|left; exact E]. right. destruct (Rlt_dec 1 (fst (trik r * trik r)%C)) as [X|X]; [exact X|exfalso].
  set (k := trik r) in *. assert (K0 : snd k = 0%R) by (destruct k as [a b]; cbn in *; nra). set (mu := (fst k * fst k)%R). assert (EM : k * k = RtoC mu) by (unfold mu; destruct k as [a b]; cbn in *; subst b; apply C_ext; cbn; ring). assert (M0 : (0 < mu)%R) by (unfold mu; nra). assert (M1 : (mu <= 1)%R) by (rewrite EM in X; cbn in X; lra).
  assert (P := tri_poly r (16 / mu) Hi Hr). assert (N1 := offcut_neq0 _ O1). assert (N3 := offcut_neq0 _ O3). rewrite EM in Q. unfold trim in Q.
  assert (F : (16 / mu <= 8)%R). { apply P. assert (NM : RtoC mu <> 0) by (apply RtoC_neq0; lra). rewrite RtoC_div by lra. replace (RtoC 16 / RtoC mu * r) with (16 * r / RtoC mu) by (unfold Cdiv; ring). rewrite Q. assert (N0 : r <> 0) by (intros Y; rewrite Y in Hi; cbn in Hi; lra). assert (N16 : RtoC 16 <> 0) by (apply RtoC_neq0; lra). revert N3 N16. generalize (r + 3) (RtoC 16). intros c d Nc Nd. field. repeat split; assumption. }
  assert (16 / mu * mu = 16)%R by (field; lra). nra.
Qed.
Lemma opn_at (V : C -> Prop) f w : opn V -> V (f w) -> ccat f w -> exists d, (0 < d)%R /\ forall v, (Cmod (v - w)%C < d)%R -> V (f v).
Proof. intros O Hw F. destruct (O (f w) Hw) as (r & Hr & B). destruct (proj1 (ccat_eps f w) F r Hr) as (d & Hd & D). exists d. split; [exact Hd|]. intros v Hv. apply B, D, Hv. Qed.
Lemma tri_disc : exists d, (0 < d <= 1)%R /\ forall v, (Cmod (v - RtoC 4)%C < d)%R -> sheetU (trik (triR v)).
Proof.
  assert (K : holo triD (fun z => trik (triR z))) by (apply trik_holo; [apply triR_holo, triD_cut|apply triD_R]). assert (D4 : triD (RtoC 4)) by (right; cbn; lra). assert (CK := holo_ccat _ _ _ K D4).
  destruct (opn_at (fun k => (0 < fst k)%R /\ (fst (k * k)%C < 1)%R) (fun z => trik (triR z)) (RtoC 4)) as (d & Hd & B); [|cbv beta|exact CK|].
  - apply opn_and; [apply half_open_re'|apply (hol_open_pre (fun z => (fst z < 1)%R) (fun k => k * k)); [apply half_open_re|intros; apply sq_ccat]].
  - destruct (triR_real 4 ltac:(lra)) as (S & HS & QS & ES). rewrite ES, trik_real by exact HS. split; cbn.
    + apply Rmult_lt_0_compat; [apply sqrt_lt_R0; lra|now apply gS_pos].
    + assert (X := kS_lt S HS). lra.
  - exists (Rmin d 1). assert (M1 := Rmin_l d 1). assert (M2 := Rmin_r d 1). split; [split; [apply Rmin_pos; lra|exact M2]|]. intros v Hv. right. right. apply B. lra.
Qed.
Theorem tri_upper (z : C) : (0 < snd z)%R -> trA z = trF z.
Proof.
  intros Hz. destruct tri_disc as (d & Hd & B). set (U := fun z : C => (0 < snd z)%R \/ (Cmod (z - RtoC 4)%C < d)%R).
  assert (UD : forall z, U z -> triD z). { intros w [H|H]; [left; exact H|right]. assert (L := Cmod_fst (w - RtoC 4)). cbn in L. apply Rabs_le_between in L. lra. }
  assert (US : forall z, U z -> sheetU (trik (triR z))). { intros w [H|H]; [|apply B, H]. destruct (upper_R w H) as [A P]. apply trik_sheet; lra. }
  assert (RH : holo U triR) by (apply triR_holo; intros w Hw; apply triD_cut, UD, Hw).
  apply (identity2 U trA trF (RtoC 4)).
  - apply opn_or; [apply upper_open|apply disc_open].
  - intros q s Hq Hs. destruct Hq as [H|H].
    + destruct (Req_EM_T s 0) as [-> | N]; [right|left; cbn in *; nra]. replace (RtoC 4 + RtoC 0 * (q - RtoC 4) - RtoC 4) with (RtoC 0) by ring. rewrite Cmod_0. lra.
    + right. replace (RtoC 4 + RtoC s * (q - RtoC 4) - RtoC 4) with (RtoC s * (q - RtoC 4)) by ring. rewrite Cmod_mult, Cmod_R, Rabs_pos_eq by lra. assert (P := Cmod_ge_0 (q - RtoC 4)). nra.
  - right. replace (RtoC 4 - RtoC 4) with (RtoC 0) by ring. rewrite Cmod_0. lra.
  - apply (holo_sub offT); [|apply trA_holo]. intros w Hw. destruct (UD w Hw) as [H|H]; [left; lra|right; right; exact H].
  - apply (holo_mult U (fun z => 2 * trig (triR z)) (fun z => sheet (trik (triR z)))).
    + apply (holo_mult U (fun _ => 2)); [apply holo_const|]. apply trig_holo; [exact RH|intros w Hw; apply triD_R, UD, Hw].
    + apply (holo_comp U sheetU sheet (fun z => trik (triR z))); [apply sheet_holo|apply trik_holo; [exact RH|intros w Hw; apply triD_R, UD, Hw]|exact US].
  - apply (accum_real _ 4 d); [lra|]. intros x Hx. apply Rabs_lt_between in Hx. rewrite tri_above by lra. ring.
  - left. exact Hz.
Qed.
(** ** real frequencies below the band, approached from above *)
Definition triR' (z : C) : C := Ci * csqrt (- (2 * z + 3)).
Lemma limit_up f (z : C) : ccat f z -> (forall e, (0 < e)%R -> f (fst z, (snd z + e)%R) = 0) -> f z = 0.
Proof.
  intros F H. apply Cmod_eq_0. destruct (Req_EM_T (Cmod (f z)) 0) as [E|N]; [exact E|exfalso]. assert (P := Cmod_ge_0 (f z)). destruct (proj1 (ccat_eps f z) F (Cmod (f z)) ltac:(lra)) as (d & Hd & B).
  specialize (B (fst z, (snd z + d / 2)%R)). rewrite H in B by lra. replace (RtoC 0 - f z) with (- f z) in B by ring. rewrite Cmod_opp in B. 
  assert (X : (Cmod ((fst z, (snd z + d / 2)%R) - z)%C < d)%R). { replace ((fst z, (snd z + d / 2)%R) - z) with (Ci * RtoC (d / 2)) by (destruct z; apply C_ext; cbn; ring). rewrite Cmod_mult, Cmod_R, Rabs_pos_eq by lra. replace (Cmod Ci) with 1%R; [lra|]. unfold Cmod. cbn. replace (0 * (0 * 1) + 1 * (1 * 1))%R with 1%R by ring. symmetry. apply sqrt_1. }
  specialize (B X). lra.
Qed.
Lemma triR_alt (z : C) : (0 < snd z)%R -> triR z = triR' z.
Proof.
  intros H. unfold triR, triR'. assert (O : offcut (- (2 * z + 3))) by (left; destruct z; cbn in *; lra). assert (P := csqrt_pos _ O). assert (I := csqrt_im _ O). apply csqrt_unique.
  - replace (Ci * csqrt (- (2 * z + 3)) * (Ci * csqrt (- (2 * z + 3)))) with (Ci * Ci * (csqrt (- (2 * z + 3)) * csqrt (- (2 * z + 3)))) by ring. rewrite csqrt_sqr. replace (Ci * Ci) with (- RtoC 1) by (apply C_ext; cbn; ring). ring.
  - assert (S : (snd (- (2 * z + 3))%C < 0)%R) by (destruct z; cbn in *; lra). rewrite <- I in S. set (s := csqrt _) in *. clearbody s. destruct s as [a b]. cbn in *. nra.
Qed.
Lemma triR_below (x : R) : (x < - (3 / 2))%R -> triR (RtoC x) = triR' (RtoC x) /\ triR (RtoC x) = (0, sqrt (- (2 * x + 3)))%R.
Proof.
  intros H. assert (E : triR (RtoC x) = (0, sqrt (- (2 * x + 3)))%R). { unfold triR. rewrite <- RtoC_mult, <- RtoC_plus. rewrite <- (Ropp_involutive (2 * x + 3)) at 1. rewrite csqrt_neg by lra. reflexivity. }
  split; [|exact E]. rewrite E. unfold triR'. rewrite <- RtoC_mult, <- RtoC_plus, <- RtoC_opp, csq_R by lra. apply C_ext; cbn; ring.
Qed.
Theorem tri_below (x : R) : (x < - (3 / 2))%R -> trA (RtoC x) = trF (RtoC x).
Proof.
  intros H. destruct (triR_below x H) as [E1 E2]. assert (SQ : (0 < sqrt (- (2 * x + 3)))%R) by (apply sqrt_lt_R0; lra).
  assert (CR : ccat triR' (RtoC x)).
  { unfold triR'. apply (ccat_mult (fun _ => Ci) (fun z => csqrt (- (2 * z + 3)))); [apply ccat_const|]. apply (holo_ccat (fun z => (fst z < - (3 / 2))%R)); [|cbn; exact H]. apply (holo_csqrt _ (fun z => - (2 * z + 3))).
    - apply (holo_ext _ (fun z => - (3) - 2 * z)); [apply half_open_re|intros; ring|]. apply (holo_minus _ (fun _ => - (3)) (fun z => 2 * z)); [apply holo_const|]. apply (holo_mult _ (fun _ => 2)); [apply holo_const|apply holo_id].
    - intros [a b] Hw. right. cbn in *. lra. }
  assert (R0 : triR' (RtoC x) = (0, sqrt (- (2 * x + 3)))%R) by (rewrite <- E1; exact E2). set (W := fun r : C => (0 < snd r)%R).
  assert (HW : W (triR' (RtoC x))) by (rewrite R0; exact SQ).
  assert (WD : forall r, W r -> offcut r /\ offcut (r - 1) /\ offcut (r + 3)) by (intros [a b] Hr; unfold W in Hr; unfold offcut; cbn in *; repeat split; left; lra).
  assert (KH : holo W (fun r => trik r)) by (apply (trik_holo W (fun r => r)); [apply holo_id|exact WD]). assert (GH : holo W (fun r => trig r)) by (apply (trig_holo W (fun r => r)); [apply holo_id|intros; apply WD; assumption]).
  assert (CS : ccat (fun r => sheet (trik r)) (triR' (RtoC x))). { apply (ccat_comp sheet trik); [|apply (holo_ccat W); [exact KH|exact HW]]. apply (holo_ccat sheetU); [apply sheet_holo|]. rewrite R0. apply trik_sheet; cbn; lra. }
  assert (CG : ccat trig (triR' (RtoC x))) by (apply (holo_ccat W); [exact GH|exact HW]).
  assert (CF : ccat (fun z => 2 * trig (triR' z) * sheet (trik (triR' z))) (RtoC x)).
  { apply (ccat_mult (fun z => 2 * trig (triR' z)) (fun z => sheet (trik (triR' z)))); [apply (ccat_mult (fun _ => 2) (fun z => trig (triR' z))); [apply ccat_const|apply (ccat_comp trig triR'); assumption]|apply (ccat_comp (fun r => sheet (trik r)) triR'); assumption]. }
  apply Csub_0. unfold trF. rewrite E1. apply (limit_up (fun z => trA z - 2 * trig (triR' z) * sheet (trik (triR' z)))).
  - apply (ccat_minus trA); [|exact CF]. apply (holo_ccat offT); [apply trA_holo|right; left; exact H].
  - intros e He. cbn [fst snd RtoC]. rewrite Rplus_0_l. rewrite tri_upper by (cbn; exact He). unfold trF. rewrite triR_alt by (cbn; exact He). ring.
Qed.
