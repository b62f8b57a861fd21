(** * Body-centred cubic lattice: the integral of K over one wave vector is a squared elliptic integral *)
From Coq Require Import Reals Lra Lia.
From Coquelicot Require Import Coquelicot.
From Verif Require Import Base CBase CExp CSqrt Bethe_Proofs Bethe_Main Fourier_Filon LatInt_Spec LatInt_Proofs LatInt_Hilbert LatInt_Fubini LatInt_Square LatInt_Legendre CAnal CHol CEll CHolo CTheta LatRect_Proofs.
Local Open Scope C_scope.

Definition c2 (x : R) : C := RtoC (cos x * cos x).
Lemma c2_off w x : offK w -> offK (w * c2 x).
Proof.
  intros H. unfold c2. destruct (COS_bound x) as [A B]. assert (P : (0 <= cos x * cos x <= 1)%R) by nra. set (c := (cos x * cos x)%R) in *. destruct w as [a b]. unfold offK in *. cbn in *.
  destruct (Req_dec b 0) as [-> | N]; [right|]. - destruct H as [H|H]; [lra|]. assert (Q : (0 <= c * (1 - a))%R) by (apply Rmult_le_pos; lra). destruct (Req_dec c 1) as [-> | C1]; lra. - destruct (Req_dec c 0) as [-> | N']; [right; lra|left]. replace (a * 0 + b * c)%R with (b * c)%R by ring. apply Rmult_integral_contrapositive_currified; assumption.
Qed.
Lemma c2_rcd t : rcd c2 t (- (2) * RtoC (sin t) * RtoC (cos t)).
Proof.
  apply (rcd_ext (fun t => RtoC (cos t) * RtoC (cos t))); [intros s; unfold c2; now rewrite RtoC_mult|]. eapply rcd_eq; [apply rcd_mult; apply cos_rcd|]. cbv beta. rewrite RtoC_opp. cring.
Qed.
Lemma c2_cont t : ccont c2 t. Proof. exact (rcd_ccont _ _ _ (c2_rcd t)). Qed.
Definition II (F : C -> C) (w : C) : C := CInt (fun x => F (w * c2 x)) 0 (PI / 2).
Lemma II_cont F w x : holo offK F -> offK w -> ccont (fun x => F (w * c2 x)) x.
Proof.
  intros (F' & H) O. eapply rcd_ccont. apply (rcd_comp F (fun x => w * c2 x)); [apply H, c2_off, O|]. apply rcd_mult; [apply rcd_const|apply c2_rcd].
Qed.
Lemma II_is F w : holo offK F -> offK w -> is_CInt (fun x => F (w * c2 x)) 0 (PI / 2) (II F w).
Proof. intros H O. apply CInt_ok. intros x _. apply II_cont; assumption. Qed.
Lemma II_hol F F' : hol offK F F' -> hol offK (II F) (fun w => CInt (fun x => c2 x * F' (w * c2 x)) 0 (PI / 2)).
Proof.
  intros H. apply (param_hol offK (fun w x => F (w * c2 x)) (fun w x => c2 x * F' (w * c2 x)) 0 (PI / 2) offK_open PI2_pos).
  - intros m t Hm. eapply is_cderive_eq; [apply (is_cderive_comp F (fun w => w * c2 t)); [apply (is_cderive_mul (fun w => w)); [apply is_cderive_id|apply is_cderive_const]|apply H, c2_off, Hm]|]. cbv beta. ring.
  - intros m t Hm. apply II_cont; [now exists F'|exact Hm].
  - intros m t Hm. apply ccr_mult; [apply (ccr_2 c2), c2_cont|]. apply (ccr_comp F' (fun w x => w * c2 x)); [apply H, c2_off, Hm|]. apply ccr_mult; [apply ccr_m|apply (ccr_2 c2), c2_cont].
Qed.
Lemma II_th F G : th offK F G -> holo offK G -> th offK (II F) (II G).
Proof.
  intros T HG. assert (HF := th_holo _ _ _ T). destruct T as (F' & A & B). eexists. split; [apply II_hol, A|]. intros w Hw.
  apply CInt_val. apply (is_CInt_ext (fun x => w * (c2 x * F' (w * c2 x)))). { intros x _. rewrite (B _ (c2_off w x Hw)). ring. }
  apply is_CInt_scal. apply CInt_ok. intros x _. apply ccont_mult; [apply c2_cont|]. destruct (A _ (c2_off w x Hw)) as [_ K]. apply (ccr_slice (fun w x => F' (w * c2 x)) w x). apply (ccr_comp F' (fun w x => w * c2 x)); [exact K|]. apply ccr_mult; [apply ccr_m|apply (ccr_2 c2), c2_cont].
Qed.
(** ** the equation theta^2 K = m (theta + 1/2)^2 K *)
Definition T1 (m : C) : C := m * K1 m.
Definition gT (m : C) : C := m * K1 m + m * (m * K2 m) + T1 m + RtoC (1 / 4) * Kf m.
Lemma K2_holo : holo offK K2. Proof. exists (cD K2). apply (hol_derive offK K1); [apply offK_open|apply K1_hol]. Qed.
Lemma T1_th : th offK Kf T1. Proof. exists K1. split; [apply Kf_hol|reflexivity]. Qed.
Lemma T1_2 : th offK T1 (fun m => m * K1 m + m * (m * K2 m)).
Proof. eapply th_ext; [apply offK_open| | |apply th_mult; [apply th_id|exists K2; split; [apply K1_hol|reflexivity]]]; intros; reflexivity. Qed.
Lemma T2_ode m : offK m -> m * K1 m + m * (m * K2 m) = m * gT m.
Proof.
  intros H. assert (O := legendre_ode m H). unfold gT, T1. apply Csub_0. transitivity (m * (m * (1 - m) * K2 m + (1 - 2 * m) * K1 m - RtoC (1 / 4) * Kf m)); [cring|]. rewrite O. ring.
Qed.
Lemma gT_holo : holo offK gT.
Proof.
  assert (A : holo offK K1) by (eexists; apply K1_hol). assert (B := K2_holo). assert (K : holo offK Kf) by (eexists; apply Kf_hol). assert (I := holo_id offK). unfold gT, T1.
  apply (holo_plus offK (fun m => m * K1 m + m * (m * K2 m) + m * K1 m)); [|apply (holo_mult offK (fun _ => RtoC (1 / 4))); [apply holo_const|exact K]].
  apply (holo_plus offK (fun m => m * K1 m + m * (m * K2 m))); [|apply (holo_mult offK (fun m => m)); assumption].
  apply (holo_plus offK (fun m => m * K1 m)); [apply (holo_mult offK (fun m => m)); assumption|]. apply (holo_mult offK (fun m => m)); [exact I|]. apply (holo_mult offK (fun m => m)); assumption.
Qed.
(** ** the integral satisfies theta^3 L = w (theta + 1/2)^3 L *)
Lemma L_ode : exists L1 L2 L3, th offK (II Kf) L1 /\ th offK L1 L2 /\ th offK L2 L3 /\ holo offK L3 /\
  forall w, offK w -> L3 w = w * (L3 w + RtoC (3 / 2) * L2 w + RtoC (3 / 4) * L1 w + RtoC (1 / 8) * II Kf w).
Proof.
  destruct (th_ex offK gT offK_open gT_holo) as (g1 & TG & HG). set (T2 := fun m => m * gT m). set (T3 := fun m => m * gT m + m * g1 m).
  assert (I := holo_id offK). assert (HK : holo offK Kf) by (eexists; apply Kf_hol).
  assert (X1 : holo offK T1) by (eapply th_holo, T1_2). assert (X2 : holo offK T2) by (apply (holo_mult offK (fun m => m)); [exact I|apply gT_holo]).
  assert (X3 : holo offK T3) by (apply (holo_plus offK T2); [exact X2|apply (holo_mult offK (fun m => m)); assumption]).
  assert (E12 : th offK T1 T2) by (eapply th_ext; [apply offK_open| | |apply T1_2]; [reflexivity|intros m Hm; apply T2_ode, Hm]).
  assert (E23 : th offK T2 T3) by (eapply th_ext; [apply offK_open| | |apply th_mult; [apply th_id|exact TG]]; intros; reflexivity).
  assert (HL : holo offK (II T3)) by (destruct X3 as (f' & X3); eexists; apply II_hol, X3).
  exists (II T1), (II T2), (II T3). split; [apply II_th; [apply T1_th|exact X1]|]. split; [apply II_th; assumption|]. split; [apply II_th; assumption|]. split; [exact HL|]. intros w Hw.
  (* g1 = T3 + T2 + T1 / 4 *)
  assert (G1 : forall m, offK m -> g1 m = T3 m + T2 m + RtoC (1 / 4) * T1 m).
  { apply (th_unique offK gT (fun m => T2 m + T1 m + RtoC (1 / 4) * Kf m)); [apply offK_open| |exact TG|apply th_plus; [apply th_plus; assumption|apply th_scal, T1_th]].
    intros m Hm. unfold T2. rewrite <- (T2_ode m Hm). unfold gT. reflexivity. }
  assert (G0 : forall m, offK m -> gT m = T2 m + T1 m + RtoC (1 / 4) * Kf m). { intros m Hm. unfold T2. rewrite <- (T2_ode m Hm). unfold gT. reflexivity. }
  (* the total derivative *)
  assert (TD : is_CInt (fun x => w * (RtoC (cos x) * RtoC (cos x) - RtoC (1 / 2)) * gT (w * c2 x) - w * (RtoC (sin x) * RtoC (sin x)) * g1 (w * c2 x)) 0 (PI / 2) 0).
  { destruct TG as (g' & TG & TG1). eapply is_CInt_eq; [apply (rcd_ftc (fun x => RtoC (1 / 2) * w * (RtoC (sin x) * RtoC (cos x)) * gT (w * c2 x)))|].
    - intros t _. eapply rcd_eq; [apply rcd_mult; [apply rcd_mult; [apply rcd_const|apply rcd_mult; [apply sin_rcd|apply cos_rcd]]|apply (rcd_comp gT (fun x => w * c2 x)); [apply TG, c2_off, Hw|apply rcd_mult; [apply rcd_const|apply c2_rcd]]]|].
      cbv beta. rewrite (TG1 _ (c2_off w t Hw)). assert (P := cos2_sin2 t). unfold c2. rewrite RtoC_opp, (RtoC_mult (cos t)). set (s := RtoC (sin t)) in *. set (c := RtoC (cos t)) in *. set (G := gT (w * (c * c))). set (H := g' (w * (c * c))).
      assert (P' : s * s = 1 - c * c) by (rewrite P; ring). transitivity (RtoC (1 / 2) * w * (c * c - s * s) * G - w * (s * s) * (w * (c * c) * H)); [|rewrite P']; clearbody s c G H; clear P P'; cfield.
    - intros t _. assert (CS : forall x, ccont (fun x => RtoC (sin x)) x) by (intros x; exact (rcd_ccont _ _ _ (sin_rcd x))). assert (CC : forall x, ccont (fun x => RtoC (cos x)) x) by (intros x; exact (rcd_ccont _ _ _ (cos_rcd x))).
      apply ccont_minus; (apply ccont_mult; [apply ccont_mult; [apply ccont_const|]|apply II_cont; try assumption]). + apply ccont_minus; [apply ccont_mult; apply CC|apply ccont_const]. + apply gT_holo. + apply ccont_mult; apply CS.
    - cbv beta. rewrite sin_0, cos_PI2. rewrite Cmult_0_l, Cmult_0_r. ring. }
  assert (J := is_CInt_minus _ _ _ _ _ _ (II_is T3 w X3 Hw) (is_CInt_scal w _ _ _ _ (is_CInt_plus _ _ _ _ _ _ (is_CInt_plus _ _ _ _ _ _ (is_CInt_plus _ _ _ _ _ _ (II_is T3 w X3 Hw) (is_CInt_scal (RtoC (3 / 2)) _ _ _ _ (II_is T2 w X2 Hw))) (is_CInt_scal (RtoC (3 / 4)) _ _ _ _ (II_is T1 w X1 Hw))) (is_CInt_scal (RtoC (1 / 8)) _ _ _ _ (II_is Kf w HK Hw))))).
  apply Csub_0. refine (is_CInt_unique _ _ _ _ _ J _). apply is_CInt_ext with (2 := TD). intros x _. cbv beta. assert (O := c2_off w x Hw). set (m := w * c2 x) in *.
  transitivity (m * gT m + m * g1 m - w * (g1 m + RtoC (1 / 2) * gT m)).
  - assert (P := cos2_sin2 x). assert (M : m = w * (RtoC (cos x) * RtoC (cos x))) by (unfold m, c2; now rewrite RtoC_mult). generalize (gT m) (g1 m). intros a b. rewrite M. set (c := RtoC (cos x)) in *. set (s := RtoC (sin x)) in *. assert (P' : s * s = 1 - c * c) by (rewrite P; ring). rewrite P'. clearbody c s. clear P P' M. cfield.
  - fold (T3 m). rewrite (G1 m O), (G0 m O). unfold T3. fold (T3 m). generalize (T3 m) (T2 m) (T1 m) (Kf m). intros a b c d. rewrite ?(RtoC_div 3 4) by lra. cfield.
Qed.
(** ** the squared elliptic integral satisfies the same equation *)
Definition ub (w : C) : C := RtoC (1 / 2) * (1 - csqrt (1 - w)).
Lemma sb_off w : offK w -> offcut (1 - w). Proof. apply offK_1m. Qed.
Lemma ub_off w : offK w -> offK (ub w).
Proof. intros H. assert (P := csqrt_pos _ (sb_off w H)). right. unfold ub. destruct (csqrt (1 - w)) as [a b]. cbn in *. lra. Qed.
Definition yb (w : C) : C := Kf (ub w).
Definition yb1 (w : C) : C := w * (K1 (ub w) * (RtoC (1 / 4) * / csqrt (1 - w))).
Definition rb (w : C) : C := w * / (1 - w).
Definition yb2 (w : C) : C := rb w * (RtoC (1 / 2) * yb1 w + RtoC (1 / 16) * yb w).
Lemma ub_hol : hol offK ub (fun w => RtoC (1 / 4) * / csqrt (1 - w)).
Proof.
  unfold ub. apply hol_ext' with (f' := fun w => 0 * (1 - csqrt (1 - w)) + RtoC (1 / 2) * (0 - / (2 * csqrt (1 - w)) * (0 - 1))); [apply offK_open| |].
  - intros w Hw. assert (N := offcut_csqrt _ (sb_off w Hw)). cfield. assumption.
  - apply (hol_mult offK (fun _ => RtoC (1 / 2))); [apply hol_const|]. apply (hol_minus offK (fun _ => RtoC 1)); [apply hol_const|]. apply (hol_comp offK offcut csqrt (fun z => / (2 * csqrt z)) (fun w => 1 - w) (fun _ => 0 - 1)); [apply hol_csqrt|apply (hol_minus offK (fun _ => RtoC 1)); [apply hol_const|apply hol_id]|apply sb_off].
Qed.
Lemma yb_th : th offK yb yb1.
Proof. eexists. split; [apply (hol_comp offK offK Kf K1 ub); [apply Kf_hol|apply ub_hol|apply ub_off]|]. intros w Hw. reflexivity. Qed.
Lemma is_hol : hol offK (fun w => / csqrt (1 - w)) (fun w => RtoC (1 / 2) * / (csqrt (1 - w) * csqrt (1 - w) * csqrt (1 - w))).
Proof.
  apply hol_ext' with (f' := fun w => - (/ (2 * csqrt (1 - w)) * (0 - 1)) / (csqrt (1 - w) * csqrt (1 - w))); [apply offK_open| |].
  - intros w Hw. assert (N := offcut_csqrt _ (sb_off w Hw)). cfield. assumption.
  - apply (hol_inv offK (fun w => csqrt (1 - w))); [|intros w Hw; apply offcut_csqrt, sb_off, Hw]. apply (hol_comp offK offcut csqrt (fun z => / (2 * csqrt z)) (fun w => 1 - w) (fun _ => 0 - 1)); [apply hol_csqrt|apply (hol_minus offK (fun _ => RtoC 1)); [apply hol_const|apply hol_id]|apply sb_off].
Qed.
Lemma yb1_th : th offK yb1 yb2.
Proof.
  assert (A : th offK (fun w => K1 (ub w)) (fun w => w * (K2 (ub w) * (RtoC (1 / 4) * / csqrt (1 - w))))).
  { eexists. split; [apply (hol_comp offK offK K1 K2 ub); [apply K1_hol|apply ub_hol|apply ub_off]|reflexivity]. }
  assert (B : th offK (fun w => / csqrt (1 - w)) (fun w => w * (RtoC (1 / 2) * / (csqrt (1 - w) * csqrt (1 - w) * csqrt (1 - w))))) by (eexists; split; [apply is_hol|reflexivity]).
  eapply th_ext; [apply offK_open| | |apply (th_mult offK (fun w => w)); [apply th_id|apply (th_mult offK (fun w => K1 (ub w))); [exact A|apply (th_scal offK (RtoC (1 / 4))); exact B]]]; [reflexivity|].
  intros w Hw. cbv beta. assert (N := offcut_csqrt _ (sb_off w Hw)). assert (S2 := csqrt_sqr (1 - w)). assert (N1 := offcut_neq0 _ (sb_off w Hw)). assert (O := legendre_ode _ (ub_off w Hw)).
  assert (Eu : 4 * (ub w * (1 - ub w)) = w) by (unfold ub; transitivity (1 - csqrt (1 - w) * csqrt (1 - w)); [cfield|rewrite S2; ring]).
  assert (Es : 1 - 2 * ub w = csqrt (1 - w)) by (unfold ub; cfield).
  rewrite Es in O. unfold yb2, rb, yb1, yb. set (k := Kf (ub w)) in *. set (k1 := K1 (ub w)) in *. set (k2 := K2 (ub w)) in *.
  assert (Q : w * k2 = k - 4 * csqrt (1 - w) * k1). { transitivity (4 * (ub w * (1 - ub w) * k2)); [rewrite <- Eu at 1; ring|]. replace (ub w * (1 - ub w) * k2) with (RtoC (1 / 4) * k - csqrt (1 - w) * k1); [cfield|]. apply Csub_0. transitivity (- (ub w * (1 - ub w) * k2 + csqrt (1 - w) * k1 - RtoC (1 / 4) * k)); [ring|rewrite O; ring]. }
  set (s := csqrt (1 - w)) in *. rewrite <- S2. assert (W : w = 1 - s * s) by (rewrite S2; ring).
  transitivity (w * (RtoC (1 / 4) * k1 / s + RtoC (1 / 16) * (w * k2) / (s * s) + RtoC (1 / 8) * w * k1 / (s * s * s))); [clearbody s k k1 k2; clear - N; cfield; assumption|].
  rewrite Q. clearbody s k k1 k2. rewrite W. clear - N. cfield. all: assumption.
Qed.
Lemma rb_th : th offK rb (fun w => w * / ((1 - w) * (1 - w))).
Proof.
  assert (A : th offK (fun w => / (1 - w)) (fun w => w * / ((1 - w) * (1 - w)))).
  { eexists. split; [apply (hol_inv offK (fun w => 1 - w) (fun _ => 0 - 1)); [apply (hol_minus offK (fun _ => RtoC 1)); [apply hol_const|apply hol_id]|intros w Hw; apply offcut_neq0, sb_off, Hw]|]. intros w Hw. assert (N := offcut_neq0 _ (sb_off w Hw)). cbv beta. field. exact N. }
  eapply th_ext; [apply offK_open| | |apply (th_mult offK (fun w => w)); [apply th_id|exact A]]; [reflexivity|]. intros w Hw. assert (N := offcut_neq0 _ (sb_off w Hw)). cbv beta. field. exact N.
Qed.
Lemma Y_ode : exists Y1 Y2 Y3, th offK (fun w => yb w * yb w) Y1 /\ th offK Y1 Y2 /\ th offK Y2 Y3 /\ holo offK Y3 /\
  forall w, offK w -> Y3 w = w * (Y3 w + RtoC (3 / 2) * Y2 w + RtoC (3 / 4) * Y1 w + RtoC (1 / 8) * (yb w * yb w)).
Proof.
  assert (A := yb_th). assert (B := yb1_th). assert (R1 := rb_th).
  assert (T2 : th offK yb2 _) by (apply (th_mult offK rb); [exact R1|apply (th_plus offK (fun w => RtoC (1 / 2) * yb1 w)); [apply th_scal, B|apply th_scal, A]]).
  assert (Z1 := th_mult _ _ _ _ _ A A). assert (Z2 := th_plus _ _ _ _ _ (th_mult _ _ _ _ _ B A) (th_mult _ _ _ _ _ A B)).
  assert (Z3 := th_plus _ _ _ _ _ (th_plus _ _ _ _ _ (th_mult _ _ _ _ _ T2 A) (th_mult _ _ _ _ _ B B)) (th_plus _ _ _ _ _ (th_mult _ _ _ _ _ B B) (th_mult _ _ _ _ _ A T2))).
  assert (Hy := th_holo _ _ _ A). assert (Hy1 := th_holo _ _ _ B). assert (Hy2 := th_holo _ _ _ T2). assert (Hr := th_holo _ _ _ R1).
  assert (Hr1 : holo offK (fun w => w * / ((1 - w) * (1 - w)))).
  { apply (holo_mult offK (fun w => w)); [apply holo_id|]. apply (holo_inv offK (fun w => (1 - w) * (1 - w))); [|intros w Hw; apply Cmult_neq_0; apply offcut_neq0, sb_off, Hw]. assert (H1 : holo offK (fun w => 1 - w)) by (apply (holo_minus offK (fun _ => RtoC 1)); [apply holo_const|apply holo_id]). apply (holo_mult offK (fun w => 1 - w)); exact H1. }
  cbv beta in Z1, Z2, Z3. do 3 eexists. split; [exact Z1|]. split; [exact Z2|]. split; [exact Z3|]. split.
  - assert (S : forall c f, holo offK f -> holo offK (fun w => c * f w)) by (intros c f Hf; apply (holo_mult offK (fun _ => c)); [apply holo_const|exact Hf]).
    assert (Y3 : holo offK (fun w => w * / ((1 - w) * (1 - w)) * (RtoC (1 / 2) * yb1 w + RtoC (1 / 16) * yb w) + rb w * (RtoC (1 / 2) * yb2 w + RtoC (1 / 16) * yb1 w))).
    { apply (holo_plus offK (fun w => w * / ((1 - w) * (1 - w)) * (RtoC (1 / 2) * yb1 w + RtoC (1 / 16) * yb w))).
      - apply (holo_mult offK (fun w => w * / ((1 - w) * (1 - w)))); [exact Hr1|]. apply (holo_plus offK (fun w => RtoC (1 / 2) * yb1 w)); apply S; assumption.
      - apply (holo_mult offK rb); [exact Hr|]. apply (holo_plus offK (fun w => RtoC (1 / 2) * yb2 w)); apply S; assumption. }
    repeat first [assumption | apply holo_plus | apply holo_mult].
  - intros w Hw. cbv beta. assert (N := offcut_neq0 _ (sb_off w Hw)). unfold yb2, rb. generalize (yb w) (yb1 w). intros a b. rewrite ?(RtoC_div 3 4) by lra. clear - N. cfield. all: assumption.
Qed.
Lemma Kf_0 : Kf 0 = RtoC (PI / 2).
Proof.
  apply CInt_val. eapply is_CInt_eq; [apply (is_CInt_ext (fun _ => RtoC 1)); [|apply is_CInt_const]|rewrite Rminus_0_r; ring]. intros t _. replace (1 - 0 * RtoC (sin t * sin t)) with (RtoC 1) by ring. rewrite csqrt_1. field. intros X; apply (f_equal fst) in X; cbn in X; lra.
Qed.
Lemma offK_0 : offK 0. Proof. right. cbn. lra. Qed.
Lemma disc_offK w : disc 0 (1 / 2) w -> offK w.
Proof. unfold disc. intros H. right. assert (A := Cmod_fst (w - 0)). replace (w - 0) with w in * by ring. assert (B := Rle_abs (fst w)). lra. Qed.
Theorem clausen_K w : offK w -> II Kf w = Kf (ub w) * Kf (ub w).
Proof.
  destruct L_ode as (L1 & L2 & L3 & A1 & A2 & A3 & A4 & A5). destruct Y_ode as (Y1 & Y2 & Y3 & B1 & B2 & B3 & B4 & B5).
  set (d := fun w => II Kf w - yb w * yb w).
  assert (H0 : holo offK (II Kf)) by exact (th_holo _ _ _ A1). assert (H1 : holo offK (fun w => yb w * yb w)) by exact (th_holo _ _ _ B1).
  assert (Z : forall u, (Cmod u <= 1 / 4 / 2)%R -> d u = 0).
  { apply (theta3_unique (1 / 2) (1 / 4) ltac:(lra) d (fun w => L1 w - Y1 w) (fun w => L2 w - Y2 w) (fun w => L3 w - Y3 w) (RtoC (1 / 8)) (RtoC (3 / 4)) (RtoC (3 / 2)) 1).
    - apply (th_sub offK); [apply disc_offK|apply th_minus; assumption].
    - apply (th_sub offK); [apply disc_offK|apply th_minus; assumption].
    - apply (th_sub offK); [apply disc_offK|apply th_minus; assumption].
    - apply (holo_sub offK); [apply disc_offK|apply holo_minus; assumption].
    - intros v Hv. apply disc_offK in Hv. cbv beta. rewrite (A5 v Hv), (B5 v Hv) at 1. unfold d. ring.
    - unfold d, yb. replace (ub 0) with (RtoC 0). 2:{ unfold ub. replace (1 - 0 : C) with (RtoC 1) by ring. rewrite csqrt_1. ring. }
      rewrite Kf_0. replace (II Kf 0) with (RtoC (PI / 2) * RtoC (PI / 2)); [ring|]. symmetry. apply CInt_val. eapply is_CInt_eq; [apply (is_CInt_ext (fun _ => RtoC (PI / 2))); [|apply is_CInt_const]|f_equal; f_equal; ring]. intros x _. rewrite Cmult_0_l, Kf_0. reflexivity. }
  intros Hw. apply (identity2 offK (II Kf) (fun w => yb w * yb w) 0 offK_open offK_star offK_0 H0 H1); [|exact Hw].
  intros e He. exists (RtoC (Rmin (e / 2) (1 / 8))). assert (M1 := Rmin_l (e / 2) (1 / 8)). assert (M2 := Rmin_r (e / 2) (1 / 8)). assert (M3 : (0 < Rmin (e / 2) (1 / 8))%R) by (apply Rmin_pos; lra). set (q := Rmin (e / 2) (1 / 8)) in *. split.
  - replace (RtoC q - 0) with (RtoC q) by ring. rewrite Cmod_R, Rabs_pos_eq by lra. lra.
  - apply Z. rewrite Cmod_R, Rabs_pos_eq by lra. lra.
Qed.
