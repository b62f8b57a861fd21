(** * The rectangular lattice: the elliptic integral is the average over the Brillouin zone *)
From Coq Require Import Reals Lra Lia Classical Ratan.
From Coquelicot Require Import Coquelicot.
From Verif Require Import Base CBase CExp CSqrt Lattice_Model Bethe_Proofs Bethe_Main Fourier_Filon LatInt_Spec LatInt_Proofs LatInt_Hilbert LatInt_Fubini LatInt_Square LatInt_Local CAnal CHol CEll.
Local Open Scope C_scope.

(** ** substitution tan(x/2) = r tan f *)
Section Subst.
Variable r : R.
Hypothesis Hr : (0 < r)%R.
Local Open Scope R_scope.
Definition hden (f : R) : R := cos f * cos f + r * (sin f * sin f).
Definition hnum (f : R) : R := cos f * cos f + r * r * (sin f * sin f).
Definition hsub (f : R) : R := 2 * f - 2 * atan ((1 - r) * (sin f * cos f) / hden f).
Lemma sc1 f : sin f * sin f = 1 - cos f * cos f. Proof. assert (H := sin2_cos2 f). unfold Rsqr in H. lra. Qed.
Lemma hden_pos f : 0 < hden f.
Proof. unfold hden. assert (H := sc1 f). rewrite H. destruct (COS_bound f). assert (0 <= cos f * cos f <= 1) by nra. destruct (Rle_dec r 1); nra. Qed.
Lemma hnum_pos f : 0 < hnum f.
Proof. unfold hnum. assert (H := sc1 f). rewrite H. destruct (COS_bound f). assert (0 <= cos f * cos f <= 1) by nra. assert (0 < r * r) by nra. destruct (Rle_dec (r * r) 1); nra. Qed.
Lemma hu1 f : 1 + ((1 - r) * (sin f * cos f) / hden f) * ((1 - r) * (sin f * cos f) / hden f) = hnum f / (hden f * hden f).
Proof.
  assert (D := hden_pos f). apply Rmult_eq_reg_r with (hden f * hden f); [|nra]. replace (hnum f / (hden f * hden f) * (hden f * hden f)) with (hnum f) by (field; lra).
  transitivity (hden f * hden f + (1 - r) * (1 - r) * (sin f * sin f) * (cos f * cos f)); [field; lra|]. unfold hden, hnum. rewrite !sc1. ring.
Qed.
Lemma hsub_der f : is_derive hsub f (2 * r / hnum f).
Proof.
  assert (D := hden_pos f). assert (N := hnum_pos f). unfold hsub.
  evar_last. { apply (is_derive_minus (fun f => 2 * f) (fun f => 2 * atan ((1 - r) * (sin f * cos f) / hden f))); [auto_derive; [trivial|reflexivity]|]. apply is_derive_scal. apply (is_derive_comp atan (fun f => (1 - r) * (sin f * cos f) / hden f)). { apply is_derive_atan. } unfold hden in *. auto_derive; [lra|reflexivity]. }
  unfold minus, plus, opp, scal; cbn. unfold mult; cbn. unfold Rsqr. rewrite hu1. change (cos f * cos f + r * (sin f * sin f)) with (hden f).
  apply Rmult_eq_reg_r with (hnum f); [|lra]. replace (2 * r / hnum f * hnum f) with (2 * r) by (field; lra). unfold Rdiv. 
  field_simplify_eq; [|split; lra]. unfold hden, hnum. ring_simplify. assert (S2 : sin f ^ 2 = 1 - cos f ^ 2) by (assert (X := sc1 f); lra). replace (sin f ^ 4) with (sin f ^ 2 * sin f ^ 2) by ring. rewrite S2. ring.
Qed.
Lemma cos2atan u : cos (2 * atan u) = (1 - u * u) / (1 + u * u) /\ sin (2 * atan u) = 2 * u / (1 + u * u).
Proof.
  assert (P : 0 < 1 + u * u) by nra. assert (Q := sqrt_sqrt (1 + u * u) ltac:(lra)). assert (R := sqrt_lt_R0 _ P).
  rewrite cos_2a, sin_2a, cos_atan, sin_atan. unfold Rsqr. split.
  - transitivity ((1 - u * u) / (sqrt (1 + u * u) * sqrt (1 + u * u))); [field; lra|now rewrite Q].
  - transitivity (2 * u / (sqrt (1 + u * u) * sqrt (1 + u * u))); [field; lra|now rewrite Q].
Qed.
Lemma hsub_cos f : cos (hsub f) = (cos f * cos f - r * r * (sin f * sin f)) / hnum f.
Proof.
  assert (D := hden_pos f). assert (N := hnum_pos f). unfold hsub. rewrite cos_minus. destruct (cos2atan ((1 - r) * (sin f * cos f) / hden f)) as [E1 E2]. rewrite E1, E2, hu1, cos_2a, sin_2a.
  apply Rmult_eq_reg_r with (hnum f); [|lra]. replace ((cos f * cos f - r * r * (sin f * sin f)) / hnum f * hnum f) with (cos f * cos f - r * r * (sin f * sin f)) by (field; lra).
  field_simplify_eq; [|split; lra]. unfold hden. ring_simplify. assert (S2 : sin f ^ 2 = 1 - cos f ^ 2) by (assert (X := sc1 f); lra).
  replace (sin f ^ 4) with (sin f ^ 2 * sin f ^ 2) by ring. replace (sin f ^ 6) with (sin f ^ 2 * sin f ^ 2 * sin f ^ 2) by ring. rewrite S2. ring.
Qed.
Lemma hsub_0 : hsub 0 = 0. Proof. unfold hsub. rewrite sin_0. replace ((1 - r) * (0 * cos 0) / hden 0) with 0 by (unfold Rdiv; ring). rewrite atan_0. ring. Qed.
Lemma hsub_PI2 : hsub (PI / 2) = PI. Proof. unfold hsub. rewrite cos_PI2. replace ((1 - r) * (sin (PI / 2) * 0) / hden (PI / 2)) with 0 by (unfold Rdiv; ring). rewrite atan_0. field. Qed.
End Subst.

(** ** the real integral *)
Section RealInt.
Local Open Scope R_scope.
Variables (x s : R).
Hypothesis (Hs : 0 <= s) (Hx : 1 + s < x).
Let a := x - s - 1. Let b := x - s + 1. Let c := x + s - 1. Let d := x + s + 1.
Lemma real_int kr : is_RInt (fun f => / sqrt (1 - (1 - a * d / (b * c)) * (sin f * sin f))) 0 (PI / 2) kr -> is_RInt (fun t => / sqrt ((x - cos t) * (x - cos t) - s * s)) 0 PI (2 / sqrt (b * c) * kr).
Proof.
  intros I. assert (HP := PI_RGT_0). assert (Ha : 0 < a) by (unfold a; lra). assert (Hb : 0 < b) by (unfold b; lra). assert (Hc : 0 < c) by (unfold c; lra). assert (Hd : 0 < d) by (unfold d; lra).
  set (r := sqrt (a / b)). assert (Hr : 0 < r) by (apply sqrt_lt_R0, Rdiv_lt_0_compat; assumption). assert (Rr : r * r = a / b) by (apply sqrt_sqrt; left; apply Rdiv_lt_0_compat; assumption).
  assert (FP : forall t, 0 < (x - cos t) * (x - cos t) - s * s). { intros t. destruct (COS_bound t). replace ((x - cos t) * (x - cos t) - s * s) with ((x - cos t - s) * (x - cos t + s)) by ring. apply Rmult_lt_0_compat; lra. }
  assert (FC : forall t, continuous (fun t => / sqrt ((x - cos t) * (x - cos t) - s * s)) t).
  { intros t. apply (ex_derive_continuous (fun t => / sqrt ((x - cos t) * (x - cos t) - s * s))). auto_derive. assert (P := FP t). repeat split; try lra; apply Rgt_not_eq, sqrt_lt_R0; lra. }
  assert (X := is_RInt_comp (fun t => / sqrt ((x - cos t) * (x - cos t) - s * s)) (hsub r) (fun f => 2 * r / hnum r f) 0 (PI / 2)). rewrite hsub_0, hsub_PI2 in X.
  specialize (X ltac:(intros; apply FC)). assert (Y : is_RInt (fun y => scal (2 * r / hnum r y) (/ sqrt ((x - cos (hsub r y)) * (x - cos (hsub r y)) - s * s))) 0 (PI / 2) (RInt (fun t => / sqrt ((x - cos t) * (x - cos t) - s * s)) 0 PI)).
  { apply X. intros f _. split; [apply hsub_der, Hr|]. apply (ex_derive_continuous (fun f => 2 * r / hnum r f)). assert (N := hnum_pos r Hr f). unfold hnum in *. auto_derive. lra. }
  assert (Z : is_RInt (fun t => / sqrt ((x - cos t) * (x - cos t) - s * s)) 0 PI (RInt (fun t => / sqrt ((x - cos t) * (x - cos t) - s * s)) 0 PI)).
  { apply (RInt_correct (V := R_CompleteNormedModule)). apply (ex_RInt_continuous (V := R_CompleteNormedModule)). intros; apply FC. }
  replace (2 / sqrt (b * c) * kr) with (RInt (fun t => / sqrt ((x - cos t) * (x - cos t) - s * s)) 0 PI); [exact Z|].
  assert (W := is_RInt_scal _ 0 (PI / 2) (2 / sqrt (b * c)) kr I). assert (U := is_RInt_unique _ _ _ _ W). assert (V := is_RInt_unique _ _ _ _ Y). change (2 / sqrt (b * c) * kr) with (scal (2 / sqrt (b * c)) kr). rewrite <- U, <- V. apply RInt_ext. intros f _.
  unfold scal; cbn. unfold mult; cbn. rewrite (hsub_cos r Hr). assert (N := hnum_pos r Hr f). set (N0 := hnum r f) in *.
  assert (E : (x - (cos f * cos f - r * r * (sin f * sin f)) / N0) * (x - (cos f * cos f - r * r * (sin f * sin f)) / N0) - s * s = a * c * (1 - (1 - a * d / (b * c)) * (sin f * sin f)) / (N0 * N0)).
  { apply Rmult_eq_reg_r with (N0 * N0); [|nra]. replace (a * c * (1 - (1 - a * d / (b * c)) * (sin f * sin f)) / (N0 * N0) * (N0 * N0)) with (a * c * (1 - (1 - a * d / (b * c)) * (sin f * sin f))) by (field; lra).
    transitivity ((x * N0 - s * N0 - (cos f * cos f - r * r * (sin f * sin f))) * (x * N0 + s * N0 - (cos f * cos f - r * r * (sin f * sin f)))); [field; lra|]. unfold N0, hnum. rewrite Rr, (sc1 f). unfold a, b, c, d in *. field. repeat split; lra. }
  rewrite E. set (q := 1 - (1 - a * d / (b * c)) * (sin f * sin f)). assert (Q0 : 0 < q).
  { unfold q. rewrite sc1. destruct (COS_bound f). assert (0 <= cos f * cos f <= 1) by nra. assert (0 < a * d / (b * c)) by (apply Rdiv_lt_0_compat; apply Rmult_lt_0_compat; assumption).
    replace (1 - (1 - a * d / (b * c)) * (1 - cos f * cos f)) with (cos f * cos f + a * d / (b * c) * (1 - cos f * cos f)) by ring. destruct (Rle_dec (cos f * cos f) (1 / 2)); nra. }
  assert (SE : sqrt (a * c * q / (N0 * N0)) = sqrt a * sqrt c * sqrt q / N0).
  { replace (a * c * q / (N0 * N0)) with ((sqrt a * sqrt c * sqrt q / N0) * (sqrt a * sqrt c * sqrt q / N0)). - apply sqrt_square. left. apply Rdiv_lt_0_compat; [|exact N]. repeat apply Rmult_lt_0_compat; apply sqrt_lt_R0; assumption.
    - rewrite <- (sqrt_sqrt a) at 3 by lra. rewrite <- (sqrt_sqrt c) at 3 by lra. rewrite <- (sqrt_sqrt q) at 3 by lra. field. lra. }
  rewrite SE. unfold r. rewrite sqrt_div_alt by exact Hb. rewrite sqrt_mult_alt by lra.
  assert (A1 := sqrt_lt_R0 a Ha). assert (B1 := sqrt_lt_R0 b Hb). assert (C1 := sqrt_lt_R0 c Hc). assert (Q1 := sqrt_lt_R0 q Q0). field. repeat split; lra.
Qed.
End RealInt.

(** ** the integral over one wave vector: iota w q = 1 / sqrt (w^2 - q), with the root that behaves as w at infinity *)
Definition iden (w q : C) : C := w * csqrt (1 - q / (w * w)).
Definition iota (w q : C) : C := / iden w q.
Definition good (w q : C) : Prop := w <> 0 /\ offcut (1 - q / (w * w)).
Lemma iden_neq0 w q : good w q -> iden w q <> 0.
Proof. intros [N O]. apply Cmult_neq_0; [exact N|apply offcut_csqrt, O]. Qed.
Lemma iden_sqr w q : good w q -> iden w q * iden w q = w * w - q.
Proof. intros [N O]. unfold iden. transitivity (w * w * (csqrt (1 - q / (w * w)) * csqrt (1 - q / (w * w)))); [ring|]. rewrite csqrt_sqr. field. exact N. Qed.
Lemma is_cderive_eq f z a b : is_cderive f z a -> a = b -> is_cderive f z b. Proof. now intros H <-. Qed.
Lemma iota_der w q : good w q -> is_cderive (fun w => iota w q) w (- w / (iden w q * iden w q * iden w q)).
Proof.
  intros G. assert (ND := iden_neq0 w q G). assert (SD := iden_sqr w q G). destruct G as [N O]. assert (NS := offcut_csqrt _ O). assert (NW : w * w <> 0) by (apply Cmult_neq_0; exact N).
  assert (D : is_cderive (fun w => iden w q) w (w / iden w q)).
  { eapply is_cderive_eq; [apply (is_cderive_mul (fun w => w) (fun w => csqrt (1 - q / (w * w)))); [apply is_cderive_id|]|].
    - apply (is_cderive_comp csqrt (fun w => 1 - q / (w * w))); [|apply is_cderive_csqrt, O]. apply (is_cderive_sub (fun _ => 1)); [apply is_cderive_const|]. apply (is_cderive_scal (fun w => / (w * w)) q). apply (is_cderive_inv (fun w => w * w)); [|exact NW]. apply (is_cderive_mul (fun w => w) (fun w => w)); apply is_cderive_id.
    - cbv beta. unfold iden in *. set (S := csqrt _) in *. assert (SS : S * S = 1 - q / (w * w)) by apply csqrt_sqr. apply Csub_0. transitivity ((S * S - (1 - q / (w * w))) / S); [cfield; try assumption|rewrite SS; field; split; assumption]. }
  unfold iota. eapply is_cderive_eq; [apply (is_cderive_inv (fun w => iden w q)); [exact D|exact ND]|]. field. exact ND.
Qed.
Lemma iden_ccr (W Q : C -> R -> C) z t : good (W z t) (Q z t) -> ccr W z t -> ccr Q z t -> ccr (fun z t => iden (W z t) (Q z t)) z t.
Proof.
  intros [N O] HW HQ. apply ccr_mult; [exact HW|]. apply (ccr_comp csqrt (fun z t => 1 - Q z t / (W z t * W z t))); [eapply hol_ccat; [apply hol_csqrt|exact O]|]. apply (ccr_minus (fun _ _ => 1)); [apply ccr_const|]. apply (ccr_mult Q (fun z t => / (W z t * W z t))); [exact HQ|].
  apply (ccr_inv (fun z t => W z t * W z t)); [apply Cmult_neq_0; exact N|now apply ccr_mult].
Qed.
Lemma hol_iota U q : opn U -> (forall w, U w -> good w q) -> hol U (fun w => iota w q) (fun w => - w / (iden w q * iden w q * iden w q)).
Proof.
  intros O G w Hw. assert (Gw := G w Hw). split; [apply iota_der, Gw|]. assert (N := iden_neq0 w q Gw).
  assert (CI : ccat (fun w => iden w q) w) by (apply (ccr_at (fun w _ => iden w q) w 0), (iden_ccr (fun w _ => w) (fun _ _ => q)); [exact Gw|apply ccr_m|apply ccr_const]).
  apply (ccat_mult (fun w => - w) (fun w => / (iden w q * iden w q * iden w q))); [apply ccat_opp, ccat_id|]. apply (ccat_minv (fun w => iden w q * iden w q * iden w q)); [apply Cmult_neq_0; [apply Cmult_neq_0|]; exact N|]. apply (ccat_mult (fun w => iden w q * iden w q) (fun w => iden w q)); [apply (ccat_mult (fun w => iden w q) (fun w => iden w q))|]; exact CI.
Qed.
(** ** averages of iota over one wave vector are holomorphic *)
Section Avg.
Variables (U : C -> Prop) (q : R -> R) (a b : R).
Hypothesis (OU : opn U) (Hq : forall t, continuous q t) (Hab : (a <= b)%R).
Hypothesis HG : forall z t, U z -> good (z - RtoC (cos t)) (RtoC (q t)).
Definition ker (z : C) (t : R) : C := iota (z - RtoC (cos t)) (RtoC (q t)).
Lemma cos_ccont t : ccont (fun t => RtoC (cos t)) t. Proof. apply ccont_R, continuity_pt_filterlim, continuity_cos. Qed.
Lemma w_ccr z t : ccr (fun z t => z - RtoC (cos t)) z t.
Proof. apply (ccr_minus (fun z _ => z) (fun _ t => RtoC (cos t))); [apply ccr_m|apply (ccr_2 (fun t => RtoC (cos t))), cos_ccont]. Qed.
Lemma d_ccr z t : U z -> ccr (fun z t => iden (z - RtoC (cos t)) (RtoC (q t))) z t.
Proof. intros Hz. apply (iden_ccr (fun z t => z - RtoC (cos t)) (fun _ t => RtoC (q t))); [apply HG, Hz|apply w_ccr|]. apply (ccr_2 (fun t => RtoC (q t))), ccont_R, Hq. Qed.
Lemma ker_ccr z t : U z -> ccr ker z t.
Proof. intros Hz. apply (ccr_inv (fun z t => iden (z - RtoC (cos t)) (RtoC (q t)))); [apply iden_neq0, HG, Hz|apply d_ccr, Hz]. Qed.
Lemma ker_cont z t : U z -> ccont (ker z) t. Proof. intros Hz. apply ccr_slice, ker_ccr, Hz. Qed.
Lemma avg_hol : exists A', hol U (fun z => CInt (ker z) a b) A'.
Proof.
  set (D := fun (z : C) (t : R) => iden (z - RtoC (cos t)) (RtoC (q t))).
  exists (fun z => CInt (fun t => - (z - RtoC (cos t)) / (D z t * D z t * D z t)) a b). apply (param_hol U ker (fun z t => - (z - RtoC (cos t)) / (D z t * D z t * D z t))); [exact OU|exact Hab| |intros; now apply ker_cont|].
  - intros z t Hz. eapply is_cderive_eq; [apply (is_cderive_comp (fun w => iota w (RtoC (q t))) (fun z => z - RtoC (cos t))); [apply (is_cderive_sub (fun z => z)); [apply is_cderive_id|apply is_cderive_const]|apply iota_der, HG, Hz]|]. unfold D. ring.
  - intros z t Hz. assert (N : D z t <> 0) by (apply iden_neq0, HG, Hz). assert (CD : ccr D z t) by (apply d_ccr, Hz). apply (ccr_mult (fun z t => - (z - RtoC (cos t))) (fun z t => / (D z t * D z t * D z t))); [apply ccr_opp, w_ccr|].
    apply (ccr_inv (fun z t => D z t * D z t * D z t)); [apply Cmult_neq_0; [apply Cmult_neq_0|]; exact N|]. apply (ccr_mult (fun z t => D z t * D z t) D); [apply (ccr_mult D D)|]; exact CD.
Qed.
Lemma ker_int z : U z -> is_CInt (ker z) a b (CInt (ker z) a b). Proof. intros Hz. apply CInt_ok. intros t _. now apply ker_cont. Qed.
End Avg.
Lemma good_band (s : R) (w : C) : (0 <= s)%R -> w <> 0 -> off_band s w -> good w (RtoC (s * s)).
Proof.
  intros Hs N O. split; [exact N|]. destruct (Req_EM_T s 0) as [-> | Ns].
  - right. replace (1 - RtoC (0 * 0) / (w * w)) with (RtoC 1) by (rewrite Rmult_0_l; field; exact N). cbn. lra.
  - assert (P := param_off s ltac:(lra) w O). apply offK_1m. replace (RtoC (s * s) / (w * w)) with (RtoC s / w * (RtoC s / w)) by (rewrite RtoC_mult; field; exact N). exact P.
Qed.
Lemma iota_real (w q : R) : (0 < w)%R -> (q < w * w)%R -> iota (RtoC w) (RtoC q) = RtoC (/ sqrt (w * w - q)).
Proof.
  intros Hw H. unfold iota, iden. assert (W2 : (0 < w * w)%R) by nra. rewrite <- RtoC_mult, <- RtoC_div, <- RtoC_minus by lra. assert (P : (0 < 1 - q / (w * w))%R).
  { replace (1 - q / (w * w))%R with ((w * w - q) / (w * w))%R by (field; lra). apply Rdiv_lt_0_compat; lra. }
  rewrite csqrt_R, <- RtoC_mult by lra. assert (Q := sqrt_lt_R0 _ P). rewrite <- RtoC_inv by nra. f_equal. f_equal. replace (w * w - q)%R with ((w * sqrt (1 - q / (w * w))) * (w * sqrt (1 - q / (w * w))))%R; [rewrite sqrt_square by nra; reflexivity|].
  transitivity (w * w * (sqrt (1 - q / (w * w)) * sqrt (1 - q / (w * w))))%R; [ring|]. rewrite sqrt_sqrt by lra. field. lra.
Qed.
(** the one-dimensional integral at real arguments above the band, for the full period *)
Lemma real_full (x s : R) : (0 <= s)%R -> (1 + s < x)%R ->
  is_CInt (fun t => iota (RtoC x - RtoC (cos t)) (RtoC (s * s))) (- PI) PI (4 * iota (RtoC x) (RtoC ((s - 1) * (s - 1))) * Kf (RtoC (4 * s / (x * x - (s - 1) * (s - 1))))).
Proof.
  intros Hs Hx. assert (HP := PI_RGT_0). assert (BC : (0 < x * x - (s - 1) * (s - 1))%R) by (replace (x * x - (s - 1) * (s - 1))%R with ((x - s + 1) * (x + s - 1))%R by ring; apply Rmult_lt_0_compat; lra).
  set (m := (4 * s / (x * x - (s - 1) * (s - 1)))%R). assert (M1 : (m < 1)%R). { unfold m. apply Rmult_lt_reg_r with (x * x - (s - 1) * (s - 1))%R; [exact BC|]. unfold Rdiv. rewrite Rmult_assoc, Rinv_l by lra. nra. }
  assert (Ok : offK (RtoC m)) by (right; exact M1). destruct (Kf_is _ Ok) as [I _].
  assert (ME : m = (1 - (x - s - 1) * (x + s + 1) / ((x - s + 1) * (x + s - 1)))%R). { unfold m. replace ((x - s + 1) * (x + s - 1))%R with (x * x - (s - 1) * (s - 1))%R by ring. field. lra. }
  assert (QP : forall f, (0 < 1 - m * (sin f * sin f))%R). { intros f. destruct (sin2_range f). destruct (Rle_dec m 0); nra. }
  assert (I2 : is_RInt (fun f => / sqrt (1 - (1 - (x - s - 1) * (x + s + 1) / ((x - s + 1) * (x + s - 1))) * (sin f * sin f)))%R 0 (PI / 2) (fst (Kf (RtoC m)))).
  { apply is_RInt_ext with (2 := I). intros f _. rewrite <- ME, <- RtoC_mult, <- RtoC_minus, csqrt_R by (left; apply QP). assert (P := sqrt_lt_R0 _ (QP f)). rewrite <- RtoC_div by lra. cbn. field. lra. }
  assert (KR : Kf (RtoC m) = RtoC (fst (Kf (RtoC m)))). { assert (X := Kf_conj (RtoC m) Ok). replace (Cconj (RtoC m)) with (RtoC m) in X by (apply C_ext; cbn; ring). apply (f_equal snd) in X. cbn [snd Cconj] in X. apply C_ext; cbn [fst snd RtoC]; [reflexivity|lra]. }
  assert (R := real_int x s Hs Hx _ I2). apply is_CInt_R in R.
  assert (E0 : forall t, iota (RtoC x - RtoC (cos t)) (RtoC (s * s)) = RtoC (/ sqrt ((x - cos t) * (x - cos t) - s * s))). { intros t. rewrite <- RtoC_minus. destruct (COS_bound t). apply iota_real; [lra|nra]. }
  assert (E1 : iota (RtoC x) (RtoC ((s - 1) * (s - 1))) = RtoC (/ sqrt ((x - s + 1) * (x + s - 1)))). { rewrite iota_real; [do 3 f_equal; ring|lra|lra]. }
  assert (H1 : is_CInt (fun t => iota (RtoC x - RtoC (cos t)) (RtoC (s * s))) 0 PI (2 * iota (RtoC x) (RtoC ((s - 1) * (s - 1))) * Kf (RtoC m))).
  { eapply is_CInt_eq; [apply is_CInt_ext with (2 := R); intros t _; symmetry; apply E0|]. rewrite E1, KR. unfold Rdiv. rewrite !RtoC_mult. reflexivity. }
  assert (H2 := is_CInt_opp_var _ _ _ _ H1). rewrite Ropp_0 in H2.
  eapply is_CInt_eq; [eapply is_CInt_chasles; [apply is_CInt_ext with (2 := H2); intros t _; cbv beta; now rewrite cos_neg|exact H1]|]. cring.
Qed.

(** ** extension to all frequencies off the band *)
Lemma right_open (x : R) : opn (fun z => snd z <> 0%R \/ (x < fst z)%R). Proof. apply opn_or; [apply off_real_open|apply half_open_re']. Qed.
Lemma right_star (x p : R) : (x < p)%R -> star (fun z => snd z <> 0%R \/ (x < fst z)%R) (RtoC p).
Proof.
  intros Hp q s Hq Hs. cbn. destruct (Req_EM_T s 0) as [-> | N]; [right; lra|].
  destruct (Req_EM_T (snd q) 0) as [E|E]; [right|left; replace (0 + (s * (snd q + - 0) + 0 * (fst q + - p)))%R with (s * snd q)%R by ring; now apply Rmult_integral_contrapositive_currified].
  destruct Hq as [H|H]; [contradiction|]. rewrite E. nra.
Qed.
Lemma accum_real (f : C -> C) (p r : R) : (0 < r)%R -> (forall x, (Rabs (x - p) < r)%R -> f (RtoC x) = 0) -> accum f (RtoC p).
Proof.
  intros Hr H d Hd. set (h := (Rmin r d / 2)%R). assert (M1 := Rmin_l r d). assert (M2 := Rmin_r r d). assert (Hm : (0 < Rmin r d)%R) by (apply Rmin_pos; assumption). assert (Hh : (0 < h)%R) by (unfold h; lra).
  exists (RtoC (p + h)). rewrite <- RtoC_minus, Cmod_R. replace (p + h - p)%R with h by ring. rewrite Rabs_pos_eq by lra. split; [unfold h in *; lra|]. apply H. replace (p + h - p)%R with h by ring. rewrite Rabs_pos_eq by lra. unfold h in *. lra.
Qed.
Section Rect.
Variable s : R.
Hypothesis Hs : (0 <= s)%R.
Definition rectU (z : C) : Prop := snd z <> 0%R \/ (1 + s < fst z)%R.
Lemma good_k (z : C) t : off_band (1 + s) z -> good (z - RtoC (cos t)) (RtoC (s * s)).
Proof.
  intros O. assert (OB : off_band s (z - RtoC (cos t))). { destruct O as [H|H]; [left|right]; cbn. - intros E; apply H. revert E. generalize (snd z). intros; lra. - destruct (COS_bound t). revert H. unfold Rabs. repeat destruct Rcase_abs; lra. }
  apply good_band; [exact Hs| |exact OB]. intros E. rewrite E in OB. destruct OB as [H|H]; cbn in H; [lra|rewrite Rabs_R0 in H; lra].
Qed.
Lemma good_z (z : C) : off_band (1 + s) z -> good z (RtoC ((s - 1) * (s - 1))).
Proof.
  intros O. replace ((s - 1) * (s - 1))%R with (Rabs (s - 1) * Rabs (s - 1))%R by (rewrite <- Rabs_mult; apply Rabs_pos_eq, Rle_0_sqr). apply good_band; [apply Rabs_pos| |].
  - apply (off_band_neq0 (1 + s)); [lra|exact O].
  - destruct O as [H|H]; [left; exact H|right]. eapply Rle_lt_trans; [|exact H]. unfold Rabs; destruct Rcase_abs; lra.
Qed.
Lemma den_neq0 (z : C) : off_band (1 + s) z -> z * z - RtoC ((s - 1) * (s - 1)) <> 0.
Proof. intros O. assert (G := good_z z O). rewrite <- (iden_sqr _ _ G). apply Cmult_neq_0; apply iden_neq0, G. Qed.
Lemma rect_param (z : C) : off_band (1 + s) z -> offK (RtoC (4 * s) / (z * z - RtoC ((s - 1) * (s - 1)))).
Proof.
  intros O. assert (N := den_neq0 z O). set (m := RtoC (4 * s) / (z * z - RtoC ((s - 1) * (s - 1)))). destruct (Req_EM_T (snd m) 0) as [E|E]; [right|left; exact E].
  destruct (Rlt_dec (fst m) 1) as [H|H]; [exact H|exfalso]. assert (Em : m * (z * z - RtoC ((s - 1) * (s - 1))) = RtoC (4 * s)) by (unfold m; field; exact N). clearbody m. clear N.
  destruct m as [r i]. cbn [fst snd] in *. subst i. destruct z as [x y]. assert (E1 := f_equal fst Em). assert (E2 := f_equal snd Em). cbn in E1, E2. unfold off_band in O. cbn [fst snd] in O.
  assert (XY : (x * y = 0)%R) by nra. destruct (Req_dec y 0) as [Y|Y].
  - destruct O as [Q|Q]; [contradiction|]. subst y. assert ((1 + s) * (1 + s) < x * x)%R; [|nra]. rewrite <- (Rabs_pos_eq (x * x)), Rabs_mult by nra. assert (P := Rabs_pos x). nra.
  - assert (X : x = 0%R) by (apply Rmult_integral in XY; destruct XY; [assumption|contradiction]). subst x. assert (0 < y * y)%R by (apply Rsqr_pos_lt, Y). assert (0 <= (s - 1) * (s - 1))%R by apply Rle_0_sqr. clear Em E2 XY. assert (1 <= r)%R by lra. nra.
Qed.
Lemma rectU_off z : rectU z -> off_band (1 + s) z.
Proof. intros [H|H]; [left; exact H|right]. eapply Rlt_le_trans; [exact H|apply Rle_abs]. Qed.
Definition rrhs (z : C) : C := 4 * iota z (RtoC ((s - 1) * (s - 1))) * Kf (RtoC (4 * s) / (z * z - RtoC ((s - 1) * (s - 1)))).
Lemma rrhs_hol : exists r', hol rectU rrhs r'.
Proof.
  assert (OU : opn rectU) by apply right_open. eexists. unfold rrhs. apply (hol_mult rectU (fun z => 4 * iota z (RtoC ((s - 1) * (s - 1))))).
  - apply (hol_mult rectU (fun _ => 4)); [apply hol_const|]. apply hol_iota; [exact OU|]. intros w Hw. apply good_z, rectU_off, Hw.
  - apply (hol_comp rectU offK Kf K1 (fun z => RtoC (4 * s) / (z * z - RtoC ((s - 1) * (s - 1))))); [apply Kf_hol| |intros w Hw; apply rect_param, rectU_off, Hw].
    eapply (hol_mult rectU (fun _ => RtoC (4 * s)) _ (fun z => / (z * z - RtoC ((s - 1) * (s - 1))))); [apply hol_const|]. apply (hol_inv rectU (fun z => z * z - RtoC ((s - 1) * (s - 1)))); [|intros w Hw; apply den_neq0, rectU_off, Hw].
    apply (hol_minus rectU (fun z => z * z)); [eapply (hol_mult rectU (fun z => z) _ (fun z => z)); apply hol_id|apply hol_const].
Qed.
Definition rq (t : R) : R := (s * s)%R.
Lemma rect_right z : rectU z -> CInt (ker rq z) (- PI) PI = rrhs z.
Proof.
  intros Hz. assert (HP := PI_RGT_0). assert (OU : opn rectU) by apply right_open. destruct (avg_hol rectU rq (- PI) PI OU ltac:(intros; apply continuous_const) ltac:(lra) ltac:(intros w t Hw; apply good_k, rectU_off, Hw)) as (A' & HA). destruct rrhs_hol as (R' & HR).
  apply Csub_0. apply (identity rectU (fun z => CInt (ker rq z) (- PI) PI - rrhs z) (fun z => A' z - R' z) (RtoC (2 + s))); [exact OU|apply right_star; lra|apply hol_minus; assumption| |right; cbn; lra|exact Hz].
  apply (accum_real _ (2 + s) 1); [lra|]. intros x Hx. apply Rabs_lt_between in Hx. assert (I := real_full x s Hs ltac:(lra)). apply CInt_val in I. unfold ker, rq, rrhs. rewrite I. rewrite RtoC_div, RtoC_minus, (RtoC_mult x x); [ring|].
  replace (x * x - (s - 1) * (s - 1))%R with ((x - s + 1) * (x + s - 1))%R by ring. apply Rgt_not_eq, Rmult_lt_0_compat; lra.
Qed.
Lemma iota_odd (w q : C) : iota (- w) q = - iota w q.
Proof. unfold iota, iden. replace (- w * - w) with (w * w) by ring. destruct (Ceq_dec (w * csqrt (1 - q / (w * w))) 0) as [E|N].
  - replace (- w * csqrt (1 - q / (w * w))) with (- (w * csqrt (1 - q / (w * w)))) by ring. rewrite E. apply C_ext; cbn; unfold Rdiv; ring.
  - set (x := w * csqrt (1 - q / (w * w))) in *. replace (- w * csqrt (1 - q / (w * w))) with (- x) by (unfold x; ring). field. split; [exact N|]. intros E; apply N. replace x with (- - x) by ring. rewrite E. ring.
Qed.
Lemma cos_2PI t : cos (t + 2 * PI) = cos t. Proof. replace (2 * PI)%R with (2 * INR 1 * PI)%R by (cbn; ring). apply cos_period. Qed.
Lemma rect_all z : off_band (1 + s) z -> is_CInt (ker rq z) (- PI) PI (rrhs z).
Proof.
  intros O. assert (HP := PI_RGT_0). assert (GK : forall w, off_band (1 + s) w -> forall t, ccont (ker rq w) t).
  { intros w Hw t. apply ccr_slice. apply (ker_ccr (fun v => v = w \/ False) rq); [intros; apply continuous_const|intros v t' [-> | []]; apply good_k, Hw|now left]. }
  assert (RU : forall w, rectU w -> is_CInt (ker rq w) (- PI) PI (rrhs w)). { intros w Hw. rewrite <- (rect_right w Hw). apply CInt_ok. intros t _. apply GK, rectU_off, Hw. }
  destruct (Req_EM_T (snd z) 0) as [E|E]; [|apply RU; left; exact E]. destruct (Rlt_dec (1 + s) (fst z)) as [H|H]; [apply RU; right; exact H|].
  assert (HM : rectU (- z)). { right. cbn. destruct O as [X|X]; [contradiction|]. revert X. unfold Rabs. destruct Rcase_abs; lra. }
  assert (I := is_CInt_shift _ _ _ _ PI (RU _ HM)). replace (- PI + PI)%R with 0%R in I by ring. replace (PI + PI)%R with (0 + 2 * PI)%R in I by ring.
  assert (I2 : is_CInt (ker rq z) 0 (0 + 2 * PI) (rrhs z)).
  { eapply is_CInt_eq; [apply is_CInt_ext with (2 := is_CInt_scal (- (1)) _ _ _ _ I)|].
    - intros t _. unfold ker. replace (- z - RtoC (cos (t - PI))) with (- (z - RtoC (cos t))); [rewrite iota_odd; unfold rq; ring|]. rewrite cos_minus, cos_PI, sin_PI. replace (cos t * -1 + sin t * 0)%R with (- cos t)%R by ring. rewrite RtoC_opp. ring.
    - unfold rrhs. rewrite iota_odd. replace (- z * - z) with (z * z) by ring. cring. }
  replace PI with (- PI + 2 * PI)%R at 2 by ring. apply (periodic_any _ (2 * PI) 0 (- PI)); [intros t; apply GK, O| |exact I2].
  intros t. unfold ker, rq. now rewrite cos_2PI.
Qed.
End Rect.
