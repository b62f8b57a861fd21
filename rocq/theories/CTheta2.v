(** * Euler operators: further rules, a two-step recursion, squares of solutions of equations of second order *)
From Coq Require Import Reals Lra Lia.
From Coquelicot Require Import Coquelicot.
From Verif Require Import Base CBase CExp CSqrt Bethe_Proofs Bethe_Main Fourier_Filon LatInt_Spec LatInt_Proofs LatInt_Hilbert LatInt_Fubini LatInt_Square LatInt_Legendre CAnal CHol CEll CHolo CTheta LatRect_Proofs LatBcc_Proofs.
Local Open Scope C_scope.

Lemma th_holo' U f g : opn U -> th U f g -> holo U g.
Proof.
  intros O (f' & A & B). apply (holo_ext U (fun w => w * f' w)); [exact O|intros w Hw; symmetry; apply B, Hw|]. apply (holo_mult U (fun w => w)); [apply holo_id|]. exists (cD f'). apply (hol_derive U f); assumption.
Qed.
Lemma th_val (U : C -> Prop) f g h : (forall w, U w -> g w = h w) -> th U f g -> th U f h.
Proof. intros E (f' & A & B). exists f'. split; [exact A|]. intros w Hw. rewrite <- E by exact Hw. apply B, Hw. Qed.
Lemma th_comp (U V : C -> Prop) F G p mu : th V F G -> th U p (fun w => mu w * p w) -> (forall w, U w -> V (p w)) -> th U (fun w => F (p w)) (fun w => mu w * G (p w)).
Proof.
  intros (F' & A & B) (p' & P & Q) H. exists (fun w => F' (p w) * p' w). split; [apply (hol_comp U V F F' p p'); assumption|]. intros w Hw. rewrite (B _ (H w Hw)).
  transitivity (F' (p w) * (mu w * p w)); [ring|]. rewrite (Q w Hw). ring.
Qed.
Lemma th_inv U (f f1 : C -> C) : th U f f1 -> (forall w, U w -> f w <> 0) -> th U (fun w => / f w) (fun w => - f1 w / (f w * f w)).
Proof. intros (f' & A & B) N. eexists. split; [apply (hol_inv U f f'); assumption|]. intros w Hw. assert (X := N w Hw). cbv beta. rewrite (B w Hw). field. exact X. Qed.
Lemma th_csqrt U (f f1 : C -> C) : th U f f1 -> (forall w, U w -> offcut (f w)) -> th U (fun w => csqrt (f w)) (fun w => f1 w / (2 * csqrt (f w))).
Proof.
  intros (f' & A & B) N. eexists. split; [apply (hol_comp U offcut csqrt (fun z => / (2 * csqrt z)) f f'); [apply hol_csqrt|exact A|exact N]|]. intros w Hw. assert (X := offcut_csqrt _ (N w Hw)). cbv beta. rewrite (B w Hw). cfield. exact X.
Qed.
(** c theta^3 d = w A(theta) d + w^2 B(theta) d and d(0) = 0 *)
Section Coef2.
Variables (r rho : R).
Hypothesis Hr : (0 < rho < r)%R.
Notation E := (circ rho).
Notation D := (disc 0 r).
Lemma theta3_unique2 (d0 d1 d2 d3 : C -> C) (c a0 a1 a2 a3 b0 b1 b2 b3 : C) : c <> 0 -> th D d0 d1 -> th D d1 d2 -> th D d2 d3 ->
  (forall w, D w -> c * d3 w = w * (a3 * d3 w + a2 * d2 w + a1 * d1 w + a0 * d0 w) + w * w * (b3 * d3 w + b2 * d2 w + b1 * d1 w + b0 * d0 w)) -> d0 0 = 0 -> forall u, (Cmod u <= rho / 2)%R -> d0 u = 0.
Proof.
  intros Nc T0 T1 T2 ODE Z. assert (H0 := th_holo _ _ _ T0). assert (H1 := th_holo _ _ _ T1). assert (H2 := th_holo _ _ _ T2). assert (H3 := th_holo' _ _ _ (disc_open 0 r) T2). apply (coef_all r rho Hr); [exact H0|].
  assert (C1 : forall n, coef d1 0 rho n = RtoC (INR n) * coef d0 0 rho n) by (intros n; apply (coef_th r rho Hr); assumption).
  assert (C2 : forall n, coef d2 0 rho n = RtoC (INR n) * coef d1 0 rho n) by (intros n; apply (coef_th r rho Hr); assumption).
  assert (C3 : forall n, coef d3 0 rho n = RtoC (INR n) * coef d2 0 rho n) by (intros n; apply (coef_th r rho Hr); assumption).
  set (A := fun w => a3 * d3 w + a2 * d2 w + a1 * d1 w + a0 * d0 w). set (B := fun w => b3 * d3 w + b2 * d2 w + b1 * d1 w + b0 * d0 w).
  assert (lin : forall e3 e2 e1 e0 n, is_CInt (fun t => (e3 * d3 (0 + E t) + e2 * d2 (0 + E t) + e1 * d1 (0 + E t) + e0 * d0 (0 + E t)) * Cpow (/ E t) n) 0 (2 * PI) (e3 * coef d3 0 rho n + e2 * coef d2 0 rho n + e1 * coef d1 0 rho n + e0 * coef d0 0 rho n)).
  { intros e3 e2 e1 e0 n. apply is_CInt_ext with (2 := is_CInt_plus _ _ _ _ _ _ (is_CInt_plus _ _ _ _ _ _ (is_CInt_plus _ _ _ _ _ _ (is_CInt_scal e3 _ _ _ _ (coef_int r rho Hr d3 n H3)) (is_CInt_scal e2 _ _ _ _ (coef_int r rho Hr d2 n H2))) (is_CInt_scal e1 _ _ _ _ (coef_int r rho Hr d1 n H1))) (is_CInt_scal e0 _ _ _ _ (coef_int r rho Hr d0 n H0))). intros t _. cbv beta. ring. }
  assert (Bh : holo D (fun w => w * B w)).
  { apply (holo_mult D (fun w => w)); [apply holo_id|]. assert (S : forall k f, holo D f -> holo D (fun w => k * f w)) by (intros k f Hf; apply (holo_mult D (fun _ => k)); [apply holo_const|exact Hf]). apply (holo_plus D (fun w => b3 * d3 w + b2 * d2 w + b1 * d1 w)); [apply (holo_plus D (fun w => b3 * d3 w + b2 * d2 w)); [apply holo_plus|]|]; apply S; assumption. }
  assert (S : forall n, c * coef d3 0 rho (S n) = (a3 * coef d3 0 rho n + a2 * coef d2 0 rho n + a1 * coef d1 0 rho n + a0 * coef d0 0 rho n) + coef (fun w => w * B w) 0 rho n).
  { intros n. apply (is_CInt_unique (fun t => c * (d3 (0 + E t) * Cpow (/ E t) (S n))) 0 (2 * PI)); [apply is_CInt_scal, (coef_int r rho Hr), H3|].
    apply is_CInt_ext with (2 := is_CInt_plus _ _ _ _ _ _ (lin a3 a2 a1 a0 n) (coef_int r rho Hr _ n Bh)). intros t _. cbv beta. assert (O := ODE _ (E_disc r rho Hr t)). cbn [Cpow]. assert (N := En r rho Hr t). fold (A (0 + E t)) in *. fold (B (0 + E t)) in *.
    transitivity (((0 + E t) * A (0 + E t) + (0 + E t) * (0 + E t) * B (0 + E t)) * (/ E t * Cpow (/ E t) n)); [field; exact N|rewrite <- O; ring]. }
  assert (SB0 : coef (fun w => w * B w) 0 rho 0 = 0) by (rewrite (coef_0 r rho Hr) by exact Bh; ring).
  assert (SB : forall n, coef (fun w => w * B w) 0 rho (Datatypes.S n) = b3 * coef d3 0 rho n + b2 * coef d2 0 rho n + b1 * coef d1 0 rho n + b0 * coef d0 0 rho n).
  { intros n. apply (is_CInt_unique (fun t => (fun w => w * B w) (0 + E t) * Cpow (/ E t) (Datatypes.S n)) 0 (2 * PI)); [apply (coef_int r rho Hr _ (Datatypes.S n) Bh)|]. apply is_CInt_ext with (2 := lin b3 b2 b1 b0 n). intros t _. cbv beta. fold (B (0 + E t)). cbn [Cpow]. assert (N := En r rho Hr t). field. exact N. }
  assert (step : forall n, coef d0 0 rho n = 0 -> coef (fun w => w * B w) 0 rho n = 0 -> coef d0 0 rho (Datatypes.S n) = 0).
  { intros n IH IB. assert (Q := S n). rewrite IB in Q. rewrite !C3, !C2, !C1, IH in Q. assert (NN : RtoC (INR (Datatypes.S n)) <> 0) by (apply RtoC_neq0, not_0_INR; lia). set (q := RtoC (INR (Datatypes.S n))) in *.
    replace (coef d0 0 rho (Datatypes.S n)) with (/ c * (/ q * (/ q * (/ q * (c * (q * (q * (q * coef d0 0 rho (Datatypes.S n))))))))) by (field; split; assumption). rewrite Q. ring. }
  assert (P : forall n, coef d0 0 rho n = 0 /\ coef (fun w => w * B w) 0 rho n = 0).
  { induction n as [|n [IH IB]]; [split; [rewrite (coef_0 r rho Hr), Z by exact H0; ring|exact SB0]|]. split; [apply step; assumption|]. rewrite SB, C3, C2, C1, IH. ring. }
  intros n. exact (proj1 (P n)).
Qed.
End Coef2.
(** ** the integral over one wave vector: II (m (theta + 1) g) = w (theta + 1/2) II g *)
Lemma II_holo F : holo offK F -> holo offK (II F). Proof. intros (F' & H). eexists. apply II_hol, H. Qed.
Lemma II_ext F G w : (forall m, offK m -> F m = G m) -> offK w -> II F w = II G w.
Proof. intros H Hw. unfold II. apply C_ext; cbn [CInt fst snd]; apply RInt_ext; intros x _; now rewrite H by (apply c2_off, Hw). Qed.
Lemma II_lin a b F G w : holo offK F -> holo offK G -> offK w -> II (fun m => a * F m + b * G m) w = a * II F w + b * II G w.
Proof. intros HF HG Hw. apply CInt_val. apply is_CInt_plus; apply is_CInt_scal; apply II_is; assumption. Qed.
Lemma II_rule g g1 w : th offK g g1 -> offK w -> II (fun m => m * (g m + g1 m)) w = w * (RtoC (1 / 2) * II g w + II g1 w).
Proof.
  intros TG Hw. assert (Hg := th_holo _ _ _ TG). assert (Hg1 := th_holo' _ _ _ offK_open TG).
  assert (Hm : holo offK (fun m => m * (g m + g1 m))) by (apply (holo_mult offK (fun m => m)); [apply holo_id|apply holo_plus; assumption]).
  assert (TD : is_CInt (fun x => w * (RtoC (cos x) * RtoC (cos x) - RtoC (1 / 2)) * g (w * c2 x) - w * (RtoC (sin x) * RtoC (sin x)) * g1 (w * c2 x)) 0 (PI / 2) 0).
  { destruct TG as (g' & TG & TG1). eapply is_CInt_eq; [apply (rcd_ftc (fun x => RtoC (1 / 2) * w * (RtoC (sin x) * RtoC (cos x)) * g (w * c2 x)))|].
    - intros t _. eapply rcd_eq; [apply rcd_mult; [apply rcd_mult; [apply rcd_const|apply rcd_mult; [apply sin_rcd|apply cos_rcd]]|apply (rcd_comp g (fun x => w * c2 x)); [apply TG, c2_off, Hw|apply rcd_mult; [apply rcd_const|apply c2_rcd]]]|].
      cbv beta. rewrite (TG1 _ (c2_off w t Hw)). assert (P := cos2_sin2 t). unfold c2. rewrite RtoC_opp, (RtoC_mult (cos t)). set (s := RtoC (sin t)) in *. set (c := RtoC (cos t)) in *. set (G := g (w * (c * c))). set (H := g' (w * (c * c))).
      assert (P' : s * s = 1 - c * c) by (rewrite P; ring). transitivity (RtoC (1 / 2) * w * (c * c - s * s) * G - w * (s * s) * (w * (c * c) * H)); [|rewrite P']; clearbody s c G H; clear P P'; cfield.
    - intros t _. assert (CS : forall x, ccont (fun x => RtoC (sin x)) x) by (intros x; exact (rcd_ccont _ _ _ (sin_rcd x))). assert (CC : forall x, ccont (fun x => RtoC (cos x)) x) by (intros x; exact (rcd_ccont _ _ _ (cos_rcd x))).
      apply ccont_minus; (apply ccont_mult; [apply ccont_mult; [apply ccont_const|]|apply II_cont; assumption]). + apply ccont_minus; [apply ccont_mult; apply CC|apply ccont_const]. + apply ccont_mult; apply CS.
    - cbv beta. rewrite sin_0, cos_PI2. rewrite Cmult_0_l, Cmult_0_r. ring. }
  assert (J := is_CInt_minus _ _ _ _ _ _ (II_is _ w Hm Hw) (is_CInt_scal w _ _ _ _ (is_CInt_plus _ _ _ _ _ _ (is_CInt_scal (RtoC (1 / 2)) _ _ _ _ (II_is g w Hg Hw)) (II_is g1 w Hg1 Hw)))).
  apply Csub_0. refine (is_CInt_unique _ _ _ _ _ J _). apply is_CInt_ext with (2 := TD). intros x _. cbv beta. set (m := w * c2 x) in *.
  assert (P := cos2_sin2 x). assert (M : m = w * (RtoC (cos x) * RtoC (cos x))) by (unfold m, c2; now rewrite RtoC_mult). generalize (g m) (g1 m). intros a b. rewrite M. set (c := RtoC (cos x)) in *. set (s := RtoC (sin x)) in *. assert (P' : s * s = 1 - c * c) by (rewrite P; ring). rewrite P'. clearbody c s. clear P P' M. cfield.
Qed.
