(** * Simple cubic lattice: reduction to an integral over the triangular lattice *)
From Coq Require Import Reals Lra List ZArith.
From Coquelicot Require Import Coquelicot.
From Verif Require Import Base CBase CExp CSqrt Lattice_Model Bethe_Proofs Bethe_Main Fourier_Filon LatMom_Spec LatDer_Spec LatEll_Model LatInt_Spec LatInt_Proofs LatInt_Hilbert LatInt_Fubini LatInt_Square LatInt_Local LatInt_Legendre CAnal CHol CEll CHolo CTheta CFub LatBz_Spec LatRect_Proofs LatRect_Main LatTri_Main LatBcc_Proofs LatBcc_Main.
Local Open Scope C_scope.

Lemma sc_band t k1 k2 k3 : band3 simple_cubic t (k1, k2, k3) = RtoC (2 * t * (cos k1 + cos k2 + cos k3)).
Proof.
  unfold band3, simple_cubic, bravais, origin. cbn [map fold_right Z.add]. rewrite !phase_prod, !step_1, !step_m, !step_0.
  set (u := cexp (Ci * RtoC k1)). set (v := cexp (Ci * RtoC k2)). set (w := cexp (Ci * RtoC k3)). transitivity (RtoC t * ((u + / u) + (v + / v) + (w + / w))); [ring|]. unfold u, v, w. rewrite !cexp_cos, <- !RtoC_plus, <- !RtoC_mult. f_equal. ring.
Qed.
(** ** |1 + exp (i a) + exp (i b)|^2 / 9 *)
Definition q2 (a b : R) : R := ((3 + 2 * (cos a + cos b + cos (a - b))) / 9)%R.
Lemma q2_sq a b : q2 a b = (((1 + cos a + cos b) * (1 + cos a + cos b) + (sin a + sin b) * (sin a + sin b)) / 9)%R.
Proof. unfold q2. rewrite cos_minus. assert (A := sin2_cos2 a). assert (B := sin2_cos2 b). unfold Rsqr in *. f_equal. nra. Qed.
Lemma q2_range a b : (0 <= q2 a b <= 1)%R.
Proof. split; [rewrite q2_sq; apply Rmult_le_pos; [apply Rplus_le_le_0_compat; apply Rle_0_sqr|lra]|]. unfold q2. destruct (COS_bound a), (COS_bound b), (COS_bound (a - b)). lra. Qed.
Lemma polar (X Y : R) : exists rho al, X = (rho * cos al)%R /\ Y = (rho * sin al)%R.
Proof.
  destruct (Rtotal_order Y 0) as [H|[H|H]].
  - destruct (pol_upper (X, - Y)%R) as (r & t & _ & _ & E); [cbn; lra|]. injection E. intros E2 E1. exists r, (- t)%R. rewrite cos_neg, sin_neg. lra.
  - exists X, 0%R. rewrite cos_0, sin_0. lra.
  - destruct (pol_upper (X, Y)) as (r & t & _ & _ & E); [exact H|]. injection E. intros E2 E1. exists r, t. split; assumption.
Qed.
Lemma three_cos a b : exists s al, (s * s = q2 a b)%R /\ forall p, (cos p + cos (p + a) + cos (p + b) = 3 * (s * cos (p + al)))%R.
Proof.
  destruct (polar (1 + cos a + cos b) (sin a + sin b)) as (r & al & EX & EY). exists (r / 3)%R, al. split.
  - rewrite q2_sq, EX, EY. assert (A := sin2_cos2 al). unfold Rsqr in A. replace (r * cos al * (r * cos al) + r * sin al * (r * sin al))%R with (r * r * (sin al * sin al + cos al * cos al))%R by ring. rewrite A. field.
  - intros p. rewrite !cos_plus. replace (3 * (r / 3 * (cos p * cos al - sin p * sin al)))%R with (cos p * (r * cos al) - sin p * (r * sin al))%R by field. rewrite <- EX, <- EY. ring.
Qed.
(** ** translations of periodic integrands *)
Lemma per_shift (f : R -> C) s l : (forall x, ccont f x) -> (forall x, f (x + 2 * PI)%R = f x) -> is_CInt f (- PI) PI l -> is_CInt (fun x => f (x + s)%R) (- PI) PI l.
Proof.
  intros Hc Hp H. replace PI with (- PI + 2 * PI)%R in H at 2 by ring. assert (A := periodic_any f (2 * PI) (- PI) (- PI + s) l Hc Hp H). assert (B := is_CInt_shift _ _ _ _ (- s) A).
  replace (- PI + s + - s)%R with (- PI)%R in B by ring. replace (- PI + s + 2 * PI + - s)%R with PI in B by ring. apply is_CInt_ext with (2 := B). intros x _. f_equal. ring.
Qed.
Lemma per_shift_int (f : R -> C) s : (forall x, ccont f x) -> (forall x, f (x + 2 * PI)%R = f x) -> CInt (fun x => f (x + s)%R) (- PI) PI = CInt f (- PI) PI.
Proof. intros Hc Hp. apply CInt_val, per_shift; [exact Hc|exact Hp|]. apply CInt_ok. intros; apply Hc. Qed.
Lemma Hpi : (- PI <= PI)%R. Proof. assert (H := PI_RGT_0). lra. Qed.

(** ** the average over the triangular lattice *)
Lemma q2_off w a b : offK w -> 1 - w * RtoC (q2 a b) <> 0.
Proof.
  intros H. assert (Q := q2_range a b). set (q := q2 a b) in *. intros E. destruct w as [x y]. assert (E1 := f_equal fst E). assert (E2 := f_equal snd E). unfold offK in H. cbn in *.
  assert (y * q = 0)%R by lra. assert (x * q = 1)%R by lra. assert (q <> 0)%R by (intros Z; rewrite Z in *; lra). assert (y = 0)%R by (apply Rmult_integral in H0; destruct H0; [assumption|contradiction]). destruct H as [H|H]; [contradiction|]. nra.
Qed.
Definition hk (n : nat) (w : C) (a b : R) : C := Cpow (RtoC (q2 a b)) n * Cpow (/ (1 - w * RtoC (q2 a b))) (S n).
Definition Hn (w : C) : C := RtoC (/ (4 * (PI * PI))) * CInt (fun a => CInt (hk 0 w a) (- PI) PI) (- PI) PI.
Definition Hd (w : C) : C := RtoC (/ (4 * (PI * PI))) * CInt (fun a => CInt (hk 1 w a) (- PI) PI) (- PI) PI.
Definition dT := dprod (dprod dC dR) dR.
Lemma dT0 : forall p, dprod dC dR p p = 0%R. Proof. apply dprod0; [apply dC0|apply dR0]. Qed.
Lemma cos_cont x : ccont (fun x => RtoC (cos x)) x. Proof. exact (rcd_ccont _ _ _ (cos_rcd x)). Qed.
Lemma q2_pc {T} (dist : T -> T -> R) (x y : T -> R) p : pcat dist (fun p => RtoC (x p)) p -> pcat dist (fun p => RtoC (y p)) p -> pcat dist (fun p => RtoC (q2 (x p) (y p))) p.
Proof.
  intros X Y. apply (pc_ext dist (fun p => RtoC (1 / 9) * (3 + 2 * (RtoC (cos (x p)) + RtoC (cos (y p)) + RtoC (cos (x p - y p)))))).
  - intros q. rewrite <- !RtoC_plus, <- !RtoC_mult, <- RtoC_plus, <- RtoC_mult. f_equal. unfold q2. field.
  - apply pc_mult; [apply pc_const|]. apply pc_plus; [apply pc_const|]. apply pc_mult; [apply pc_const|]. apply pc_plus; [apply pc_plus|].
    + apply (pc_F dist (fun x => RtoC (cos x)) x); [apply cos_cont|exact X].
    + apply (pc_F dist (fun x => RtoC (cos x)) y); [apply cos_cont|exact Y].
    + apply (pc_F dist (fun x => RtoC (cos x)) (fun p => x p - y p)%R); [apply cos_cont|]. apply (pc_ext dist (fun p => RtoC (x p) - RtoC (y p))); [intros; now rewrite RtoC_minus|]. apply pc_minus; assumption.
Qed.
Lemma pc_pow {T} (dist : T -> T -> R) g n p : pcat dist g p -> pcat dist (fun p => Cpow (g p) n) p.
Proof. intros H. induction n as [|n IH]; [exact (pc_const dist 1 p)|]. apply (pc_mult dist g (fun p => Cpow (g p) n)); assumption. Qed.
Lemma hk_pc n w a b : offK w -> pcat dT (fun p => hk n (fst (fst p)) (snd (fst p)) (snd p)) (w, a, b).
Proof.
  intros O. unfold hk.
  assert (Q : pcat dT (fun p => RtoC (q2 (snd (fst p)) (snd p))) (w, a, b)). { apply q2_pc; [apply (pc_fst (dprod dC dR) dR (fun p => RtoC (snd p))), (pc_snd dC dR RtoC), pc_id|apply (pc_snd (dprod dC dR) dR RtoC), pc_id]. }
  apply pc_mult; apply pc_pow; [exact Q|]. apply pc_inv; [apply q2_off, O|]. apply pc_minus; [apply pc_const|]. apply pc_mult; [|exact Q]. apply (pc_fst (dprod dC dR) dR (fun p => fst p)), (pc_fst dC dR (fun z => z)), pc_idC.
Qed.
Lemma hk_ccr n w a b : offK w -> ccr (fun w b => hk n w a b) w b.
Proof.
  intros O e He. destruct (hk_pc n w a b O e He) as (d & Hd & B). exists d. split; [exact Hd|]. intros m' t' H1 H2. apply (B (m', a, t')). unfold dT, dprod. cbn [fst snd]. rewrite dR0. repeat apply Rmax_lub_lt; assumption.
Qed.
Lemma hk_cont n w a b : offK w -> ccont (hk n w a) b. Proof. intros O. apply (ccr_slice (fun w b => hk n w a b)), hk_ccr, O. Qed.
Lemma hk_in_ccr n w a : offK w -> ccr (fun w a => CInt (hk n w a) (- PI) PI) w a.
Proof.
  intros O. destruct (offK_open w O) as (r & Hr & B).
  (* only near w *)
  intros e He. set (e' := (e / (4 * (PI - - PI + 1)))%R). assert (HP := PI_RGT_0). assert (He' : (0 < e')%R) by (apply Rdiv_lt_0_compat; lra).
  destruct (unif (- PI) PI (fun t d => forall m' a', (Cmod (m' - w)%C < d)%R -> (Rabs (a' - a) < d)%R -> (Cmod (hk n m' a' t - hk n w a t)%C <= e')%R) Hpi) as (d & Hd & D).
  - intros t d d' H Hd m' a' H1 H2. apply H; lra.
  - intros t Ht. destruct (hk_pc n w a t O (e' / 2)%R ltac:(lra)) as (d & Hd & D). exists d. split; [exact Hd|]. intros t' Ht' m' a' H1 H2.
    assert (X1 := D (m', a', t') ltac:(unfold dT, dprod; cbn [fst snd]; repeat apply Rmax_lub_lt; assumption)). assert (X2 := D (w, a, t') ltac:(unfold dT, dprod; cbn [fst snd]; rewrite dR0, dC0; repeat apply Rmax_lub_lt; assumption)). cbn [fst snd] in X1, X2.
    replace (hk n m' a' t' - hk n w a t') with ((hk n m' a' t' - hk n w a t) + - (hk n w a t' - hk n w a t)) by ring. eapply Rle_trans; [apply Cmod_triangle|]. rewrite Cmod_opp. lra.
  - exists (Rmin r d). split; [apply Rmin_pos; assumption|]. intros m' a' H1 H2. assert (M1 := Rmin_l r d). assert (M2 := Rmin_r r d). assert (O' : offK m') by (apply B; lra).
    assert (I1 : is_CInt (hk n m' a') (- PI) PI (CInt (hk n m' a') (- PI) PI)) by (apply CInt_ok; intros t _; apply hk_cont, O'). assert (I2 : is_CInt (hk n w a) (- PI) PI (CInt (hk n w a) (- PI) PI)) by (apply CInt_ok; intros t _; apply hk_cont, O).
    assert (I := is_CInt_minus _ _ _ _ _ _ I1 I2). apply (CInt_bound _ (- PI) PI _ e' Hpi) in I; [|intros t Ht; apply (D t Ht); lra]. eapply Rle_lt_trans; [exact I|].
    unfold e'. apply Rmult_lt_reg_r with (4 * (PI - - PI + 1))%R; [lra|]. replace (2 * (e / (4 * (PI - - PI + 1)) * (PI - - PI)) * (4 * (PI - - PI + 1)))%R with (2 * e * (PI - - PI))%R by (field; lra). nra.
Qed.
Lemma hk_der w a b : offK w -> is_cderive (fun w => hk 0 w a b) w (hk 1 w a b).
Proof.
  intros O. assert (N := q2_off w a b O). assert (D : hol (fun v => v = w \/ 1 - v * RtoC (q2 a b) <> 0) (fun v => 1 - v * RtoC (q2 a b)) (fun v => RtoC 0 - (1 * RtoC (q2 a b) + v * 0))).
  { apply hol_minus; [apply hol_const|]. apply (hol_mult _ (fun v => v) (fun _ => 1) (fun _ => RtoC (q2 a b)) (fun _ => 0)); [apply hol_id|apply hol_const]. }
  assert (I := hol_inv _ _ _ D ltac:(intros v [-> | H]; assumption)). destruct (I w (or_introl eq_refl)) as [X _]. cbv beta in X.
  assert (Y : is_cderive (fun w => hk 0 w a b) w (- (RtoC 0 - (1 * RtoC (q2 a b) + w * 0)) / ((1 - w * RtoC (q2 a b)) * (1 - w * RtoC (q2 a b))))). { apply (is_cderive_ext (fun z => / (1 - z * RtoC (q2 a b)))); [intros v; unfold hk; cbn [Cpow]; ring|exact X]. }
  eapply is_cderive_eq; [exact Y|]. unfold hk. cbn [Cpow]. field. exact N.
Qed.
Lemma Hn_hol : hol offK Hn Hd.
Proof.
  assert (In : forall a, hol offK (fun w => CInt (hk 0 w a) (- PI) PI) (fun w => CInt (hk 1 w a) (- PI) PI)).
  { intros a. apply (param_hol offK (fun w => hk 0 w a) (fun w => hk 1 w a) (- PI) PI offK_open Hpi); intros; [now apply hk_der|now apply hk_cont|now apply hk_ccr]. }
  assert (A : hol offK (fun w => CInt (fun a => CInt (hk 0 w a) (- PI) PI) (- PI) PI) (fun w => CInt (fun a => CInt (hk 1 w a) (- PI) PI) (- PI) PI)).
  { apply (param_hol offK (fun w a => CInt (hk 0 w a) (- PI) PI) (fun w a => CInt (hk 1 w a) (- PI) PI) (- PI) PI offK_open Hpi).
    - intros m t Hm. apply In, Hm. - intros m t Hm. apply (ccr_slice (fun w a => CInt (hk 0 w a) (- PI) PI)), hk_in_ccr, Hm. - intros m t Hm. apply hk_in_ccr, Hm. }
  eapply hol_ext'; [apply offK_open| |apply (hol_mult offK (fun _ => RtoC (/ (4 * (PI * PI)))) (fun _ => 0)); [apply hol_const|exact A]]. intros w _. cbv beta. unfold Hd. ring.
Qed.
(** ** the average over the Brillouin zone of the cubic lattice *)
Section Red.
Variables (D : R) (z : C).
Hypothesis HD : (0 < D)%R.
Hypothesis O : off_band D z.
Let w := RtoC D / z * (RtoC D / z).
Lemma sc_w : offK w. Proof. exact (param_off D HD z O). Qed.
Lemma sc_z : z <> 0. Proof. exact (off_band_neq0 D HD z O). Qed.
Definition eps3 (x y t : R) : R := (D / 3 * (cos x + cos y + cos t))%R.
Lemma eps3_off x y t : z - RtoC (eps3 x y t) <> 0.
Proof.
  intros E. assert (O' := O). destruct z as [a b]. assert (E1 := f_equal fst E). assert (E2 := f_equal snd E). unfold off_band in O'. cbn in *. destruct O' as [H|H]; [apply H; lra|].
  assert (X : a = eps3 x y t) by lra. rewrite X in H. unfold eps3 in H. rewrite Rabs_mult, (Rabs_pos_eq (D / 3)) in H by lra. destruct (COS_bound x), (COS_bound y), (COS_bound t). assert (Rabs (cos x + cos y + cos t) <= 3)%R by (apply Rabs_le; lra). nra.
Qed.
Definition sg (x y t : R) : C := / (z - RtoC (eps3 x y t)).
Lemma eps3_pc (f1 f2 f3 : R * R * R -> R) p : pcat d3 (fun p => RtoC (f1 p)) p -> pcat d3 (fun p => RtoC (f2 p)) p -> pcat d3 (fun p => RtoC (f3 p)) p -> pcat d3 (fun p => sg (f1 p) (f2 p) (f3 p)) p.
Proof.
  intros A B E. unfold sg. apply pc_inv; [apply eps3_off|]. apply pc_minus; [apply pc_const|]. apply (pc_ext d3 (fun p => RtoC (D / 3) * (RtoC (cos (f1 p)) + RtoC (cos (f2 p)) + RtoC (cos (f3 p))))).
  - intros q. rewrite <- !RtoC_plus, <- RtoC_mult. reflexivity.
  - apply pc_mult; [apply pc_const|]. apply pc_plus; [apply pc_plus|]; [apply (pc_F d3 (fun x => RtoC (cos x)) f1)|apply (pc_F d3 (fun x => RtoC (cos x)) f2)|apply (pc_F d3 (fun x => RtoC (cos x)) f3)]; try apply cos_cont; assumption.
Qed.
Lemma pc3_1 p : pcat d3 (fun p => RtoC (fst (fst p))) p. Proof. apply (pc_fst (dprod dR dR) dR (fun p => RtoC (fst p))), (pc_fst dR dR RtoC), pc_id. Qed.
Lemma pc3_2 p : pcat d3 (fun p => RtoC (snd (fst p))) p. Proof. apply (pc_fst (dprod dR dR) dR (fun p => RtoC (snd p))), (pc_snd dR dR RtoC), pc_id. Qed.
Lemma pc3_3 p : pcat d3 (fun p => RtoC (snd p)) p. Proof. apply (pc_snd (dprod dR dR) dR RtoC), pc_id. Qed.
Lemma sg_cc3 : cc3 sg. Proof. intros p. apply (eps3_pc (fun p => fst (fst p)) (fun p => snd (fst p)) (fun p => snd p)); [apply pc3_1|apply pc3_2|apply pc3_3]. Qed.
Definition sh (x a b : R) : C := sg x (a + x) (b + x).
Lemma sh_cc3 : cc3 sh.
Proof.
  intros p. apply (eps3_pc (fun p => fst (fst p)) (fun p => snd (fst p) + fst (fst p))%R (fun p => snd p + fst (fst p))%R); [apply pc3_1| |].
  - apply (pc_ext d3 (fun p => RtoC (snd (fst p)) + RtoC (fst (fst p)))); [intros; now rewrite RtoC_plus|]. apply pc_plus; [apply pc3_2|apply pc3_1].
  - apply (pc_ext d3 (fun p => RtoC (snd p) + RtoC (fst (fst p)))); [intros; now rewrite RtoC_plus|]. apply pc_plus; [apply pc3_3|apply pc3_1].
Qed.
Lemma sh_int x : CInt (fun a => CInt (sh x a) (- PI) PI) (- PI) PI = CInt (fun y => CInt (sg x y) (- PI) PI) (- PI) PI.
Proof.
  assert (Pt : forall y t, sg x y (t + 2 * PI) = sg x y t) by (intros; unfold sg, eps3; now rewrite cos_2PI). assert (Py : forall y t, sg x (y + 2 * PI) t = sg x y t) by (intros; unfold sg, eps3; now rewrite cos_2PI).
  transitivity (CInt (fun a => CInt (sg x (a + x)) (- PI) PI) (- PI) PI).
  - apply CInt_ex. intros a. apply (per_shift_int (sg x (a + x)) x); [intros t; apply f3_slice, sg_cc3|apply Pt].
  - apply (per_shift_int (fun y => CInt (sg x y) (- PI) PI) x); [|intros y; apply CInt_ex; intros; apply Py]. intros t. apply (cc2_slice (fun x y => CInt (sg x y) (- PI) PI)), f3_cc2; [apply sg_cc3|apply Hpi].
Qed.
(** one wave vector *)
Definition sk (p a b : R) : C := / z * hk 0 (w * c2 p) a b.
Lemma sk_cc3 : cc3 sk.
Proof.
  intros p. unfold sk. apply pc_mult; [apply pc_const|]. unfold hk.
  assert (Q : pcat d3 (fun p => RtoC (q2 (snd (fst p)) (snd p))) p) by (apply q2_pc; [apply pc3_2|apply pc3_3]).
  apply pc_mult; apply pc_pow; [exact Q|]. apply pc_inv; [apply q2_off, c2_off, sc_w|]. apply pc_minus; [apply pc_const|]. apply pc_mult; [|exact Q]. apply pc_mult; [apply pc_const|]. apply (pc_F d3 c2 (fun p => fst (fst p))); [apply c2_cont|apply pc3_1].
Qed.
Lemma sk_int a b : CInt (fun x => sh x a b) (- PI) PI = CInt (fun p => sk p a b) (- PI) PI.
Proof.
  destruct (three_cos a b) as (s & al & Es & E). assert (Q := q2_range a b). assert (Hs : (-1 <= s <= 1)%R) by nra. assert (N := sc_z).
  assert (I1 := chain_int D HD z O s Hs). assert (I2 := chain_int D HD z O (- s) ltac:(lra)). replace (- s * - s)%R with (s * s)%R in I2 by ring. set (v := RtoC (2 * PI) / _) in *.
  transitivity v.
  - apply CInt_val. assert (F : forall t, z - RtoC (D * (s * cos t)) <> 0). { intros t. assert (X := eps3_off (t - al) (t - al + a) (t - al + b)). unfold eps3 in X. rewrite E in X. replace (t - al + al)%R with t in X by ring. replace (D / 3 * (3 * (s * cos t)))%R with (D * (s * cos t))%R in X by field. exact X. }
    eapply is_CInt_ext; [|apply (per_shift _ al v) with (3 := I1)].
    + intros x _. cbv beta. unfold sh, sg, eps3. rewrite (Rplus_comm a), (Rplus_comm b), E. replace (D / 3 * (3 * (s * cos (x + al))))%R with (D * (s * cos (x + al)))%R by field. unfold Cdiv. ring.
    + intros t. apply (ccont_mult (fun _ => 1) (fun t => / (z - RtoC (D * (s * cos t))))); [apply ccont_const|]. apply (ccont_inv (fun t => z - RtoC (D * (s * cos t)))); [|apply F]. apply ccont_minus; [apply ccont_const|]. apply ccont_R. apply (ex_derive_continuous (fun t => D * (s * cos t))%R). auto_derive. exact Logic.I.
    + intros t. now rewrite cos_2PI.
  - symmetry. apply CInt_val. eapply is_CInt_eq; [apply is_CInt_ext with (2 := is_CInt_scal (RtoC (1 / 2)) _ _ _ _ (is_CInt_plus _ _ _ _ _ _ I1 I2))|cfield].
    intros p _. cbv beta. unfold sk, hk. cbn [Cpow]. rewrite <- Es. assert (W := c2_off w p sc_w). assert (X := q2_off _ a b W). rewrite <- Es in X. unfold w, c2 in *.
    assert (N1 : z - RtoC (D * (s * cos p)) <> 0). { assert (Y := eps3_off (p - al) (p - al + a) (p - al + b)). unfold eps3 in Y. rewrite E in Y. replace (p - al + al)%R with p in Y by ring. replace (D / 3 * (3 * (s * cos p)))%R with (D * (s * cos p))%R in Y by field. exact Y. }
    assert (N2 : z - RtoC (D * (- s * cos p)) <> 0). { assert (Y := eps3_off (p + PI - al) (p + PI - al + a) (p + PI - al + b)). unfold eps3 in Y. rewrite E in Y. replace (p + PI - al + al)%R with (p + PI)%R in Y by ring. rewrite neg_cos in Y. replace (D / 3 * (3 * (s * - cos p)))%R with (D * (- s * cos p))%R in Y by field. exact Y. }
    rewrite !RtoC_mult in *. rewrite RtoC_opp in *. revert X N1 N2. generalize (RtoC D) (RtoC s) (RtoC (cos p)). intros d c u X N1 N2. cnum.
    assert (Y : z * z - d * c * u * (d * c * u) <> 0). { intros Y. apply X. replace (1 - d / z * (d / z) * (u * u) * (c * c)) with ((z * z - d * c * u * (d * c * u)) / (z * z)) by (field; exact N). rewrite Y. unfold Cdiv. ring. }
    cfield. all: try assumption. replace (z * z - d * d * (u * u) * (c * c)) with (z * z - d * c * u * (d * c * u)) by ring. exact Y.
Qed.
Theorem sc_red : is_bz_average3 (fun k => 1 / (z - band3 simple_cubic (D / 6) k)) (RtoC (2 / PI) / z * II Hn w).
Proof.
  assert (HP := PI_RGT_0). assert (HPC : RtoC PI <> 0) by (apply RtoC_neq0; lra). assert (N := sc_z).
  exists (fun x y => CInt (sg x y) (- PI) PI), (fun x => CInt (fun y => CInt (sg x y) (- PI) PI) (- PI) PI). split; [|split].
  - intros k1 k2. apply is_CInt_ext with (2 := f3_is sg sg_cc3 (- PI) PI k1 k2). intros k3 _. rewrite sc_band. unfold sg, eps3. replace (2 * (D / 6) * (cos k1 + cos k2 + cos k3))%R with (D / 3 * (cos k1 + cos k2 + cos k3))%R by field. unfold Cdiv. ring.
  - intros k1. apply (f3_is2 sg sg_cc3 (- PI) PI Hpi k1).
  - eapply is_CInt_eq; [apply (f3_is3 sg sg_cc3 (- PI) PI Hpi)|].
    transitivity (CInt (fun x => CInt (fun a => CInt (fun b => sh x a b) (- PI) PI) (- PI) PI) (- PI) PI). { apply CInt_ex. intros x. symmetry. apply sh_int. }
    rewrite (fub3 sh sh_cc3 (- PI) PI Hpi). transitivity (CInt (fun a => CInt (fun b => CInt (fun p => sk p a b) (- PI) PI) (- PI) PI) (- PI) PI). { apply CInt_ex. intros a. apply CInt_ex. intros b. apply sk_int. }
    rewrite <- (fub3 sk sk_cc3 (- PI) PI Hpi). transitivity (CInt (fun p => RtoC (4 * (PI * PI)) / z * Hn (w * RtoC (cos p * cos p))) (- PI) PI).
    { apply CInt_ex. intros p. assert (W := c2_off w p sc_w). fold (c2 p). unfold Hn. rewrite RtoC_inv by nra. assert (P4 : RtoC (4 * (PI * PI)) <> 0) by (apply RtoC_neq0; nra).
      transitivity (/ z * CInt (fun a => CInt (hk 0 (w * c2 p) a) (- PI) PI) (- PI) PI); [|field; split; assumption]. apply CInt_val. apply (is_CInt_ext (fun a => / z * CInt (hk 0 (w * c2 p) a) (- PI) PI)).
      - intros a _. symmetry. apply CInt_val. unfold sk. apply is_CInt_scal. apply CInt_ok. intros t _. apply hk_cont, W.
      - apply is_CInt_scal, CInt_ok. intros t _. apply (ccr_slice (fun w a => CInt (hk 0 w a) (- PI) PI)), hk_in_ccr, W. }
    apply CInt_val. eapply is_CInt_eq; [apply is_CInt_scal, (cos2_all (fun c => Hn (w * RtoC c))); apply (II_is Hn w); [eexists; apply Hn_hol|apply sc_w]|].
    rewrite RtoC_div by lra. rewrite !RtoC_mult. cfield. repeat split; assumption.
Qed.
End Red.
