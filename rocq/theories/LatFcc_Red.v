(** * Face-centred cubic lattice: the lattice integral as a holomorphic function *)
From Coq Require Import Reals Lra Lia List ZArith.
From Coquelicot Require Import Coquelicot.
From Verif Require Import Base CBase CExp CSqrt Lattice_Model Bethe_Proofs Bethe_Main Fourier_Filon LatMom_Spec LatDer_Spec LatEll_Model LatInt_Spec LatInt_Proofs LatInt_Hilbert LatInt_Fubini LatInt_Square LatInt_Local LatInt_Legendre CAnal CHol CEll CHolo CTheta CTheta2 CFub LatBz_Spec LatRect_Proofs LatRect_Main LatTri_Main LatBcc_Proofs LatBcc_Main LatSc_Red LatSc_Proofs LatFcc_Mom.
Local Open Scope C_scope.

Lemma fcc_band t k1 k2 k3 : band3 face_centered t (k1, k2, k3) = RtoC (4 * t * (cos k1 * cos k2 + cos k2 * cos k3 + cos k3 * cos k1)).
Proof.
  unfold band3, face_centered, bravais, origin. cbn [map fold_right Z.add]. rewrite !phase_prod, !step_1, !step_m, !step_0.
  set (u := cexp (Ci * RtoC k1)). set (v := cexp (Ci * RtoC k2)). set (w := cexp (Ci * RtoC k3)). transitivity (RtoC t * ((u + / u) * (v + / v) + (v + / v) * (w + / w) + (w + / w) * (u + / u))); [ring|]. unfold u, v, w. rewrite !cexp_cos, <- !RtoC_mult, <- !RtoC_plus, <- !RtoC_mult. f_equal. ring.
Qed.
Lemma q3_range a b c : (0 <= q3 a b c <= 1)%R.
Proof.
  unfold q3. assert (A := COS_bound a). assert (B := COS_bound b). assert (K := COS_bound c). set (x := cos a) in *. set (y := cos b) in *. set (t := cos c) in *.
  assert (0 <= (1 - x) * (1 - y))%R by (apply Rmult_le_pos; lra). assert (0 <= (1 + x) * (1 + y))%R by (apply Rmult_le_pos; lra).
  assert (0 <= (1 - t) * ((1 - x) * (1 - y)))%R by (apply Rmult_le_pos; lra). assert (0 <= (1 + t) * ((1 + x) * (1 + y)))%R by (apply Rmult_le_pos; lra). split; [nra|].
  assert (0 <= (1 - x) * (1 + y) + (1 + x) * (1 - y))%R by nra. assert (0 <= (1 - t) * (1 + y) + (1 + t) * (1 - y))%R by nra. assert (0 <= (1 - x) * (1 + t) + (1 + x) * (1 - t))%R by nra. nra.
Qed.
Lemma q3_off w a b c : offK w -> 1 - w * RtoC (q3 a b c) <> 0.
Proof.
  intros H. assert (Q := q3_range a b c). set (q := q3 a b c) in *. intros E. destruct w as [x y]. assert (E1 := f_equal fst E). assert (E2 := f_equal snd E). unfold offK in H. cbn in *.
  assert (y * q = 0)%R by lra. assert (x * q = 1)%R by lra. assert (q <> 0)%R by (intros Z; rewrite Z in *; lra). assert (y = 0)%R by (apply Rmult_integral in H0; destruct H0; [assumption|contradiction]). destruct H as [H|H]; [contradiction|]. nra.
Qed.

(** ** a local version of the continuity of integrals *)
Lemma pc_int_loc {T} (dist : T -> T -> R) (d0 : forall p, dist p p = 0%R) (g : T * R -> C) a b p r : (a <= b)%R -> (0 < r)%R -> (forall t, pcat (dprod dist dR) g (p, t)) -> (forall p' t, (dist p' p < r)%R -> pcat (dprod dist dR) g (p', t)) -> pcat dist (fun p => CInt (fun t => g (p, t)) a b) p.
Proof.
  intros Hab Hr G1 G2 e He. assert (GC : forall p' t, (dist p' p < r)%R -> ccont (fun t => g (p', t)) t) by (intros p' t H; apply (pc_slice dist d0), G2, H). set (e' := (e / (4 * (b - a + 1)))%R). assert (He' : (0 < e')%R) by (apply Rdiv_lt_0_compat; lra).
  destruct (unif a b (fun t d => forall p', (dist p' p < d)%R -> (Cmod (g (p', t) - g (p, t))%C <= e')%R) Hab) as (d & Hd & B).
  - intros t d d' H Hd p' Hp. apply H. lra.
  - intros t Ht. destruct (G1 t (e' / 2)%R ltac:(lra)) as (d & Hd & B). exists d. split; [exact Hd|]. intros t' Ht' p' Hp.
    assert (X1 := B (p', t') ltac:(unfold dprod; cbn [fst snd]; apply Rmax_lub_lt; [exact Hp|exact Ht'])). assert (X2 := B (p, t') ltac:(unfold dprod; cbn [fst snd]; rewrite d0; apply Rmax_lub_lt; [exact Hd|exact Ht'])).
    replace (g (p', t') - g (p, t')) with ((g (p', t') - g (p, t)) + - (g (p, t') - g (p, t))) by ring. eapply Rle_trans; [apply Cmod_triangle|]. rewrite Cmod_opp. lra.
  - exists (Rmin r d). split; [apply Rmin_pos; assumption|]. intros p' Hp. assert (M1 := Rmin_l r d). assert (M2 := Rmin_r r d). assert (I1 : is_CInt (fun t => g (p', t)) a b (CInt (fun t => g (p', t)) a b)) by (apply CInt_ok; intros t _; apply GC; lra). assert (I2 : is_CInt (fun t => g (p, t)) a b (CInt (fun t => g (p, t)) a b)) by (apply CInt_ok; intros t _; apply GC; rewrite d0; lra).
    assert (I := is_CInt_minus _ _ _ _ _ _ I1 I2). apply (CInt_bound _ a b _ e' Hab) in I; [|intros t Ht; apply B; [assumption|lra]]. eapply Rle_lt_trans; [exact I|].
    unfold e'. apply Rmult_lt_reg_r with (4 * (b - a + 1))%R; [lra|]. replace (2 * (e / (4 * (b - a + 1)) * (b - a)) * (4 * (b - a + 1)))%R with (2 * e * (b - a))%R by (field; lra). nra.
Qed.

(** ** the kernel and its three integrals *)
Definition k3 (j n : nat) (w : C) (a b c : R) : C := Cpow (RtoC (q3 a b c)) j * Cpow (/ (1 - w * RtoC (q3 a b c))) n.
Definition i1 (j n : nat) (w : C) (a b : R) : C := CInt (k3 j n w a b) (- PI) PI.
Definition i2 (j n : nat) (w : C) (a : R) : C := CInt (i1 j n w a) (- PI) PI.
Definition i3 (j n : nat) (w : C) : C := CInt (i2 j n w) (- PI) PI.
Definition Fj (j : nat) (w : C) : C := RtoC (/ (8 * (PI * PI * PI))) * i3 j 1 w.
Notation dCR := (dprod dC dR).
Lemma q3_pc {T} (dist : T -> T -> R) (x y t : T -> R) p : pcat dist (fun p => RtoC (x p)) p -> pcat dist (fun p => RtoC (y p)) p -> pcat dist (fun p => RtoC (t p)) p -> pcat dist (fun p => RtoC (q3 (x p) (y p) (t p))) p.
Proof.
  intros X Y Z. assert (CC : forall x : T -> R, pcat dist (fun p => RtoC (x p)) p -> pcat dist (fun p => RtoC (cos (x p))) p) by (intros x' X'; apply (pc_F dist (fun x => RtoC (cos x)) x'); [apply cos_cont|exact X']).
  apply (pc_ext dist (fun p => RtoC (1 / 4) * (1 + RtoC (cos (x p)) * RtoC (cos (y p)) + RtoC (cos (y p)) * RtoC (cos (t p)) + RtoC (cos (t p)) * RtoC (cos (x p))))).
  - intros q. rewrite <- !RtoC_mult, <- !RtoC_plus, <- RtoC_mult. f_equal. unfold q3. field.
  - apply pc_mult; [apply pc_const|]. apply pc_plus; [apply pc_plus; [apply pc_plus; [apply pc_const|]|]|]; apply pc_mult; apply CC; assumption.
Qed.
Lemma k3_pc j n w a b c : offK w -> pcat (dprod (dprod dCR dR) dR) (fun p => k3 j n (fst (fst (fst p))) (snd (fst (fst p))) (snd (fst p)) (snd p)) (w, a, b, c).
Proof.
  intros O. unfold k3.
  assert (Q : pcat (dprod (dprod dCR dR) dR) (fun p => RtoC (q3 (snd (fst (fst p))) (snd (fst p)) (snd p))) (w, a, b, c)).
  { apply q3_pc; [apply (pc_fst (dprod dCR dR) dR (fun p => RtoC (snd (fst p)))), (pc_fst dCR dR (fun p => RtoC (snd p))), (pc_snd dC dR RtoC), pc_id|apply (pc_fst (dprod dCR dR) dR (fun p => RtoC (snd p))), (pc_snd dCR dR RtoC), pc_id|apply (pc_snd (dprod dCR dR) dR RtoC), pc_id]. }
  apply pc_mult; apply pc_pow; [exact Q|]. apply pc_inv; [apply q3_off, O|]. apply pc_minus; [apply pc_const|]. apply pc_mult; [|exact Q]. apply (pc_fst (dprod dCR dR) dR (fun p => fst (fst p))), (pc_fst dCR dR (fun p => fst p)), (pc_fst dC dR (fun z => z)), pc_idC.
Qed.
Lemma dCR0 : forall p, dCR p p = 0%R. Proof. apply dprod0; [apply dC0|apply dR0]. Qed.
Lemma dCRR0 : forall p, dprod dCR dR p p = 0%R. Proof. apply dprod0; [apply dCR0|apply dR0]. Qed.
Lemma i1_pc j n w a b : offK w -> pcat (dprod dCR dR) (fun p => i1 j n (fst (fst p)) (snd (fst p)) (snd p)) (w, a, b).
Proof.
  intros O. destruct (offK_open w O) as (r & Hr & B). apply (pc_int_loc (dprod dCR dR) dCRR0 (fun p => k3 j n (fst (fst (fst p))) (snd (fst (fst p))) (snd (fst p)) (snd p)) (- PI) PI (w, a, b) r Hpi Hr).
  - intros t. apply k3_pc, O.
  - intros [[w' a'] b'] t H. apply k3_pc, B. eapply Rle_lt_trans; [|exact H]. unfold dprod. cbn [fst snd]. eapply Rle_trans; [|apply Rmax_l]. apply Rmax_l.
Qed.
Lemma i2_pc j n w a : offK w -> pcat dCR (fun p => i2 j n (fst p) (snd p)) (w, a).
Proof.
  intros O. destruct (offK_open w O) as (r & Hr & B). apply (pc_int_loc dCR dCR0 (fun p => i1 j n (fst (fst p)) (snd (fst p)) (snd p)) (- PI) PI (w, a) r Hpi Hr).
  - intros t. apply i1_pc, O.
  - intros [w' a'] t H. apply i1_pc, B. eapply Rle_lt_trans; [|exact H]. unfold dprod. cbn [fst snd]. apply Rmax_l.
Qed.
Lemma k3_ccr j n w a b c : offK w -> ccr (fun w c => k3 j n w a b c) w c.
Proof.
  intros O e He. destruct (k3_pc j n w a b c O e He) as (d & Hd & B). exists d. split; [exact Hd|]. intros m' t' H1 H2. apply (B (m', a, b, t')). unfold dprod. cbn [fst snd]. rewrite !dR0. repeat apply Rmax_lub_lt; assumption.
Qed.
Lemma i1_ccr j n w a b : offK w -> ccr (fun w b => i1 j n w a b) w b.
Proof.
  intros O e He. destruct (i1_pc j n w a b O e He) as (d & Hd & B). exists d. split; [exact Hd|]. intros m' t' H1 H2. apply (B (m', a, t')). unfold dprod. cbn [fst snd]. rewrite !dR0. repeat apply Rmax_lub_lt; assumption.
Qed.
Lemma i2_ccr j n w a : offK w -> ccr (fun w a => i2 j n w a) w a.
Proof. intros O. apply ccr_of_pc, i2_pc, O. Qed.
Lemma k3_der j w a b c : offK w -> is_cderive (fun w => k3 j 1 w a b c) w (k3 (S j) 2 w a b c).
Proof.
  intros O. assert (N := q3_off w a b c O). assert (D : hol (fun v => v = w \/ 1 - v * RtoC (q3 a b c) <> 0) (fun v => 1 - v * RtoC (q3 a b c)) (fun v => RtoC 0 - (1 * RtoC (q3 a b c) + v * 0))).
  { apply hol_minus; [apply hol_const|]. apply (hol_mult _ (fun v => v) (fun _ => 1) (fun _ => RtoC (q3 a b c)) (fun _ => 0)); [apply hol_id|apply hol_const]. }
  assert (I0 := hol_inv _ _ _ D ltac:(intros v [-> | H]; assumption)). assert (I := hol_mult _ (fun _ => Cpow (RtoC (q3 a b c)) j) (fun _ => 0) _ _ (hol_const _ _) I0). destruct (I w (or_introl eq_refl)) as [X _]. cbv beta in X.
  eapply is_cderive_eq; [apply (is_cderive_ext (fun z => Cpow (RtoC (q3 a b c)) j * / (1 - z * RtoC (q3 a b c)))); [intros v; unfold k3; cbn [Cpow]; ring|exact X]|]. unfold k3. cbn [Cpow]. field. exact N.
Qed.
Lemma i3_hol j : hol offK (i3 j 1) (i3 (S j) 2).
Proof.
  assert (H1 : forall a b, hol offK (fun w => i1 j 1 w a b) (fun w => i1 (S j) 2 w a b)).
  { intros a b. apply (param_hol offK (fun w => k3 j 1 w a b) (fun w => k3 (S j) 2 w a b) (- PI) PI offK_open Hpi); intros m t Hm; [now apply k3_der|apply (ccr_slice (fun w c => k3 j 1 w a b c)), k3_ccr, Hm|now apply k3_ccr]. }
  assert (H2 : forall a, hol offK (fun w => i2 j 1 w a) (fun w => i2 (S j) 2 w a)).
  { intros a. apply (param_hol offK (fun w => i1 j 1 w a) (fun w => i1 (S j) 2 w a) (- PI) PI offK_open Hpi); intros m t Hm; [apply H1, Hm|apply (ccr_slice (fun w b => i1 j 1 w a b)), i1_ccr, Hm|now apply i1_ccr]. }
  apply (param_hol offK (i2 j 1) (i2 (S j) 2) (- PI) PI offK_open Hpi); intros m t Hm; [apply H2, Hm|apply (ccr_slice (i2 j 1)), i2_ccr, Hm|now apply i2_ccr].
Qed.
Lemma Fj_holo j : holo offK (Fj j).
Proof. apply (holo_mult offK (fun _ => _)); [apply holo_const|]. eexists. apply i3_hol. Qed.
Lemma k3_cc3 j n w : offK w -> cc3 (k3 j n w).
Proof.
  intros O [[a b] c] e He. destruct (k3_pc j n w a b c O e He) as (d & Hd & B). exists d. split; [exact Hd|]. intros [[a' b'] c'] H. apply (B (w, a', b', c')). unfold d3, dprod in *. cbn [fst snd] in *. rewrite dC0. assert (X := Rabs_pos (a' - a)). fold (dR a' a) in X. rewrite (Rmax_right 0) by exact X. exact H.
Qed.
Lemma i3_lin (f g h : R -> R -> R -> C) k : cc3 f -> cc3 g -> cc3 h -> (forall a b c, f a b c = g a b c + k * h a b c) ->
  CInt (fun a => CInt (fun b => CInt (f a b) (- PI) PI) (- PI) PI) (- PI) PI = CInt (fun a => CInt (fun b => CInt (g a b) (- PI) PI) (- PI) PI) (- PI) PI + k * CInt (fun a => CInt (fun b => CInt (h a b) (- PI) PI) (- PI) PI) (- PI) PI.
Proof.
  intros F G H E.
  assert (A1 : forall a b, CInt (f a b) (- PI) PI = CInt (g a b) (- PI) PI + k * CInt (h a b) (- PI) PI).
  { intros a b. apply CInt_val. apply (is_CInt_ext (fun c => g a b c + k * h a b c)); [intros c _; now rewrite E|]. apply is_CInt_plus; [apply f3_is, G|apply is_CInt_scal, f3_is, H]. }
  assert (A2 : forall a, CInt (fun b => CInt (f a b) (- PI) PI) (- PI) PI = CInt (fun b => CInt (g a b) (- PI) PI) (- PI) PI + k * CInt (fun b => CInt (h a b) (- PI) PI) (- PI) PI).
  { intros a. apply CInt_val. apply (is_CInt_ext (fun b => CInt (g a b) (- PI) PI + k * CInt (h a b) (- PI) PI)); [intros b _; now rewrite A1|]. apply is_CInt_plus; [apply f3_is2; [exact G|exact Hpi]|apply is_CInt_scal, f3_is2; [exact H|exact Hpi]]. }
  apply CInt_val. apply (is_CInt_ext (fun a => CInt (fun b => CInt (g a b) (- PI) PI) (- PI) PI + k * CInt (fun b => CInt (h a b) (- PI) PI) (- PI) PI)); [intros b _; now rewrite A2|]. apply is_CInt_plus; [apply f3_is3; [exact G|exact Hpi]|apply is_CInt_scal, f3_is3; [exact H|exact Hpi]].
Qed.
Lemma offK_0 : offK 0. Proof. right. cbn. lra. Qed.
Lemma Fj_rec j w : offK w -> Fj j w = q3m j + w * Fj (S j) w.
Proof.
  intros O. assert (C0 : cc3 (fun a b c => Cpow (RtoC (q3 a b c)) j)).
  { intros p. apply (pc_ext d3 (fun p => k3 j 0 0 (fst (fst p)) (snd (fst p)) (snd p))); [intros q; unfold k3; cbn [Cpow]; ring|apply (k3_cc3 j 0 0 offK_0)]. }
  unfold Fj, q3m, i3, i2, i1. rewrite (i3_lin (k3 j 1 w) (fun a b c => Cpow (RtoC (q3 a b c)) j) (k3 (S j) 1 w) w (k3_cc3 j 1 w O) C0 (k3_cc3 (S j) 1 w O)); [ring|]. intros a b c. unfold k3. cbn [Cpow]. field. apply q3_off, O.
Qed.

(** ** Taylor coefficients *)
Section Coef.
Variables (r rho : R).
Hypothesis Hr : (0 < rho < r)%R.
Hypothesis Hr1 : (r <= 1)%R.
Notation D := (disc 0 r).
Notation E := (circ rho).
Lemma Fj_disc j : holo D (Fj j).
Proof. destruct (Fj_holo j) as (f' & H). exists f'. intros w Hw. apply H. right. unfold disc in Hw. assert (X := Rmax_Cmod w). replace (w - 0) with w in Hw by ring. assert (Y := Rmax_l (Rabs (fst w)) (Rabs (snd w))). assert (Z := Rle_abs (fst w)). lra. Qed.
Lemma coef_cst c n : coef (fun _ => c) 0 rho (S n) = 0.
Proof.
  assert (T := th_const D c). assert (Z : holo D (fun _ : C => RtoC 0)) by apply holo_const. assert (A := coef_th r rho Hr _ _ (S n) T Z). assert (B := coef_th r rho Hr _ _ (S n) (th_const D 0) Z).
  assert (B' : coef (fun _ : C => RtoC 0) 0 rho (S n) = 0). { unfold coef. apply CInt_val. apply (is_CInt_ext (fun _ => 0)); [intros; ring|]. eapply is_CInt_eq; [apply is_CInt_const|ring]. }
  rewrite B' in A. assert (N := cn_neq0 n). replace (coef (fun _ => c) 0 rho (S n)) with (/ cn (S n) * (cn (S n) * coef (fun _ => c) 0 rho (S n))) by (field; exact N). rewrite <- A. ring.
Qed.
Lemma Fj_coef n : forall j, coef (Fj j) 0 rho n = RtoC (2 * PI) * q3m (j + n).
Proof.
  induction n as [|n IH]; intros j.
  - rewrite (coef_0 r rho Hr) by apply Fj_disc. rewrite (Fj_rec j 0 offK_0). replace (j + 0)%nat with j by lia. ring.
  - replace (j + S n)%nat with (S j + n)%nat by lia. rewrite <- IH. apply CInt_val. eapply is_CInt_eq; [apply is_CInt_ext with (2 := is_CInt_plus _ _ _ _ _ _ (coef_int r rho Hr (fun _ => q3m j) (S n) (holo_const _ _)) (coef_int r rho Hr (Fj (S j)) n (Fj_disc (S j))))|rewrite coef_cst; ring].
    intros t _. cbv beta. rewrite (Fj_rec j (0 + E t)).
    + cbn [Cpow]. assert (N := En r rho Hr t). field. exact N.
    + assert (Hw := E_disc r rho Hr t). right. unfold disc in Hw. assert (X := Rmax_Cmod (0 + E t)). replace (0 + E t - 0) with (0 + E t) in Hw by ring. assert (Y := Rmax_l (Rabs (fst (0 + E t))) (Rabs (snd (0 + E t)))). assert (Z := Rle_abs (fst (0 + E t))). lra.
Qed.
(** a solution of the equation with the same value at 0 *)
Lemma fcc_unique (d0 d1 d2 d3 : C -> C) : th D d0 d1 -> th D d1 d2 -> th D d2 d3 ->
  (forall w, D w -> 8 * d3 w = w * (10 * d3 w + 15 * d2 w + 9 * d1 w + 2 * d0 w) + w * w * (- (2) * d3 w + - (6) * d2 w + - (6) * d1 w + - (2) * d0 w)) -> d0 0 = 1 -> forall u, (Cmod u <= rho / 2)%R -> Fj 0 u = d0 u.
Proof.
  intros T0 T1 T2 ODE Z u Hu. assert (H0 := th_holo _ _ _ T0). assert (H1 := th_holo _ _ _ T1). assert (H2 := th_holo _ _ _ T2). assert (H3 := th_holo' _ _ _ (disc_open 0 r) T2).
  apply Csub_0. apply (coef_all r rho Hr (fun u => Fj 0 u - d0 u)); [apply (holo_minus D (Fj 0) d0); [apply Fj_disc|exact H0]| |exact Hu].
  assert (C1 : forall n, coef d1 0 rho n = RtoC (INR n) * coef d0 0 rho n) by (intros n; apply (coef_th r rho Hr); assumption).
  assert (C2 : forall n, coef d2 0 rho n = RtoC (INR n) * coef d1 0 rho n) by (intros n; apply (coef_th r rho Hr); assumption).
  assert (C3 : forall n, coef d3 0 rho n = RtoC (INR n) * coef d2 0 rho n) by (intros n; apply (coef_th r rho Hr); assumption).
  set (A := fun w => 10 * d3 w + 15 * d2 w + 9 * d1 w + 2 * d0 w). set (B := fun w => - (2) * d3 w + - (6) * d2 w + - (6) * d1 w + - (2) * d0 w).
  assert (lin : forall e3 e2 e1 e0 n, is_CInt (fun t => (e3 * d3 (0 + E t) + e2 * d2 (0 + E t) + e1 * d1 (0 + E t) + e0 * d0 (0 + E t)) * Cpow (/ E t) n) 0 (2 * PI) (e3 * coef d3 0 rho n + e2 * coef d2 0 rho n + e1 * coef d1 0 rho n + e0 * coef d0 0 rho n)).
  { intros e3 e2 e1 e0 n. apply is_CInt_ext with (2 := is_CInt_plus _ _ _ _ _ _ (is_CInt_plus _ _ _ _ _ _ (is_CInt_plus _ _ _ _ _ _ (is_CInt_scal e3 _ _ _ _ (coef_int r rho Hr d3 n H3)) (is_CInt_scal e2 _ _ _ _ (coef_int r rho Hr d2 n H2))) (is_CInt_scal e1 _ _ _ _ (coef_int r rho Hr d1 n H1))) (is_CInt_scal e0 _ _ _ _ (coef_int r rho Hr d0 n H0))). intros t _. cbv beta. ring. }
  assert (Bh : holo D (fun w => w * B w)).
  { apply (holo_mult D (fun w => w)); [apply holo_id|]. assert (S : forall k f, holo D f -> holo D (fun w => k * f w)) by (intros k f Hf; apply (holo_mult D (fun _ => k)); [apply holo_const|exact Hf]). apply (holo_plus D (fun w => - (2) * d3 w + - (6) * d2 w + - (6) * d1 w)); [apply (holo_plus D (fun w => - (2) * d3 w + - (6) * d2 w)); [apply holo_plus|]|]; apply S; assumption. }
  assert (S : forall n, 8 * coef d3 0 rho (S n) = (10 * coef d3 0 rho n + 15 * coef d2 0 rho n + 9 * coef d1 0 rho n + 2 * coef d0 0 rho n) + coef (fun w => w * B w) 0 rho n).
  { intros n. apply (is_CInt_unique (fun t => 8 * (d3 (0 + E t) * Cpow (/ E t) (S n))) 0 (2 * PI)); [apply is_CInt_scal, (coef_int r rho Hr), H3|].
    apply is_CInt_ext with (2 := is_CInt_plus _ _ _ _ _ _ (lin 10 15 9 2 n) (coef_int r rho Hr _ n Bh)). intros t _. cbv beta. assert (O := ODE _ (E_disc r rho Hr t)). cbn [Cpow]. assert (N := En r rho Hr t). fold (A (0 + E t)) in *. fold (B (0 + E t)) in *.
    transitivity (((0 + E t) * A (0 + E t) + (0 + E t) * (0 + E t) * B (0 + E t)) * (/ E t * Cpow (/ E t) n)); [field; exact N|rewrite <- O; ring]. }
  assert (SB0 : coef (fun w => w * B w) 0 rho 0 = 0) by (rewrite (coef_0 r rho Hr) by exact Bh; ring).
  assert (SB : forall n, coef (fun w => w * B w) 0 rho (Datatypes.S n) = - (2) * coef d3 0 rho n + - (6) * coef d2 0 rho n + - (6) * coef d1 0 rho n + - (2) * coef d0 0 rho n).
  { intros n. apply (is_CInt_unique (fun t => (fun w => w * B w) (0 + E t) * Cpow (/ E t) (Datatypes.S n)) 0 (2 * PI)); [apply (coef_int r rho Hr _ (Datatypes.S n) Bh)|]. apply is_CInt_ext with (2 := lin (- (2)) (- (6)) (- (6)) (- (2)) n). intros t _. cbv beta. fold (B (0 + E t)). cbn [Cpow]. assert (N := En r rho Hr t). field. exact N. }
  assert (C5 : RtoC 5 = 1 + 1 + 1 + 1 + 1) by (rewrite <- !RtoC_plus; f_equal; ring). assert (C15 : RtoC 15 = (1 + 1 + 1 + 1 + 1) * (1 + 1 + 1)) by (rewrite <- !RtoC_plus, <- RtoC_mult; f_equal; ring).
  assert (P : forall n, coef d0 0 rho n = RtoC (2 * PI) * q3m n /\ coef (fun w => w * B w) 0 rho n = - (2) * (cn n * cn n * cn n) * match n with O => 0 | Datatypes.S k => RtoC (2 * PI) * q3m k end).
  { induction n as [|n [IH IB]]. { split; [rewrite (coef_0 r rho Hr), Z, q3m_0 by exact H0; ring|rewrite SB0; change (INR 0) with 0%R; ring]. }
    split; [|rewrite SB, C3, C2, C1, IH, cn_S; sring].
    assert (Q := S n). assert (RR := q3m_rec n). rewrite IB in Q. rewrite !C3, !C2, !C1, IH in Q. assert (NN := cn_neq0 n). set (q := cn (Datatypes.S n)) in *. set (X := coef d0 0 rho (Datatypes.S n)) in *. assert (N8 : RtoC 8 <> 0) by (intros ZZ; apply (f_equal fst) in ZZ; cbn in ZZ; lra).
    replace X with (/ 8 * (/ q * (/ q * (/ q * (8 * (q * (q * (q * X)))))))) by (field; split; assumption). rewrite Q.
    transitivity (/ 8 * (/ q * (/ q * (/ q * (RtoC (2 * PI) * (8 * (q * q * q) * q3m (Datatypes.S n))))))); [|field; split; assumption]. rewrite RR. do 4 f_equal. destruct n as [|n]; rewrite ?C5, C15; sring. }
  intros n. transitivity (coef (Fj 0) 0 rho n - coef d0 0 rho n); [|rewrite Fj_coef, (proj1 (P n)); change (0 + n)%nat with n; ring].
  apply CInt_val. apply is_CInt_ext with (2 := is_CInt_minus _ _ _ _ _ _ (coef_int r rho Hr (Fj 0) n (Fj_disc 0)) (coef_int r rho Hr d0 n H0)). intros t _. cbv beta. ring.
Qed.
End Coef.
