(** * The square lattice: Brillouin zone integral and complete elliptic integral *)
From Coq Require Import Reals Lra Lia.
From Coquelicot Require Import Coquelicot.
From Verif Require Import Base CBase CExp CSqrt Lattice_Model Bethe_Proofs Bethe_Main Fourier_Filon LatMom_Int LatInt_Proofs LatInt_Hilbert LatInt_Fubini.
Local Open Scope C_scope.

Lemma sin_lip x : (Rabs (sin x) <= Rabs x)%R.
Proof.
  assert (P : forall t, (0 <= t)%R -> (Rabs (sin t) <= t)%R).
  { intros t Ht. destruct (Req_dec t 0) as [->|N]; [rewrite sin_0, Rabs_R0; lra|].
    destruct (Rle_dec t 1) as [H|H]; [|assert (B := SIN_bound t); apply Rabs_le; lra].
    assert (HP := PI_RGT_0). assert (P2 := PI2_1). assert (S0 : (0 <= sin t)%R) by (apply sin_ge_0; unfold PI2 in *; lra).
    rewrite Rabs_pos_eq by exact S0. left. apply sin_lt_x. lra. }
  destruct (Rle_dec 0 x) as [H|H]; [rewrite (Rabs_pos_eq x H); apply P, H|].
  replace (sin x) with (- sin (- x))%R by (rewrite sin_neg; ring). rewrite Rabs_Ropp, <- (Rabs_Ropp x), (Rabs_pos_eq (- x)) by lra. apply P. lra.
Qed.
Lemma cos_lip x y : (Rabs (cos x - cos y) <= Rabs (x - y))%R.
Proof.
  rewrite form2. rewrite !Rabs_mult. assert (A := sin_lip ((x - y) / 2)). assert (B := SIN_bound ((x + y) / 2)). apply Rabs_le in B.
  replace (Rabs (-2)) with 2%R by (rewrite Rabs_left; lra). unfold Rdiv in A at 2. rewrite Rabs_mult, (Rabs_pos_eq (/ 2)) in A by lra.
  assert (P1 := Rabs_pos (sin ((x - y) / 2))). assert (P2 := Rabs_pos (sin ((x + y) / 2))). nra.
Qed.

Section Z.
Variable D : R.
Hypothesis HD : (0 < D)%R.
Variable z : C.
Hypothesis Hz : off_band D z.
Let Dc : RtoC D <> 0. Proof. apply RtoC_neq0. lra. Qed.
Let z0 : z <> 0. Proof. apply (off_band_neq0 D HD). exact Hz. Qed.
Lemma band_gap : exists g, (0 < g)%R /\ forall s, (-1 <= s <= 1)%R -> (g <= Cmod (z - RtoC (D * s))%C)%R.
Proof.
  assert (Hw := off_band_cut D HD z Hz). exists (D * (dw (z / D)%C / 2))%R. split; [apply Rmult_lt_0_compat; [lra|]; assert (H := dw_pos _ Hw); lra|].
  intros s Hs. replace (z - RtoC (D * s)) with (RtoC D * (z / D - RtoC s)) by (rewrite RtoC_mult; field; exact Dc). rewrite Cmod_mult, Cmod_R, (Rabs_pos_eq D) by lra.
  apply Rmult_le_compat_l; [lra|]. apply dw_le; exact Hs.
Qed.
Lemma inv_clip (p : R -> R -> R) (Lp : R) : (forall u v, (-1 <= p u v <= 1)%R) -> lip2 Lp p -> exists L, clip2 L (fun u v => 1 / (z - RtoC (D * p u v))).
Proof.
  intros Hp HL. destruct band_gap as (g & G0 & G). assert (P := L_pos Lp p HL). exists (D * Lp / (g * g))%R. intros u v u' v'.
  assert (G1 := G _ (Hp u v)). assert (G2 := G _ (Hp u' v')).
  assert (N1 : z - RtoC (D * p u v) <> 0) by (intros E; rewrite E, Cmod_0 in G1; lra). assert (N2 : z - RtoC (D * p u' v') <> 0) by (intros E; rewrite E, Cmod_0 in G2; lra).
  replace (1 / (z - RtoC (D * p u v)) - 1 / (z - RtoC (D * p u' v'))) with (RtoC (D * (p u v - p u' v')) / ((z - RtoC (D * p u v)) * (z - RtoC (D * p u' v')))).
  2: { rewrite Rmult_minus_distr_l, RtoC_minus. field. split; assumption. }
  rewrite Cmod_div, Cmod_mult, Cmod_R, Rabs_mult, (Rabs_pos_eq D) by (try lra; apply Cmult_neq_0; assumption).
  assert (B := HL u v u' v'). set (X := (Rabs (u - u') + Rabs (v - v'))%R) in *. assert (X0 : (0 <= X)%R) by (unfold X; assert (Q1 := Rabs_pos (u - u')); assert (Q2 := Rabs_pos (v - v')); lra).
  replace (D * Lp / (g * g) * X)%R with (D * (Lp * X) * / (g * g))%R by (field; lra). unfold Rdiv.
  apply Rmult_le_compat; [apply Rmult_le_pos; [lra|apply Rabs_pos]|left; apply Rinv_0_lt_compat; nra|apply Rmult_le_compat_l; [lra|exact B]|apply Rinv_le_contravar; nra].
Qed.

(** the two parametrisations of the band *)
Definition p1 (a b : R) : R := ((cos a + cos b) / 2)%R.
Definition p2 (a q : R) : R := (cos (a - q) * cos q)%R.
Lemma p1_range a b : (-1 <= p1 a b <= 1)%R. Proof. unfold p1. destruct (COS_bound a), (COS_bound b). lra. Qed.
Lemma p2_range a b : (-1 <= p2 a b <= 1)%R. Proof. unfold p2. destruct (COS_bound (a - b)), (COS_bound b). nra. Qed.
Lemma p1_lip : lip2 1 p1.
Proof.
  intros u v u' v'. unfold p1. replace ((cos u + cos v) / 2 - (cos u' + cos v') / 2)%R with (/ 2 * ((cos u - cos u') + (cos v - cos v')))%R by field.
  rewrite Rabs_mult, (Rabs_pos_eq (/ 2)) by lra. assert (A := cos_lip u u'). assert (B := cos_lip v v'). assert (T := Rabs_triang (cos u - cos u') (cos v - cos v')). assert (Q1 := Rabs_pos (u - u')). assert (Q2 := Rabs_pos (v - v')). lra.
Qed.
Lemma p2_lip : lip2 2 p2.
Proof.
  intros u v u' v'. unfold p2. replace (cos (u - v) * cos v - cos (u' - v') * cos v')%R with ((cos (u - v) - cos (u' - v')) * cos v + cos (u' - v') * (cos v - cos v'))%R by ring.
  eapply Rle_trans; [apply Rabs_triang|]. rewrite !Rabs_mult. assert (A := cos_lip (u - v) (u' - v')). assert (B := cos_lip v v').
  assert (C1 : (Rabs (cos v) <= 1)%R) by (apply Rabs_le, COS_bound). assert (C2 : (Rabs (cos (u' - v')) <= 1)%R) by (apply Rabs_le, COS_bound).
  replace (u - v - (u' - v'))%R with ((u - u') - (v - v'))%R in A by ring. assert (T := Rabs_triang (u - u') (- (v - v'))). rewrite Rabs_Ropp in T. fold ((u - u') - (v - v'))%R in T.
  assert (P1 := Rabs_pos (cos (u - v) - cos (u' - v'))). assert (P2 := Rabs_pos (cos v - cos v')). 
  assert (X1 := Rmult_le_compat_l _ _ _ P1 C1). assert (X2 := Rmult_le_compat_r _ _ _ P2 C2). assert (Q1 := Rabs_pos (u - u')). assert (Q2 := Rabs_pos (v - v')). lra.
Qed.
Definition F1 (a b : R) : C := 1 / (z - RtoC (D * p1 a b)).
Definition F2 (a q : R) : C := 1 / (z - RtoC (D * p2 a q)).
Lemma F1_clip : exists L, clip2 L F1. Proof. exact (inv_clip p1 1 p1_range p1_lip). Qed.
Lemma F2_clip : exists L, clip2 L F2. Proof. exact (inv_clip p2 2 p2_range p2_lip). Qed.

Lemma F1_inner a : is_CInt (F1 a) (- PI) PI (2 * CInt (F2 a) 0 PI).
Proof.
  destruct F1_clip as [L1 H1]. destruct F2_clip as [L2 H2].
  assert (I2 : is_CInt (F2 a) 0 PI (CInt (F2 a) 0 PI)) by (apply CInt_ok; intros; apply (clip2_cont2 L2), H2).
  assert (Per : forall x, F1 a (x + 2 * PI)%R = F1 a x). { intros x. unfold F1, p1. replace (cos (x + 2 * PI)) with (cos x); [reflexivity|]. symmetry. replace (2 * PI)%R with (2 * INR 1 * PI)%R by (cbn; ring). apply cos_period. }
  assert (Cont : forall x, ccont (F1 a) x) by (intros; apply (clip2_cont2 L1), H1).
  replace PI with (- PI + 2 * PI)%R at 2 by ring. apply (periodic_any (F1 a) (2 * PI) (a - 2 * PI)); [exact Cont|exact Per|]. replace (a - 2 * PI + 2 * PI)%R with a by ring.
  assert (I1 : is_CInt (F1 a) (a - 2 * PI) a (CInt (F1 a) (a - 2 * PI) a)) by (apply CInt_ok; intros; apply Cont).
  assert (J := is_CInt_opp_var _ _ _ _ I1). apply (is_CInt_shift _ _ _ _ a) in J. replace (- a + a)%R with (2 * 0)%R in J by ring. replace (- (a - 2 * PI) + a)%R with (2 * PI)%R in J by ring.
  apply is_CInt_double in J. apply (is_CInt_scal 2) in I2.
  eapply is_CInt_eq; [exact I1|]. apply (is_CInt_unique (fun q => 2 * F2 a q) 0 PI); [|exact I2]. apply is_CInt_ext with (2 := J). intros q _. f_equal. unfold F1, F2, p1, p2. do 4 f_equal.
  replace (- (2 * q - a))%R with (a - q - q)%R by ring. replace (cos a) with (cos (a - q + q)) by (f_equal; ring). rewrite (cos_plus (a - q) q), (cos_minus (a - q) q). field.
Qed.

(** integral over a chain of any amplitude D s, |s| <= 1 *)
Lemma chain_int s : (-1 <= s <= 1)%R -> is_CInt (fun a => 1 / (z - RtoC (D * (s * cos a)))) (- PI) PI (RtoC (2 * PI) / (z * csqrt (1 - (RtoC D / z) * (RtoC D / z) * RtoC (s * s)))).
Proof.
  assert (Pos : forall s, (0 <= s <= 1)%R -> is_CInt (fun a => 1 / (z - RtoC (D * (s * cos a)))) (- PI) PI (RtoC (2 * PI) / (z * csqrt (1 - (RtoC D / z) * (RtoC D / z) * RtoC (s * s))))).
  { clear s. intros s Hs. destruct (Req_dec s 0) as [->|S0].
    - apply (is_CInt_ext (fun _ => 1 / z)). { intros a _. replace (D * (0 * cos a))%R with 0%R by ring. f_equal. change (RtoC 0) with (0 : C). ring. }
      eapply is_CInt_eq; [apply is_CInt_const|]. replace (0 * 0)%R with 0%R by ring. replace (1 - RtoC D / z * (RtoC D / z) * RtoC 0) with (RtoC 1) by (change (RtoC 1) with (1 : C); change (RtoC 0) with (0 : C); ring).
      rewrite csqrt_R, sqrt_1 by lra. replace (PI - - PI)%R with (2 * PI)%R by ring. field. exact z0.
    - assert (Ds : (0 < D * s)%R) by (apply Rmult_lt_0_compat; lra). assert (Off : off_band (D * s) z). { destruct Hz as [H|H]; [left; exact H|right]. nra. }
      assert (S1 := sq_neq0 (z / RtoC (D * s)) (off_band_cut (D * s) Ds z Off)).
      assert (I := onedim_int (D * s) Ds z Off _ (onedim_ok (D * s) Ds z z0 S1)).
      assert (E : sq (z / RtoC (D * s)) = csqrt (1 - RtoC D / z * (RtoC D / z) * RtoC (s * s))).
      { rewrite <- sq_alt by (exact Ds || exact z0). f_equal. rewrite !RtoC_mult. field. exact z0. }
      rewrite E in *. eapply is_CInt_eq; [apply is_CInt_ext with (2 := I)|].
      + intros a _. replace (D * (s * cos a))%R with (D * s * cos a)%R by ring. reflexivity.
      + field. split; assumption. }
  intros Hs. destruct (Rle_dec 0 s) as [H|H]; [apply Pos; lra|].
  assert (I := Pos (- s)%R ltac:(lra)). replace (- s * - s)%R with (s * s)%R in I by ring.
  assert (Sh := is_CInt_shift _ _ _ _ PI I). replace (- PI + PI)%R with 0%R in Sh by ring.
  assert (Sh' : is_CInt (fun a => 1 / (z - RtoC (D * (s * cos a)))) 0 (0 + 2 * PI) (RtoC (2 * PI) / (z * csqrt (1 - (RtoC D / z) * (RtoC D / z) * RtoC (s * s))))).
  { replace (0 + 2 * PI)%R with (PI + PI)%R by ring. apply is_CInt_ext with (2 := Sh). intros a _. replace (D * (- s * cos (a - PI)))%R with (D * (s * cos a))%R; [reflexivity|]. rewrite cos_minus, cos_PI, sin_PI. ring. }
  replace PI with (- PI + 2 * PI)%R at 2 by ring. apply (periodic_any _ (2 * PI) 0 (- PI)); [| |exact Sh'].
  - intros x. apply (ccont_ext (fun a => 1 * / (z - RtoC (D * (s * cos a))))); [reflexivity|]. apply ccont_mult; [apply ccont_const|]. apply ccont_inv.
    + apply ccont_minus; [apply ccont_const|]. apply ccont_R. apply (ex_derive_continuous (fun a => D * (s * cos a))%R). auto_derive. trivial.
    + apply (ze_neq0 D z Hz). destruct (COS_bound x). assert (-1 <= s * cos x <= 1)%R by nra. nra.
  - intros x. replace (cos (x + 2 * PI)) with (cos x); [reflexivity|]. symmetry. replace (2 * PI)%R with (2 * INR 1 * PI)%R by (cbn; ring). apply cos_period.
Qed.
Lemma F2_inner q : is_CInt (fun a => F2 a q) (- PI) PI (RtoC (2 * PI) / (z * csqrt (1 - (RtoC D / z) * (RtoC D / z) * RtoC (cos q * cos q)))).
Proof.
  destruct F2_clip as [L2 H2]. assert (I := chain_int (cos q) (COS_bound q)). apply (is_CInt_shift _ _ _ _ q) in I.
  assert (I' : is_CInt (fun a => F2 a q) (- PI + q) (- PI + q + 2 * PI) (RtoC (2 * PI) / (z * csqrt (1 - (RtoC D / z) * (RtoC D / z) * RtoC (cos q * cos q))))).
  { replace (- PI + q + 2 * PI)%R with (PI + q)%R by ring. apply is_CInt_ext with (2 := I). intros a _. unfold F2, p2. rewrite (Rmult_comm (cos q)). reflexivity. }
  replace PI with (- PI + 2 * PI)%R at 2 by ring. apply (periodic_any _ (2 * PI) (- PI + q) (- PI)); [| |exact I'].
  - intros x. apply (clip2_cont1 L2), H2.
  - intros x. unfold F2, p2. replace (x + 2 * PI - q)%R with (x - q + 2 * PI)%R by ring. replace (cos (x - q + 2 * PI)) with (cos (x - q)); [reflexivity|]. symmetry. replace (2 * PI)%R with (2 * INR 1 * PI)%R by (cbn; ring). apply cos_period.
Qed.

(** the parameter of the elliptic integral stays off its branch cut [1, oo) *)
Lemma param_off : snd (RtoC D / z * (RtoC D / z)) <> 0%R \/ (fst (RtoC D / z * (RtoC D / z))%C < 1)%R.
Proof.
  destruct (Req_dec (snd (RtoC D / z * (RtoC D / z))) 0) as [E|N]; [right|left; exact N].
  destruct (Rlt_dec (fst (RtoC D / z * (RtoC D / z))%C) 1) as [H|H]; [exact H|exfalso].
  set (m := RtoC D / z * (RtoC D / z)) in *. assert (Em : m * (z * z) = RtoC (D * D)) by (unfold m; rewrite RtoC_mult; field; exact z0). clearbody m.
  replace m with (RtoC (fst m)) in * by (apply C_ext; [reflexivity|symmetry; exact E]). cbn [fst RtoC] in H. set (r := fst m) in *. clearbody r. clear m E.
  revert Em Hz. clear Dc z0. destruct z as [x y]. intros Em Hz. assert (E1 := f_equal fst Em). assert (E2 := f_equal snd Em). cbn in E1, E2. unfold off_band in Hz. cbn [fst snd] in Hz.
  assert (XY : (x * y = 0)%R) by nra. destruct (Req_dec y 0) as [Y|Y].
  - destruct Hz as [Q|Q]; [contradiction|]. subst y. assert (D * D < x * x)%R; [|nra]. rewrite <- (Rabs_pos_eq (x * x)), Rabs_mult by nra. nra.
  - assert (X : x = 0%R) by (apply Rmult_integral in XY; destruct XY; [assumption|contradiction]). subst x. nra.
Qed.
End Z.

(** ** Legendre's complete elliptic integral of the first kind *)
Lemma offcut_param (m : C) s : snd m <> 0%R \/ (fst m < 1)%R -> (0 <= s <= 1)%R -> offcut (1 - m * RtoC s).
Proof.
  intros Hm Hs. unfold offcut. cbn [fst snd Cminus Cplus Copp Cmult RtoC]. destruct (Req_dec (snd m) 0) as [E|N].
  - right. destruct Hm as [H|H]; [contradiction|]. rewrite E. destruct (Req_dec s 0) as [->|S]; [lra|]. assert (0 < s * (1 - fst m))%R by (apply Rmult_lt_0_compat; lra). lra.
  - destruct (Req_dec s 0) as [->|S]; [right; lra|left]. intros Q. apply N. assert (snd m * s = 0)%R by lra. apply Rmult_integral in H. destruct H; [assumption|contradiction].
Qed.
Lemma csqrt_cont_along (f : R -> C) x : ccont f x -> offcut (f x) -> ccont (fun t => csqrt (f t)) x.
Proof.
  intros [A B] Ho. assert (P := csqrt_pos _ Ho).
  assert (K : forall e, (0 < e)%R -> exists d, (0 < d)%R /\ forall t, (Rabs (t - x) < d)%R -> (Cmod (csqrt (f t) - csqrt (f x))%C < e)%R).
  { intros e He. apply continuity_pt_filterlim in A, B. set (e' := (e * fst (csqrt (f x)) / 2)%R). assert (E' : (0 < e')%R) by (unfold e'; nra).
    destruct (A e' E') as (d1 & P1 & B1). destruct (B e' E') as (d2 & P2 & B2). exists (Rmin d1 d2). split; [apply Rmin_glb_lt; assumption|]. intros t Ht.
    assert (M1 := Rmin_l d1 d2). assert (M2 := Rmin_r d1 d2).
    assert (Q : forall (g : R -> R) d, (Rabs (t - x) < d)%R -> (forall x0, D_x no_cond x x0 /\ dist R_met x0 x < d -> dist R_met (g x0) (g x) < e')%R -> (Rabs (g t - g x) < e')%R).
    { intros g d Hd Hg. destruct (Req_dec t x) as [->|N]; [rewrite Rminus_eq_0, Rabs_R0; exact E'|]. apply Hg. split; [split; [exact I|congruence]|exact Hd]. }
    assert (X1 := Q (fun t => fst (f t)) d1 ltac:(lra) B1). assert (X2 := Q (fun t => snd (f t)) d2 ltac:(lra) B2). cbv beta in X1, X2.
    eapply Rle_lt_trans; [apply csqrt_lip, P|]. apply Rmult_lt_reg_r with (fst (csqrt (f x))); [exact P|]. unfold Rdiv. rewrite Rmult_assoc, Rinv_l, Rmult_1_r by lra.
    replace (f t - f x) with (RtoC (fst (f t) - fst (f x)) + Ci * RtoC (snd (f t) - snd (f x))) by (apply C_ext; cbn; ring).
    eapply Rle_lt_trans; [apply Cmod_triangle|]. rewrite Cmod_mult, !Cmod_R. replace (Cmod Ci) with 1%R by (unfold Cmod, Ci; cbn; rewrite <- sqrt_1 at 1; f_equal; ring). unfold e' in *. lra. }
  split; apply continuity_pt_filterlim; intros e He; destruct (K e He) as (d & Pd & Bd); exists d; (split; [exact Pd|]); intros t [_ Ht]; specialize (Bd t Ht).
  - change (Rabs (fst (csqrt (f t) - csqrt (f x))%C) < e)%R. eapply Rle_lt_trans; [|exact Bd]. eapply Rle_trans; [|apply Rmax_Cmod]. apply Rmax_l.
  - change (Rabs (snd (csqrt (f t) - csqrt (f x))%C) < e)%R. eapply Rle_lt_trans; [|exact Bd]. eapply Rle_trans; [|apply Rmax_Cmod]. apply Rmax_r.
Qed.
Lemma K_integrand_cont (m : C) t : snd m <> 0%R \/ (fst m < 1)%R -> ccont (fun t => 1 / csqrt (1 - m * RtoC (sin t * sin t))) t.
Proof.
  intros Hm. assert (O : offcut (1 - m * RtoC (sin t * sin t))) by (apply offcut_param; [exact Hm|]; destruct (SIN_bound t); nra).
  apply (ccont_ext (fun t => 1 * / csqrt (1 - m * RtoC (sin t * sin t)))); [reflexivity|]. apply ccont_mult; [apply ccont_const|]. apply ccont_inv.
  - apply csqrt_cont_along; [|exact O]. apply ccont_minus; [apply ccont_const|]. apply ccont_mult; [apply ccont_const|]. apply ccont_R. apply (ex_derive_continuous (fun t => sin t * sin t)%R). auto_derive. trivial.
  - intros E. assert (P := csqrt_pos _ O). rewrite E in P. cbn in P. lra.
Qed.
Lemma K_ex (m : C) : snd m <> 0%R \/ (fst m < 1)%R -> legendre_K m (CInt (fun t => 1 / csqrt (1 - m * RtoC (sin t * sin t))) 0 (PI / 2)).
Proof. intros Hm. apply CInt_ok. intros t _. apply K_integrand_cont, Hm. Qed.
(** the same integral over [0, pi] with the cosine *)
Lemma K_cos (m k : C) : legendre_K m k -> is_CInt (fun q => 1 / csqrt (1 - m * RtoC (cos q * cos q))) 0 PI (k + k).
Proof.
  intros H. apply is_CInt_chasles with (PI / 2)%R.
  - assert (A := is_CInt_shift _ _ _ _ (PI / 2) (is_CInt_opp_var _ _ _ _ H)). replace (- (PI / 2) + PI / 2)%R with 0%R in A by ring. replace (- 0 + PI / 2)%R with (PI / 2)%R in A by ring.
    apply is_CInt_ext with (2 := A). intros q _. replace (- (q - PI / 2))%R with (PI / 2 - q)%R by ring. now rewrite sin_shift.
  - assert (A := is_CInt_shift _ _ _ _ (PI / 2) H). replace (0 + PI / 2)%R with (PI / 2)%R in A by ring. replace (PI / 2 + PI / 2)%R with PI in A by field.
    apply is_CInt_ext with (2 := A). intros q _. replace (sin (q - PI / 2)) with (- cos q)%R; [now replace (- cos q * - cos q)%R with (cos q * cos q)%R by ring|].
    rewrite sin_minus, cos_PI2, sin_PI2. ring.
Qed.

(** the iterated integral over the Brillouin zone *)
Lemma square_bz D (z k : C) : (0 < D)%R -> off_band D z -> legendre_K (RtoC D / z * (RtoC D / z)) k ->
  is_CInt (fun a => CInt (F1 D z a) (- PI) PI) (- PI) PI (RtoC (4 * (PI * PI)) * (RtoC (2 / PI) / z * k)).
Proof.
  intros HD Hz Hk. assert (HP := PI_RGT_0). assert (z0 := off_band_neq0 D HD z Hz). destruct (F2_clip D HD z Hz) as [L2 H2].
  apply (is_CInt_ext (fun a => 2 * CInt (F2 D z a) 0 PI)). { intros a _. symmetry. apply CInt_val, F1_inner; assumption. }
  eapply is_CInt_eq; [apply is_CInt_scal, (cfubini L2 (F2 D z) (- PI) PI 0 PI H2)|].
  assert (E : CInt (fun v => CInt (fun u => F2 D z u v) (- PI) PI) 0 PI = RtoC (2 * PI) / z * (k + k)).
  { apply CInt_val. apply (is_CInt_ext (fun q => RtoC (2 * PI) / z * (1 / csqrt (1 - RtoC D / z * (RtoC D / z) * RtoC (cos q * cos q))))); [|apply is_CInt_scal, K_cos, Hk].
    intros q _. rewrite (CInt_val _ _ _ _ (F2_inner D HD z Hz q)).
    assert (O : offcut (1 - RtoC D / z * (RtoC D / z) * RtoC (cos q * cos q))) by (apply offcut_param; [apply param_off; assumption|]; destruct (COS_bound q); nra).
    assert (N : csqrt (1 - RtoC D / z * (RtoC D / z) * RtoC (cos q * cos q)) <> 0) by (intros E; assert (P := csqrt_pos _ O); rewrite E in P; cbn in P; lra).
    revert N. generalize (csqrt (1 - RtoC D / z * (RtoC D / z) * RtoC (cos q * cos q))). intros c N. field. split; assumption. }
  rewrite E. rewrite RtoC_div by lra. replace (RtoC (4 * (PI * PI))) with ((1 + 1) * (1 + 1) * RtoC PI * RtoC PI) by (rewrite <- C2_eq, <- !RtoC_mult; f_equal; ring). rewrite (RtoC_mult 2 PI), C2_eq. field. split; [apply RtoC_neq0; lra|exact z0].
Qed.
