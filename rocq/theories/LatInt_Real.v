(** * Continuation of the Hilbert transforms to real frequencies outside of the band; the box *)
From Coq Require Import Reals Lra Lia Ratan.
From Coquelicot Require Import Coquelicot.
From Verif Require Import Base CBase CExp CSqrt Lattice_Model Bethe_Proofs Bethe_Main LatDos_Proofs Fourier_Filon LatMom_Int LatInt_Proofs LatInt_Hilbert.
Local Open Scope C_scope.

Lemma clim_unique f a b : clim f a -> clim f b -> a = b.
Proof.
  intros Ha Hb. destruct (Ceq_dec a b) as [E|N]; [exact E|exfalso].
  assert (P : (0 < Cmod (a - b)%C)%R). { apply Cmod_gt_0. intros E. apply N. transitivity (a - b + b); [ring|rewrite E; ring]. }
  destruct (Ha (Cmod (a - b)%C / 2)%R ltac:(lra)) as (d1 & P1 & B1). destruct (Hb (Cmod (a - b)%C / 2)%R ltac:(lra)) as (d2 & P2 & B2).
  set (h := (Rmin d1 d2 / 2)%R). assert (M1 := Rmin_l d1 d2). assert (M2 := Rmin_r d1 d2). assert (M3 : (0 < Rmin d1 d2)%R) by (apply Rmin_glb_lt; lra).
  specialize (B1 h ltac:(unfold h; lra)). specialize (B2 h ltac:(unfold h; lra)).
  assert (T := Cmod_triangle (f h - b) (- (f h - a))). rewrite Cmod_opp in T. replace (f h - b + - (f h - a)) with (a - b) in T by ring. lra.
Qed.
Lemma cont_bounded (d : R -> R) a b : (a <= b)%R -> (forall e, (a <= e <= b)%R -> continuous d e) -> exists M, (0 <= M)%R /\ forall e, (a <= e <= b)%R -> (Rabs (d e) <= M)%R.
Proof.
  intros Hab Hc. destruct (continuity_ab_maj (fun e => Rabs (d e)) a b Hab) as [m [Hm _]].
  - intros e He. apply continuity_pt_filterlim. apply (continuous_comp d Rabs); [apply Hc, He|apply continuous_Rabs].
  - exists (Rabs (d m)). split; [apply Rabs_pos|exact Hm].
Qed.
Lemma hilbert_real (d : R -> R) D (x : R) (g : R -> C) l : (0 < D)%R -> (D < Rabs x)%R -> (forall e, (- D <= e <= D)%R -> continuous d e) ->
  (forall h, (0 < h)%R -> is_CInt (fun e => RtoC (d e) * / ((x, h) - RtoC e)) (- D) D (g h)) -> clim g l ->
  is_CInt (fun e => RtoC (d e) * / (RtoC x - RtoC e)) (- D) D l.
Proof.
  intros HD Hx Hd Hg Hl. assert (Off : off_band D (RtoC x)) by (right; exact Hx).
  assert (I0 : is_CInt (fun e => RtoC (d e) * / (RtoC x - RtoC e)) (- D) D (CInt (fun e => RtoC (d e) * / (RtoC x - RtoC e)) (- D) D)).
  { apply CInt_ok. intros e He. rewrite Rmin_left, Rmax_right in He by lra. apply ccont_mult; [apply ccont_R, Hd, He|apply (inv_z_cont D (RtoC x) Off e He)]. }
  set (l0 := CInt _ _ _) in *. clearbody l0. replace l with l0; [exact I0|]. apply (clim_unique g); [|exact Hl].
  destruct (cont_bounded d (- D) D ltac:(lra) Hd) as (M & HM & BM). set (del := (Rabs x - D)%R). assert (Hdel : (0 < del)%R) by (unfold del; lra).
  intros t Ht. exists (t * (del * del) / (2 * ((M + 1) * (D + D))))%R. split.
  { apply Rdiv_lt_0_compat; [|nra]. apply Rmult_lt_0_compat; [lra|nra]. }
  intros h Hh.
  assert (B := is_CInt_minus _ _ _ _ _ _ (Hg h (proj1 Hh)) I0).
  apply Rle_lt_trans with (2 * (M * (h / (del * del)) * (D - - D)))%R.
  - eapply CInt_bound with (3 := B); [lra|]. intros e He. cbv beta.
    assert (N0 := ze_neq0 D (RtoC x) Off e He). assert (Off1 : off_band D (x, h)) by (left; cbn; lra). assert (N1 := ze_neq0 D (x, h) Off1 e He).
    replace (RtoC (d e) * / ((x, h) - RtoC e) - RtoC (d e) * / (RtoC x - RtoC e)) with (RtoC (d e) * ((RtoC x - (x, h)) / (((x, h) - RtoC e) * (RtoC x - RtoC e)))) by (field; split; assumption).
    rewrite Cmod_mult, Cmod_R, Cmod_div, Cmod_mult by (apply Cmult_neq_0; assumption).
    replace (RtoC x - (x, h)) with (RtoC h * - Ci) by (apply C_ext; cbn; ring). rewrite Cmod_mult, Cmod_R, Cmod_opp.
    replace (Cmod Ci) with 1%R by (unfold Cmod, Ci; cbn; rewrite <- sqrt_1 at 1; f_equal; ring). rewrite Rmult_1_r, (Rabs_pos_eq h) by lra.
    assert (L : forall w : C, fst w = (x - e)%R -> (del <= Cmod w)%R).
    { intros w Ew. assert (R := Rmax_Cmod w). assert (Q := Rmax_l (Rabs (fst w)) (Rabs (snd w))). rewrite Ew in Q at 1. unfold del.
      assert (Rabs x - D <= Rabs (x - e))%R; [unfold Rabs; repeat destruct Rcase_abs; lra|lra]. }
    assert (L1 := L ((x, h) - RtoC e) ltac:(cbn; ring)). assert (L2 := L (RtoC x - RtoC e) ltac:(cbn; ring)).
    apply Rmult_le_compat; [apply Rabs_pos| |apply BM, He|].
    + apply Rdiv_le_0_compat; [lra|nra].
    + unfold Rdiv. apply Rmult_le_compat_l; [lra|]. apply Rinv_le_contravar; nra.
  - destruct Hh as [Hh1 Hh2]. assert (Q : (0 < 2 * ((M + 1) * (D + D)))%R) by nra.
    apply (Rmult_lt_compat_r (2 * ((M + 1) * (D + D)))) in Hh2; [|exact Q].
    replace (t * (del * del) / (2 * ((M + 1) * (D + D))) * (2 * ((M + 1) * (D + D))))%R with (t * (del * del))%R in Hh2 by (field; split; lra).
    apply Rmult_lt_reg_r with (del * del)%R; [nra|]. replace (2 * (M * (h / (del * del)) * (D - - D)) * (del * del))%R with (2 * (M * (D + D)) * h)%R by (field; lra). nra.
Qed.

Section Coord.
Variables (D Z : R).
Hypothesis HD : (0 < D)%R.
Hypothesis HZ : (2 < Z)%R.
Lemma bethez_hilbert (z : C) (d : R -> R) G : off_band D z -> (forall e, bethez_dos e D Z = Ok (d e)) -> bethez_gf_z z D Z = Ok G ->
  is_CInt (fun e => RtoC (d e) / (z - RtoC e)) (- D) D G.
Proof.
  intros Hz Hd HG. assert (z0 := off_band_neq0 D HD z Hz). rewrite (bethez_ok D HD z Z z0 ltac:(lra) (or_introl HZ)) in HG. injection HG as <-.
  apply (is_CInt_ext (fun e => RtoC (zdos D Z e) * / (z - RtoC e))).
  { intros e He. rewrite Rmin_left, Rmax_right in He by lra. rewrite (zdos_ok D HD Z HZ e (d e) ltac:(lra) (Hd e)). reflexivity. }
  destruct (Req_dec (snd z) 0) as [Y|Y]; [|apply bethez_hilbert_off; assumption].
  assert (Hx : (D < Rabs (fst z))%R) by (destruct Hz; [contradiction|assumption]).
  replace z with (RtoC (fst z)) in * by (apply C_ext; [reflexivity|symmetry; exact Y]). cbn [fst RtoC] in Hx. set (x := fst z) in *. clearbody x. clear Y.
  apply hilbert_real with (g := fun h => 2 * (Z - 1) / ((x, h) * (Z - 2 + Z * sq ((x, h) / D)))); [exact HD|exact Hx|apply zdos_cont; assumption| |].
  { intros h Hh. apply bethez_hilbert_off; [exact HD|left; cbn; lra|exact HZ|cbn; lra]. }
  assert (x0 : x <> 0%R) by (intros E; rewrite E, Rabs_R0 in Hx; lra).
  assert (Cx : clim (fun h => (x, h)) (RtoC x)).
  { intros t Ht. exists t. split; [exact Ht|]. intros h Hh. replace ((x, h) - RtoC x) with (RtoC h * Ci) by (apply C_ext; cbn; ring).
    rewrite Cmod_mult, Cmod_R. replace (Cmod Ci) with 1%R by (unfold Cmod, Ci; cbn; rewrite <- sqrt_1 at 1; f_equal; ring). rewrite Rabs_pos_eq; lra. }
  assert (Cw := clim_w D HD x). change (clim (fun h => (x, h) / D) (RtoC (x / D))) in Cw.
  assert (e1 : (1 < Rabs (x / D))%R). { unfold Rdiv. rewrite Rabs_mult, (Rabs_pos_eq (/ D)) by (left; apply Rinv_0_lt_compat; lra). apply Rmult_lt_reg_r with D; [lra|]. rewrite Rmult_assoc, Rinv_l by lra. lra. }
  assert (E2 : (1 < x / D * (x / D))%R). { rewrite <- (Rabs_pos_eq (x / D * (x / D))), Rabs_mult by nra. nra. }
  assert (Cs : clim (fun h => sq ((x, h) / D)) (sq (RtoC x / D))).
  { rewrite <- RtoC_div by lra. unfold sq. rewrite <- RtoC_mult, <- RtoC_div, <- RtoC_minus by lra.
    assert (P : (0 <= 1 - 1 / (x / D * (x / D)))%R). { assert (/ (x / D * (x / D)) < / 1)%R by (apply Rinv_lt_contravar; lra). rewrite Rinv_1 in H. unfold Rdiv at 1. lra. }
    rewrite (csqrt_R _ P). apply clim_csqrt; [|exact P].
    replace (RtoC (1 - 1 / (x / D * (x / D)))) with (1 + (-(1)) * / (RtoC (x / D) * RtoC (x / D))) by (rewrite RtoC_minus, (RtoC_div 1), (RtoC_mult (x / D)) by lra; unfold Cdiv; ring).
    apply clim_ext with (fun h => 1 + (-(1)) * / ((x, h) / D * ((x, h) / D))); [intros; unfold Cdiv; ring|].
    apply clim_add; [apply clim_const|]. apply clim_scal. apply clim_inv; [apply clim_mul; apply Cw|]. rewrite <- RtoC_mult. apply RtoC_neq0. lra. }
  unfold Cdiv at 1 4. apply clim_mul; [apply clim_const|]. apply clim_inv.
  - apply clim_mul; [exact Cx|]. apply clim_add; [apply clim_const|]. apply clim_scal, Cs.
  - apply Cmult_neq_0; [apply RtoC_neq0, x0|]. apply (zden_neq D (RtoC x) Z); [apply RtoC_neq0, x0|lra|left; exact HZ].
Qed.
(** normalisation *)
Lemma bethez_norm (d : R -> R) : (forall e, bethez_dos e D Z = Ok (d e)) -> is_RInt d (- D) D 1%R.
Proof.
  intros Hd. assert (HP := PI_RGT_0).
  assert (H : is_CInt (fun e => RtoC (zdos D Z e)) (- D) D 1).
  - apply cos_subst; [exact HD|intros e He; apply ccont_R, zdos_cont; assumption|].
    set (kap := (Z / (2 * sqrt (Z - 1)))%R). assert (K1 := kap_gt1 Z HZ). assert (K2 := kap_sqr Z HZ). fold kap in K1, K2. assert (KC := kap_cut Z HZ). assert (KU := kap_uu Z HZ). fold kap in KC, KU.
    assert (A := sin2_int _ KC). assert (B := sin2_neg _ KC). apply (is_CInt_plus _ _ _ _ _ _ A) in B. apply (is_CInt_scal (RtoC (Z / (4 * PI * kap)))) in B.
    assert (E : RtoC (Z / (4 * PI * kap)) * (RtoC PI * uu (RtoC kap) + RtoC PI * uu (RtoC kap)) = 1).
    { rewrite KU. change (1 : C) with (RtoC 1). rewrite <- !RtoC_mult, <- RtoC_plus, <- RtoC_mult. f_equal. field. repeat split; lra. }
    rewrite E in B. apply is_CInt_ext with (2 := B). intros x Hx. rewrite Rmin_left, Rmax_right in Hx by lra.
    unfold zdos. rewrite sqrt_cos by (assumption || lra). replace (D * cos x / D)%R with (cos x) by (field; lra). rewrite <- K2. destruct (COS_bound x).
    rewrite <- (RtoC_minus kap), <- (RtoC_plus kap), <- !RtoC_div, <- RtoC_plus, <- !RtoC_mult by lra. f_equal. field. repeat split; nra.
  - destruct H as [H _]. cbn [fst RtoC] in H. apply (is_RInt_ext (V := R_NormedModule)) with (2 := H). intros e He. rewrite Rmin_left, Rmax_right in He by lra.
    symmetry. apply zdos_ok; try assumption; [lra|apply Hd].
Qed.
End Coord.

(** ** the box *)
Lemma clog_cexp (L : C) : (- PI < snd L < PI)%R -> clog (cexp L) = L.
Proof.
  intros HL. destruct L as [a b]. cbn [fst snd] in HL. assert (P := exp_pos a).
  assert (M : Cmod (cexp (a, b)) = exp a).
  { unfold Cmod, cexp; cbn [fst snd]. replace ((exp a * cos b) ^ 2 + (exp a * sin b) ^ 2)%R with (exp a * exp a)%R; [apply sqrt_square; lra|].
    assert (H := cos2_sin2 b). cbn [pow]. nra. }
  unfold clog. rewrite M, ln_exp. f_equal. unfold carg. rewrite M. unfold cexp; cbn [fst snd].
  replace (exp a * cos b / exp a)%R with (cos b) by (field; lra). destruct (Rle_dec 0 (exp a * sin b)) as [H|H].
  - destruct (Rlt_dec b 0) as [N|N].
    + exfalso. assert (sin b < 0)%R by (apply sin_lt_0_var; lra). nra.
    + apply acos_cos. lra.
  - destruct (Rlt_dec b 0) as [N|N].
    + rewrite <- cos_neg, acos_cos by lra. ring.
    + exfalso. apply H. apply Rmult_le_pos; [lra|]. apply sin_ge_0; lra.
Qed.
Lemma RInt_zero a b : is_RInt (V := R_NormedModule) (fun _ => 0%R) a b 0%R.
Proof. evar_last; [apply (is_RInt_const (V := R_NormedModule))|]. unfold scal; cbn. unfold mult; cbn. ring. Qed.
Section Box.
Variable D : R.
Hypothesis HD : (0 < D)%R.
Variable z : C.
Hypothesis Hz : off_band D z.
Let x := fst z. Let y := snd z.
Definition mod2 (e : R) : R := ((x - e) * (x - e) + y * y)%R.
Lemma mod2_pos e : (- D <= e <= D)%R -> (0 < mod2 e)%R.
Proof.
  intros He. unfold mod2. destruct Hz as [H|H]; fold x y in H.
  { assert (0 < y * y)%R by (apply (Rsqr_pos_lt y), H). assert (0 <= (x - e) * (x - e))%R by apply (Rle_0_sqr (x - e)). lra. }
  assert (N : (x - e <> 0)%R); [|assert (0 < (x - e) * (x - e))%R by (apply (Rsqr_pos_lt (x - e)), N); assert (0 <= y * y)%R by apply (Rle_0_sqr y); lra].
  intros E. replace x with e in H by lra. assert (Rabs e <= D)%R by (apply Rabs_le; lra). lra.
Qed.
(** an antiderivative of 1/(z - e) *)
Definition prim (e : R) : C := ((- (ln (mod2 e) / 2))%R, (if Req_EM_T y 0 then 0 else - atan ((e - x) / y))%R).
Lemma prim_int : is_CInt (fun e => / (z - RtoC e)) (- D) D (prim D - prim (- D)).
Proof.
  split.
  - cbn [fst Cminus Cplus Copp prim].
    apply (is_RInt_ext (V := R_NormedModule) (fun e => (x - e) / mod2 e)%R).
    { intros e He. rewrite fst_inv. unfold mod2. cbn [fst snd Cminus Cplus Copp RtoC]. fold x y. rewrite Ropp_0, Rplus_0_r. reflexivity. }
    change (- (ln (mod2 D) / 2) + - - (ln (mod2 (- D)) / 2))%R with (minus ((fun e => - (ln (mod2 e) / 2))%R D) ((fun e => - (ln (mod2 e) / 2))%R (- D)%R)).
    apply (is_RInt_derive (V := R_CompleteNormedModule)).
    + intros e He. rewrite Rmin_left, Rmax_right in He by lra. assert (M := mod2_pos e He). unfold mod2 in *. auto_derive; [exact M|]. field. lra.
    + intros e He. rewrite Rmin_left, Rmax_right in He by lra. assert (M := mod2_pos e He). unfold mod2 in *. apply (ex_derive_continuous (fun e => (x - e) / ((x - e) * (x - e) + y * y))%R). auto_derive. lra.
  - cbn [snd Cminus Cplus Copp prim].
    apply (is_RInt_ext (V := R_NormedModule) (fun e => - y / mod2 e)%R).
    { intros e He. rewrite snd_inv. unfold mod2. cbn [fst snd Cminus Cplus Copp RtoC]. fold x y. rewrite Ropp_0, Rplus_0_r. reflexivity. }
    destruct (Req_EM_T y 0) as [E|N].
    + apply (is_RInt_ext (V := R_NormedModule) (fun _ => 0%R)); [intros e _; rewrite E; change (0 = - 0 / mod2 e)%R; unfold Rdiv; ring|].
      replace (0 + - 0)%R with 0%R by ring. apply RInt_zero.
    + change (- atan ((D - x) / y) + - - atan ((- D - x) / y))%R with (minus ((fun e => - atan ((e - x) / y))%R D) ((fun e => - atan ((e - x) / y))%R (- D)%R)).
      apply (is_RInt_derive (V := R_CompleteNormedModule)).
      * intros e He. rewrite Rmin_left, Rmax_right in He by lra. assert (M := mod2_pos e He). unfold mod2 in *.
        assert (H : is_derive atan ((e - x) / y)%R (/ (1 + ((e - x) / y) ^ 2))%R) by (apply is_derive_Reals, derivable_pt_lim_atan).
        evar_last. { apply (is_derive_opp (V := R_NormedModule)). apply (is_derive_comp (V := R_NormedModule) atan (fun e => (e - x) / y)%R e) with (1 := H). auto_derive; [trivial|reflexivity]. }
        unfold opp, scal; cbn. unfold mult; cbn. field. repeat split; try exact N; nra.
      * intros e He. rewrite Rmin_left, Rmax_right in He by lra. assert (M := mod2_pos e He). unfold mod2 in *. apply (ex_derive_continuous (fun e => - y / ((x - e) * (x - e) + y * y))%R). auto_derive. lra.
Qed.
Lemma prim_const : exists c : C, c <> 0 /\ forall e, (- D <= e <= D)%R -> cexp (prim e) * (z - RtoC e) = c.
Proof.
  destruct (Req_dec y 0) as [Y|Y].
  - assert (Hx : (D < Rabs x)%R) by (destruct Hz; [contradiction|assumption]).
    exists (RtoC (x / Rabs x)). assert (x0 : x <> 0%R) by (intros E; rewrite E, Rabs_R0 in Hx; lra). split.
    { apply RtoC_neq0. apply Rmult_integral_contrapositive. split; [exact x0|apply Rinv_neq_0_compat, Rabs_no_R0, x0]. }
    intros e He. assert (M := mod2_pos e He). unfold prim. destruct (Req_EM_T y 0) as [_|N]; [|contradiction].
    unfold cexp. cbn [fst snd]. rewrite cos_0, sin_0, exp_Ropp.
    assert (E : mod2 e = (Rabs (x - e) * Rabs (x - e))%R). { rewrite <- Rabs_mult, Rabs_pos_eq; [|apply (Rle_0_sqr (x - e))]. unfold mod2. rewrite Y. ring. }
    assert (A : (0 < Rabs (x - e))%R). { destruct (Req_dec (x - e) 0) as [Q|Q]; [|apply Rabs_pos_lt, Q]. rewrite E, Q, Rabs_R0 in M. lra. }
    replace (exp (ln (mod2 e) / 2)) with (Rabs (x - e)); [|rewrite E, ln_mult by exact A; replace ((ln (Rabs (x - e)) + ln (Rabs (x - e))) / 2)%R with (ln (Rabs (x - e))) by field; symmetry; apply exp_ln, A].
    apply C_ext; cbn [fst snd Cmult Cminus Cplus Copp RtoC]; fold x y; rewrite Y.
    + replace (/ Rabs (x - e) * 1 * (x + - e) - / Rabs (x - e) * 0 * (0 + - 0))%R with ((x - e) / Rabs (x - e))%R by (field; lra).
      destruct (Rle_dec 0 x) as [S|S].
      * rewrite (Rabs_pos_eq x) in * by lra. rewrite (Rabs_pos_eq (x - e)) by lra. field. lra.
      * rewrite (Rabs_left x) in * by lra. rewrite (Rabs_left (x - e)) by lra. field. lra.
    + ring.
  - exists (RtoC (y / Rabs y) * Ci). assert (A := Rabs_pos_lt y Y). split.
    { apply Cmult_neq_0; [|intros E; apply (f_equal snd) in E; cbn in E; lra]. apply RtoC_neq0. apply Rmult_integral_contrapositive. split; [exact Y|apply Rinv_neq_0_compat; lra]. }
    intros e He. assert (M := mod2_pos e He). unfold prim. destruct (Req_EM_T y 0) as [N|_]; [contradiction|].
    set (t := ((e - x) / y)%R). assert (Ht : (e - x = t * y)%R) by (unfold t; field; exact Y).
    assert (Q : (0 < 1 + t ^ 2)%R) by nra. assert (S := sqrt_sqrt (1 + t ^ 2) ltac:(lra)). assert (S0 := sqrt_lt_R0 _ Q). 
    assert (E : mod2 e = (Rabs y * sqrt (1 + t ^ 2) * (Rabs y * sqrt (1 + t ^ 2)))%R).
    { transitivity (Rabs y * Rabs y * (sqrt (1 + t ^ 2) * sqrt (1 + t ^ 2)))%R; [|ring]. rewrite S, <- Rabs_mult, Rabs_pos_eq by apply (Rle_0_sqr y). unfold mod2. replace (x - e)%R with (- (t * y))%R by lra. ring. }
    set (s := sqrt (1 + t ^ 2)) in *. assert (B : (0 < Rabs y * s)%R) by nra.
    unfold cexp. cbn [fst snd]. rewrite cos_neg, sin_neg, exp_Ropp, cos_atan, sin_atan. unfold Rsqr. replace (1 + t * t)%R with (1 + t ^ 2)%R by ring. fold s.
    replace (exp (ln (mod2 e) / 2)) with (Rabs y * s)%R; [|rewrite E, ln_mult by exact B; replace ((ln (Rabs y * s) + ln (Rabs y * s)) / 2)%R with (ln (Rabs y * s)) by field; symmetry; apply exp_ln, B].
    apply C_ext; cbn [fst snd Cmult Cminus Cplus Copp RtoC Ci]; fold x y; replace (x + - e)%R with (- (t * y))%R by lra.
    + field. lra.
    + replace (/ (Rabs y * s) * (1 / s) * (y + - 0) + / (Rabs y * s) * - (t / s) * - (t * y))%R with (y / Rabs y * ((1 + t ^ 2) / (s * s)))%R by (field; lra). rewrite S. field. lra.
Qed.
Lemma prim_im : (- PI < snd (prim D - prim (- D))%C < PI)%R.
Proof.
  assert (HP := PI_RGT_0). cbn [snd prim Cminus Cplus Copp]. destruct (Req_EM_T y 0) as [E|N]; [lra|].
  destruct (atan_bound ((D - x) / y)). destruct (atan_bound ((- D - x) / y)). lra.
Qed.
Lemma box_hilbert (d : R -> R) G : (forall e, box_dos e D = Ok (d e)) -> box_gf_z z D = Ok G -> is_CInt (fun e => RtoC (d e) / (z - RtoC e)) (- D) D G.
Proof.
  intros Hd HG. assert (Dc : RtoC D <> 0) by (apply RtoC_neq0; lra).
  apply (is_CInt_ext (fun e => RtoC (1 / 2 / D) * / (z - RtoC e))).
  { intros e He. rewrite Rmin_left, Rmax_right in He by lra. specialize (Hd e). unfold box_dos in Hd. rewrite rdiv_ok in Hd by lra. cbn [bind] in Hd.
    destruct (Rlt_dec (Rabs e) D) as [_|N]; [|exfalso; apply N, Rabs_def1; lra]. injection Hd as <-. reflexivity. }
  eapply is_CInt_eq; [apply is_CInt_scal, prim_int|].
  destruct prim_const as (c & C0 & Hc). assert (E1 := Hc D ltac:(lra)). assert (E2 := Hc (- D)%R ltac:(lra)).
  assert (N1 := ze_neq0 D z Hz D ltac:(lra)). assert (N2 := ze_neq0 D z Hz (- D)%R ltac:(lra)). rewrite RtoC_opp in E2, N2.
  replace (z - - RtoC D) with (z + RtoC D) in E2, N2 by ring.
  assert (L : cexp (prim D - prim (- D)) = (z / D + 1) / (z / D - 1)).
  { unfold Cminus. rewrite cexp_add. assert (I : cexp (prim (- D)) * cexp (- prim (- D)) = 1). { rewrite <- cexp_add. replace (prim (- D) + - prim (- D)) with (0 : C) by ring. apply cexp_0. }
    assert (P0 : cexp (prim (- D)) <> 0) by (intros E; rewrite E in E2; apply C0; rewrite <- E2; ring).
    replace (cexp (- prim (- D))) with (/ cexp (prim (- D))). 2: { transitivity (/ cexp (prim (- D)) * (cexp (prim (- D)) * cexp (- prim (- D)))); [rewrite I; ring|field; exact P0]. }
    replace (cexp (prim D)) with (c / (z - D)) by (rewrite <- E1; field; exact N1). replace (cexp (prim (- D))) with (c / (z + D)) by (rewrite <- E2; field; exact N2).
    change (z / D + - (1)) with (z / D - 1). field. repeat split; try assumption. }
  unfold box_gf_z in HG. rewrite (cdiv_ok z (RtoC D) Dc) in HG. cbn [bind] in HG. 
  assert (M1 : z / D - 1 <> 0). { intros E. apply N1. transitivity (RtoC D * (z / D - 1)); [field; exact Dc|rewrite E; ring]. }
  rewrite (cdiv_ok _ _ M1) in HG. cbn [bind] in HG. destruct (Ceq_dec _ 0) as [_|_] in HG; [discriminate|]. rewrite (cdiv_ok _ _ Dc) in HG. cbn [bind] in HG. injection HG as <-.
  rewrite <- L, clog_cexp by apply prim_im. rewrite RtoC_div by lra. reflexivity.
Qed.
End Box.

(** ** the density of states of the chain is the distribution of D cos k *)
Section Chain.
Variable D : R.
Hypothesis HD : (0 < D)%R.
Definition cdos (e : R) : R := (1 / (PI * D) / sqrt (1 - e / D * (e / D)))%R.
Lemma in_band e : (- D < e < D)%R -> (0 < 1 - e / D * (e / D))%R /\ (Rabs (e / D) <= 1)%R.
Proof.
  intros He. assert (H : (-1 < e / D < 1)%R) by (split; apply Rmult_lt_reg_r with D; try lra; unfold Rdiv; rewrite Rmult_assoc, Rinv_l by lra; lra).
  split; [nra|]. apply Rabs_le. lra.
Qed.
Lemma cdos_ok e : (- D < e < D)%R -> onedim_dos e D = Ok (cdos e).
Proof.
  intros He. assert (HP := PI_RGT_0). destruct (in_band e He) as [P B]. unfold onedim_dos. rewrite rdiv_ok by lra. cbn [bind]. destruct (Rle_dec (Rabs (e / D)) 1) as [_|N]; [|contradiction].
  rewrite rdiv_ok by (apply Rgt_not_eq, Rmult_lt_0_compat; lra). cbn [bind]. assert (S := sqrt_lt_R0 _ P). rewrite rdiv_ok by lra. reflexivity.
Qed.
Lemma cdos_cont e : (- D < e < D)%R -> continuous cdos e.
Proof.
  intros He. destruct (in_band e He) as [P _]. assert (S := sqrt_lt_R0 _ P). unfold cdos. apply (continuous_mult (K := R_AbsRing)); [apply continuous_const|].
  apply (continuous_comp (fun e => sqrt (1 - e / D * (e / D))) Rinv); [apply sqrt_cont|]. apply continuous_Rinv. lra.
Qed.
Lemma chain_measure (phi : R -> C) (l : C) (d : R -> R) : (forall e, (- D <= e <= D)%R -> ccont phi e) -> (forall e, (- D < e < D)%R -> onedim_dos e D = Ok (d e)) ->
  is_CInt (fun k => phi (D * cos k)%R) 0 PI (RtoC PI * l) -> is_improper (fun e => RtoC (d e) * phi e) D l.
Proof.
  intros Hphi Hd Hl t Ht. assert (HP := PI_RGT_0).
  assert (Bound : exists M, (0 < M)%R /\ forall e, (- D <= e <= D)%R -> (Cmod (phi e) <= M)%R).
  { destruct (cont_bounded (fun e => fst (phi e)) (- D) D ltac:(lra)) as (M1 & Q1 & B1); [intros e He; apply (Hphi e He)|].
    destruct (cont_bounded (fun e => snd (phi e)) (- D) D ltac:(lra)) as (M2 & Q2 & B2); [intros e He; apply (Hphi e He)|].
    exists (M1 + M2 + 1)%R. split; [lra|]. intros e He. specialize (B1 e He). specialize (B2 e He).
    replace (phi e) with (RtoC (fst (phi e)) + Ci * RtoC (snd (phi e))) by (apply C_ext; cbn; ring). eapply Rle_trans; [apply Cmod_triangle|]. rewrite Cmod_mult, !Cmod_R.
    replace (Cmod Ci) with 1%R by (unfold Cmod, Ci; cbn; rewrite <- sqrt_1 at 1; f_equal; ring). lra. }
  destruct Bound as (M & M0 & BM).
  assert (CB : forall x, (- D <= D * cos x <= D)%R) by (intros x; destruct (COS_bound x); nra).
  assert (Cphi : forall x, ccont (fun k => phi (D * cos k)%R) x).
  { intros x. assert (Q : continuous (fun k => D * cos k)%R x) by (apply (ex_derive_continuous (fun k => D * cos k)%R); auto_derive; trivial). destruct (Hphi _ (CB x)) as [A B]. split; [apply (continuous_comp (fun k => D * cos k)%R (fun e => fst (phi e)) x Q A)|apply (continuous_comp (fun k => D * cos k)%R (fun e => snd (phi e)) x Q B)]. }
  set (eta := Rmin 1 (t * PI / (8 * M))). assert (E0 : (0 < eta)%R). { apply Rmin_glb_lt; [lra|]. apply Rdiv_lt_0_compat; nra. }
  assert (E1 : (eta <= 1)%R) by apply Rmin_l. assert (E2 : (eta <= t * PI / (8 * M))%R) by apply Rmin_r. assert (P3 := PI2_1). unfold PI2 in P3.
  assert (CE : (0 < cos eta < 1)%R). { split; [apply cos_gt_0; lra|]. rewrite <- cos_0. apply cos_decreasing_1; lra. }
  exists (D * (1 - cos eta))%R. split; [nra|]. intros s Hs.
  assert (Hc : (cos eta < 1 - s / D < 1)%R). { assert (0 < s / D < 1 - cos eta)%R; [|lra]. split; [apply Rdiv_lt_0_compat; lra|]. apply Rmult_lt_reg_r with D; [lra|]. unfold Rdiv. rewrite Rmult_assoc, Rinv_l by lra. lra. }
  set (a := acos (1 - s / D)). assert (Ca : cos a = (1 - s / D)%R) by (apply cos_acos; lra). assert (Ba := acos_bound (1 - s / D)). fold a in Ba.
  assert (Ha : (0 < a < eta)%R). { split; [destruct (Req_dec a 0) as [Z|Z]; [rewrite Z, cos_0 in Ca; lra|lra]|]. apply cos_decreasing_0; lra. }
  assert (I : is_CInt (fun k => phi (D * cos k)%R) a (PI - a) (CInt (fun k => phi (D * cos k)%R) a (PI - a))) by (apply CInt_ok; intros; apply Cphi).
  set (J := CInt (fun k => phi (D * cos k)%R) a (PI - a)) in *.
  exists (RtoC (/ PI) * J). split.
  - assert (X1 : (D * cos (PI - a) = - D + s)%R) by (rewrite cos_minus, cos_PI, sin_PI, Ca; field; lra). assert (X2 : (D * cos a = D - s)%R) by (rewrite Ca; field; lra).
    assert (Hin : forall e, (- D + s <= e <= D - s)%R -> (- D < e < D)%R) by (intros; lra).
    apply (is_CInt_ext (fun e => RtoC (cdos e) * phi e)).
    { intros e He. rewrite Rmin_left, Rmax_right in He by nra. assert (Q : Ok (d e) = Ok (cdos e)) by (rewrite <- Hd by (apply Hin; lra); apply cdos_ok, Hin; lra). injection Q as ->. reflexivity. }
    rewrite <- X1, <- X2. apply cos_subst_part; [exact HD|lra|lra| |].
    + intros e He. rewrite X1, X2 in He. apply ccont_mult; [apply ccont_R, cdos_cont, Hin, He|]. apply Hphi. lra.
    + apply (is_CInt_scal (RtoC (/ PI))) in I. apply is_CInt_ext with (2 := I). intros x Hx. rewrite Rmin_left, Rmax_right in Hx by lra.
      rewrite Cmult_assoc. f_equal. rewrite <- RtoC_mult. f_equal. unfold cdos. rewrite sqrt_cos by (assumption || lra). assert (0 < sin x)%R by (apply sin_gt_0; lra). field. repeat split; lra.
  - assert (A1 : is_CInt (fun k => phi (D * cos k)%R) 0 a (CInt (fun k => phi (D * cos k)%R) 0 a)) by (apply CInt_ok; intros; apply Cphi).
    assert (A2 : is_CInt (fun k => phi (D * cos k)%R) (PI - a) PI (CInt (fun k => phi (D * cos k)%R) (PI - a) PI)) by (apply CInt_ok; intros; apply Cphi).
    set (J1 := CInt (fun k => phi (D * cos k)%R) 0 a) in *. set (J2 := CInt (fun k => phi (D * cos k)%R) (PI - a) PI) in *.
    assert (Sum := is_CInt_unique _ _ _ _ _ Hl (is_CInt_chasles _ _ _ _ _ _ A1 (is_CInt_chasles _ _ _ _ _ _ I A2))).
    assert (PC := PIc). replace l with (RtoC (/ PI) * (J1 + (J + J2))) by (rewrite <- Sum, RtoC_inv by lra; field; exact PC).
    replace (RtoC (/ PI) * J - RtoC (/ PI) * (J1 + (J + J2))) with (RtoC (/ PI) * - (J1 + J2)) by ring. rewrite Cmod_mult, Cmod_opp, Cmod_R, Rabs_pos_eq by (left; apply Rinv_0_lt_compat; lra).
    assert (B1 : (Cmod J1 <= 2 * (M * (a - 0)))%R) by (eapply CInt_bound with (3 := A1); [lra|]; intros; apply BM, CB).
    assert (B2 : (Cmod J2 <= 2 * (M * (PI - (PI - a))))%R) by (eapply CInt_bound with (3 := A2); [lra|]; intros; apply BM, CB).
    assert (T := Cmod_triangle J1 J2). apply Rmult_lt_reg_l with PI; [lra|]. rewrite <- Rmult_assoc, Rinv_r, Rmult_1_l by lra.
    assert (M * eta <= t * PI / 8)%R. { apply Rmult_le_compat_l with (r := M) in E2; [|lra]. replace (M * (t * PI / (8 * M)))%R with (t * PI / 8)%R in E2 by (field; lra). exact E2. }
    assert (M * a < M * eta)%R by (apply Rmult_lt_compat_l; lra). nra.
Qed.
End Chain.
