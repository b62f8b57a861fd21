(** * Boundary values of the Green's function of the rectangular lattice *)
From Coq Require Import Reals Lra Lia List.
From Coquelicot Require Import Coquelicot.
From Verif Require Import Base CBase CExp CSqrt Lattice_Model Bethe_Proofs Bethe_Main LatMom_Spec LatDer_Spec LatDer_Model LatDer_Dos LatEll_Model LatEll_Dos LatInt_Spec LatInt_Legendre LatInt_Local LatInt_Square CAnal CHol CEll CHolo LatBz_Spec LatRect_Proofs LatRect_Main LatTri_Main LatTri_Proofs LatCut_Spec LatCut_Proofs LatRdos_Model LatSpf_Spec LatSpf_Proofs LatSpf_Tri.
Local Open Scope C_scope.

(** the root in the upper half plane *)
Lemma up_off (w : C) (q : R) : (0 < snd w)%R -> (0 <= q)%R -> offcut (RtoC q - w * w).
Proof.
  intros H Q. destruct w as [x y]. cbn in H. destruct (Req_dec x 0) as [->|N].
  - right. cbn. nra.
  - left. cbn. intros E. apply N. nra.
Qed.
Lemma iden_up (w : C) (q : R) : (0 < snd w)%R -> (0 <= q)%R -> iden w (RtoC q) = Ci * csqrt (RtoC q - w * w).
Proof.
  intros H Q. assert (O := up_off w q H Q). assert (N := upper_neq0 w H). unfold iden. assert (S1 := csqrt_sqr (1 - RtoC q / (w * w))). assert (P1 := csqrt_re_nonneg (1 - RtoC q / (w * w))).
  assert (S2 := csqrt_sqr (RtoC q - w * w)). assert (P2 := csqrt_pos _ O). set (a := csqrt (1 - RtoC q / (w * w))) in *. set (b := csqrt (RtoC q - w * w)) in *. clearbody a b.
  assert (E : (w * a) * (w * a) = w * w - RtoC q). { transitivity (w * w * (a * a)); [ring|]. rewrite S1. field. exact N. }
  assert (Z : (w * a - Ci * b) * (w * a + Ci * b) = 0). { transitivity ((w * a) * (w * a) - Ci * Ci * (b * b)); [ring|]. rewrite E, S2. apply C_ext; cbn; ring. }
  destruct (Ceq_dec (w * a + Ci * b) 0) as [Y|Y].
  2:{ destruct (Ceq_dec (w * a - Ci * b) 0) as [X|X]; [|exfalso; exact (Cmult_neq_0 _ _ X Y Z)]. rewrite <- (Cplus_0_r (Ci * b)), <- X. ring. }
  exfalso. destruct w as [x y], a as [a1 a2], b as [b1 b2]. cbn in H, P1, P2, S2. apply (f_equal fst) in Y as Y1. apply (f_equal snd) in Y as Y2. apply (f_equal snd) in S2. cbn in Y1, Y2, S2. clear - H P1 P2 Y1 Y2 S2.
  assert (E1 : (b1 * b2 = - (x * y))%R) by lra. assert (E2 : (b2 = x * a1 - y * a2)%R) by lra. assert (E3 : (x * a2 + y * a1 = - b1)%R) by lra.
  assert (E4 : (a1 * (x * x + y * y) = x * b2 - y * b1)%R) by (replace b1 with (- (x * a2 + y * a1))%R by lra; rewrite E2; ring). assert (E5 : (b1 * (a1 * (x * x + y * y)) = - (x * x * y) - y * (b1 * b1))%R) by (rewrite E4; replace (b1 * (x * b2 - y * b1))%R with (x * (b1 * b2) - y * (b1 * b1))%R by ring; rewrite E1; ring).
  assert (0 <= b1 * (a1 * (x * x + y * y)))%R by (apply Rmult_le_pos; [lra|apply Rmult_le_pos; nra]). assert (0 <= x * x * y)%R by (apply Rmult_le_pos; nra). assert (0 < y * (b1 * b1))%R by (apply Rmult_lt_0_compat; nra). lra.
Qed.
Section Rect.
Variables (s x : R).
Hypothesis (Hs : (0 <= s)%R).
Let q := ((s - 1) * (s - 1))%R.
Lemma q_nn : (0 <= q)%R. Proof. apply Rle_0_sqr. Qed.
Let kk (y : C) : C := RtoC (4 * s) / (y * y - RtoC q).
Hypothesis (Nq : (x * x <> q)%R).
Lemma kk_lim : ulim x kk (RtoC (4 * s / (x * x - q))).
Proof.
  unfold kk. rewrite RtoC_div by lra. apply ulim_mul; [apply ulim_const|]. rewrite RtoC_minus, RtoC_mult. apply ulim_inv.
  - apply (ulim_add x (fun y => y * y) (fun _ => - RtoC q)); [apply ulim_mul; apply ulim_id|apply ulim_const].
  - rewrite <- RtoC_mult, <- RtoC_minus. apply RtoC_neq0. lra.
Qed.
Lemma kk_im (y : C) : (0 < s)%R -> (0 < snd y)%R -> fst y <> 0%R -> exists c, (0 < c)%R /\ snd (kk y) = (- c * fst y)%R.
Proof.
  intros S H N. unfold kk. destruct y as [a b]. cbn [fst snd] in *. set (u := (a * a - b * b - q)%R). set (v := (2 * a * b)%R). set (n := (u * u + v * v)%R).
  assert (V : v <> 0%R) by (unfold v; apply Rmult_integral_contrapositive_currified; [lra|lra]). assert (P : (0 < n)%R) by (unfold n; assert (0 < v * v)%R by (destruct (Rdichotomy _ _ V); nra); nra).
  exists (4 * s * 2 * b / n)%R. split; [apply Rdiv_lt_0_compat; [|exact P]; assert (0 < s * b)%R by (apply Rmult_lt_0_compat; assumption); lra|].
  replace ((a, b) * (a, b) - RtoC q) with ((u, v) : C) by (unfold u, v; apply C_ext; cbn; ring). replace (- (4 * s * 2 * b / n) * a)%R with (- (4 * s * v / n))%R by (unfold v, Rdiv; ring). revert P. unfold n. clearbody u v. intros P. unfold Cdiv. cbn. field. replace (u ^ 2 + v ^ 2)%R with (u * u + v * v)%R by ring. lra.
Qed.
(** outside of the band and between its edge and the van Hove singularity *)
Lemma iota_out : (q < x * x)%R -> ulim x (fun y => iota y (RtoC q)) (RtoC (/ (x * sqrt (1 - q / (x * x))))).
Proof.
  intros L. assert (QN := q_nn). assert (X2 : (0 < x * x)%R) by lra. assert (X0 : x <> 0%R) by nra. assert (D1 : (q / (x * x) < 1)%R) by (apply (Rmult_lt_reg_r (x * x)); [lra|]; unfold Rdiv; rewrite Rmult_assoc, Rinv_l by lra; lra).
  assert (SP : (0 < sqrt (1 - q / (x * x)))%R) by (apply sqrt_lt_R0; lra).
  assert (NN : (x * sqrt (1 - q / (x * x)) <> 0)%R) by (apply Rmult_integral_contrapositive_currified; lra).
  unfold iota, iden. rewrite RtoC_inv by exact NN. apply ulim_inv; [|apply RtoC_neq0, NN]. rewrite RtoC_mult. apply ulim_mul; [apply ulim_id|]. rewrite <- csqrt_R by lra.
  apply (ulim_cont x (fun y => 1 - RtoC q / (y * y)) _ csqrt); [|apply ccat_csqrt; right; cbn; lra]. rewrite RtoC_minus, RtoC_div, RtoC_mult by lra.
  apply (ulim_add x (fun _ => 1) (fun y => - (RtoC q / (y * y)))); [apply ulim_const|]. apply (ulim_cont x (fun y => RtoC q / (y * y)) _ Copp); [|apply ccat_opp, ccat_id]. apply ulim_mul; [apply ulim_const|]. apply ulim_inv; [apply ulim_mul; apply ulim_id|]. rewrite <- RtoC_mult. apply RtoC_neq0. lra.
Qed.
(** between the van Hove singularities *)
Lemma iota_in : (x * x < q)%R -> ulim x (fun y => iota y (RtoC q)) (- Ci * RtoC (/ sqrt (q - x * x))).
Proof.
  intros L. assert (QN := q_nn). assert (SP : (0 < sqrt (q - x * x))%R) by (apply sqrt_lt_R0; lra).
  apply (ulim_ext x (fun y => - Ci * / csqrt (RtoC q - y * y))).
  - apply uev_true. intros w H. unfold iota. rewrite iden_up by assumption. assert (O := up_off w q H QN). assert (NC := csqrt_neq0 _ (offcut_neq0 _ O)). assert (CI : Ci <> 0) by (intros E; apply (f_equal snd) in E; cbn in E; lra).
    replace (- Ci) with (/ Ci) by (apply C_ext; cbn; field). field. split; assumption.
  - apply ulim_mul; [apply ulim_const|]. rewrite RtoC_inv by lra. apply ulim_inv; [|apply RtoC_neq0; lra]. rewrite <- csqrt_R by lra. apply (ulim_cont x (fun y => RtoC q - y * y) _ csqrt); [|apply ccat_csqrt; right; cbn; lra].
    rewrite RtoC_minus, RtoC_mult. apply (ulim_add x (fun _ => RtoC q) (fun y => - (y * y))); [apply ulim_const|]. apply (ulim_cont x (fun y => y * y) _ Copp); [|apply ccat_opp, ccat_id]. apply ulim_mul; apply ulim_id.
Qed.
Let F (y : C) : C := iota y (RtoC q) * Kf (kk y).
(** the value of the density of states, up to a factor *)
Definition rect_val : R :=
  (if Rlt_dec (x * x) q then / sqrt (q - x * x) * fst (Kf (RtoC (4 * s / (x * x - q))))
   else if Rlt_dec (x * x) ((1 + s) * (1 + s)) then / sqrt (x * x - q) * fst (Kf (RtoC (1 - 4 * s / (x * x - q))))
   else 0)%R.
Hypothesis (Ne : (x * x <> (1 + s) * (1 + s))%R).
Lemma rect_lim : exists g, ulim x F g /\ snd g = (- rect_val)%R.
Proof.
  assert (QN := q_nn). assert (LK := kk_lim). unfold rect_val. destruct (Rlt_dec (x * x) q) as [L|L].
  - set (m := (4 * s / (x * x - q))%R) in *. assert (Lm : (m < 1)%R). { unfold m. replace (4 * s / (x * x - q))%R with (- (4 * s * / (q - x * x)))%R by (field; lra). assert (0 < / (q - x * x))%R by (apply Rinv_0_lt_compat; lra). assert (0 <= 4 * s * / (q - x * x))%R by (apply Rmult_le_pos; lra). lra. }
    eexists. split; [apply ulim_mul; [exact (iota_in L)|apply (ulim_cont x kk _ Kf LK), ccat_Kf; right; exact Lm]|]. rewrite (Kf_R m Lm). generalize (fst (Kf (RtoC m))). intros k. cbn. ring.
  - assert (L' : (q < x * x)%R) by lra. assert (X2 : (0 < x * x)%R) by lra. assert (X0 : x <> 0%R) by nra. set (m := (4 * s / (x * x - q))%R) in *. assert (I : (0 < / (x * x - q))%R) by (apply Rinv_0_lt_compat; lra).
    assert (Eq : ((1 + s) * (1 + s) - q = 4 * s)%R) by (unfold q; ring). assert (Em : (m * (x * x - q) = 4 * s)%R) by (unfold m; field; lra).
    assert (SQ : (sqrt (x * x - q) = Rabs x * sqrt (1 - q / (x * x)))%R). { rewrite <- (sqrt_Rsqr_abs x). unfold Rsqr. rewrite <- sqrt_mult_alt by lra. f_equal. field. lra. }
    assert (SP : (0 < sqrt (x * x - q))%R) by (apply sqrt_lt_R0; lra).
    assert (SP' : (0 < sqrt (1 - q / (x * x)))%R). { apply sqrt_lt_R0. replace (1 - q / (x * x))%R with ((x * x - q) * / (x * x))%R by (field; lra). apply Rmult_lt_0_compat; [lra|apply Rinv_0_lt_compat; lra]. }
    destruct (Rlt_dec (x * x) ((1 + s) * (1 + s))) as [M|M].
    + assert (Lm : (1 < m)%R) by nra. assert (S0 : (0 < s)%R) by nra. assert (SG := sgn_ev x X0). destruct (Rdichotomy _ _ X0) as [S|S].
      * eexists. split; [apply ulim_mul; [exact (iota_out L')|apply (ulim_Kf_up x kk m Lm LK)]|].
        -- revert SG. apply uev_imp. intros w Hw H. assert (fst w < 0)%R by nra. destruct (kk_im w S0 Hw ltac:(lra)) as (c & Hc & E). rewrite E. nra.
        -- rewrite SQ, Rabs_left by exact S. rewrite <- (Ef_im m Lm). generalize (Ef (RtoC m)). intros [u v]. cbn. field. lra.
      * eexists. split; [apply ulim_mul; [exact (iota_out L')|apply (ulim_Kf_low x kk m Lm LK)]|].
        -- revert SG. apply uev_imp. intros w Hw H. assert (0 < fst w)%R by nra. destruct (kk_im w S0 Hw ltac:(lra)) as (c & Hc & E). rewrite E. nra.
        -- rewrite SQ, Rabs_right by lra. assert (I2 := Df_im m Lm). revert I2. generalize (Df (RtoC m)) (fst (Kf (RtoC (1 - m)))). intros [u v] k I2. cbn in *. rewrite I2. field. lra.
    + assert (Lm : (m < 1)%R) by nra. eexists. split; [apply ulim_mul; [exact (iota_out L')|apply (ulim_cont x kk _ Kf LK), ccat_Kf; right; exact Lm]|]. rewrite (Kf_R m Lm). generalize (fst (Kf (RtoC m))). intros k. cbn. ring.
Qed.
End Rect.
(** ** the code *)
Lemma Ef_re m : (1 < m)%R -> fst (Ef (RtoC m)) = (/ sqrt m * fst (Kf (RtoC (/ m))))%R.
Proof.
  intros H. unfold Ef. rewrite RtoC_1m, (Kf_R (1 - m)) by lra. assert (I : (/ m < 1)%R) by (apply (Rmult_lt_reg_r m); [lra|]; rewrite Rinv_l by lra; lra). assert (P : (0 < / m)%R) by (apply Rinv_0_lt_compat; lra).
  rewrite <- RtoC_inv by lra. rewrite csqrt_R by lra. rewrite (Kf_R (/ m)) by exact I. rewrite sqrt_inv. generalize (fst (Kf (RtoC (/ m)))) (fst (Kf (RtoC (1 - m)))) (/ sqrt m)%R. intros a b c. cbn. ring.
Qed.
Lemma Df_re m : (1 < m)%R -> fst (Df (RtoC m)) = (/ sqrt m * fst (Kf (RtoC (/ m))))%R.
Proof.
  intros H. rewrite <- (Ef_re m H). unfold Df. rewrite RtoC_1m, (Kf_R (1 - m)) by lra. generalize (Ef (RtoC m)) (fst (Kf (RtoC (1 - m)))). intros a b. cbn. ring.
Qed.
Lemma rsqrt_ok x : (0 <= x)%R -> rsqrt x = Ok (sqrt x).
Proof. intros H. unfold rsqrt. destruct (Rlt_dec x 0); [lra|reflexivity]. Qed.
Section Code.
Variables (ellipk : C -> result C) (hb s e feps : R).
Hypotheses (HK : computes_K ellipk) (HC : cut_from_above ellipk \/ cut_from_below ellipk) (Hb : (0 < hb)%R) (Hs : (0 < s)%R).
Let D := (hb / (1 + s))%R.
Let x := (e / D)%R.
Hypotheses (Nq : (x * x <> (s - 1) * (s - 1))%R) (Ne : (x * x <> (1 + s) * (1 + s))%R).
Lemma x_eps : (e / hb * (1 + s) = x)%R. Proof. unfold x, D. field. lra. Qed.
Lemma rect_dos_val : rectangular_dos ellipk feps e hb s = Ok (2 / (PI * PI) / D * rect_val s x)%R.
Proof.
  assert (HP := PI_RGT_0). assert (Ex := x_eps). assert (DP : (0 < D)%R) by (unfold D; apply Rdiv_lt_0_compat; lra). assert (SS := sqrt_lt_R0 s Hs). assert (PP : (PI * PI <> 0)%R) by nra. set (ep := (e / hb)%R) in *. set (q := ((s - 1) * (s - 1))%R) in *.
  unfold rectangular_dos. rewrite rdiv_ok' by lra. cbn [bind]. fold ep. rewrite rsqrt_ok by lra. cbn [bind]. rewrite !rdiv_ok' by lra. cbn [bind]. rewrite rdiv_ok' by lra. cbn [bind]. cbv zeta.
  assert (A2 : (ep * ep = Rabs ep * Rabs ep)%R) by (unfold Rabs; destruct (Rcase_abs ep); ring). assert (AN := Rabs_pos ep).
  assert (EX : (x * x = ep * ep * ((1 + s) * (1 + s)))%R) by (rewrite <- Ex; ring).
  destruct (Req_EM_T (Rabs ep) 1) as [E1|N1]; [exfalso; apply Ne; rewrite EX, A2, E1; ring|].
  destruct (Rle_dec (Rabs ep) 1) as [L|L].
  2:{ f_equal. rewrite Rabs_R0. unfold rect_val. fold q. assert (1 < ep * ep)%R by (rewrite A2; nra). assert (S2 : (0 < (1 + s) * (1 + s))%R) by nra. assert ((1 + s) * (1 + s) < x * x)%R by (rewrite EX; nra).
    destruct (Rlt_dec (x * x) q) as [X|_]; [unfold q in X; nra|]. destruct (Rlt_dec _ _); [lra|]. ring. }
  assert (E1 : (ep * ep < 1)%R) by (rewrite A2; nra). assert (S2 : (0 < (1 + s) * (1 + s))%R) by nra. assert (XL : (x * x < (1 + s) * (1 + s))%R) by (rewrite EX; nra).
  rewrite rdiv_ok' by (apply Rgt_not_eq, Rmult_lt_0_compat; lra). cbn [bind]. rewrite rdiv_ok' by lra. cbn [bind].
  assert (Ek : (4 * s / ((s + 1) * (s + 1)) / (1 - ep * ep) = 4 * s / ((1 + s) * (1 + s) - x * x))%R) by (rewrite EX; field; repeat split; nra). rewrite Ek. set (k := (4 * s / ((1 + s) * (1 + s) - x * x))%R).
  assert (Pk : (0 < k)%R) by (unfold k; apply Rdiv_lt_0_compat; lra). assert (Kk : (k * ((1 + s) * (1 + s) - x * x) = 4 * s)%R) by (unfold k; field; lra). assert (Eq : ((1 + s) * (1 + s) - q = 4 * s)%R) by (unfold q; ring).
  assert (SK := sqrt_lt_R0 k Pk). set (f := (1 / (PI * PI) * (1 + s) / sqrt s / hb)%R). assert (Ef' : f = (/ (PI * PI) / (sqrt s * D))%R) by (unfold f, D; field; lra).
  assert (Pf : (0 < f)%R) by (rewrite Ef'; apply Rdiv_lt_0_compat; [apply Rinv_0_lt_compat; nra|apply Rmult_lt_0_compat; assumption]).
  unfold rect_val. fold q. destruct (Rlt_dec (x * x) q) as [Lq|Lq].
  - assert (K1 : (k < 1)%R) by nra. rewrite (ellipk_ok ellipk HK) by (right; exact K1). cbn [bind]. rewrite rsqrt_ok by lra. cbn [bind]. cbn [Cconj fst]. assert (KP := Kf_pos (RtoC k) ltac:(right; exact K1)).
    rewrite Rabs_pos_eq by (apply Rlt_le, Rmult_lt_0_compat; [apply Rmult_lt_0_compat|]; assumption). f_equal. set (m := (4 * s / (x * x - q))%R).
    assert (Em : (m * (q - x * x) = - (4 * s))%R) by (unfold m; field; lra). assert (IQ : (0 < / (q - x * x))%R) by (apply Rinv_0_lt_compat; lra). assert (Mn : (m < 0)%R) by nra. 
    assert (IM : fst (Kf (RtoC m)) = (/ sqrt (1 - m) * fst (Kf (RtoC k)))%R).
    { rewrite (imag_modulus (RtoC m)) by (right; cbn; lra). rewrite RtoC_1m, csqrt_R by lra. assert (SM : (0 < sqrt (1 - m))%R) by (apply sqrt_lt_R0; lra). rewrite <- RtoC_inv by lra. rewrite <- RtoC_opp, <- RtoC_div by lra.
      replace (- m / (1 - m))%R with k; [generalize (Kf (RtoC k)); intros [a b]; cbn; ring|]. apply (Rmult_eq_reg_r (1 - m)); [|lra]. unfold Rdiv. rewrite Rmult_assoc, Rinv_l, Rmult_1_r by lra. apply (Rmult_eq_reg_r (q - x * x)); [|lra]. nra. }
    rewrite IM. assert (SQ : (sqrt k * sqrt (q - x * x) * sqrt (1 - m) = 2 * sqrt s)%R).
    { rewrite <- !sqrt_mult_alt by (first [lra|apply Rmult_le_pos; lra]). replace (k * (q - x * x) * (1 - m))%R with (2 * 2 * s)%R by nra. rewrite sqrt_mult_alt by lra. rewrite sqrt_square by lra. reflexivity. }
    assert (S3 : (0 < sqrt (q - x * x))%R) by (apply sqrt_lt_R0; lra). assert (S4 : (0 < sqrt (1 - m))%R) by (apply sqrt_lt_R0; lra). rewrite Ef'. generalize dependent (fst (Kf (RtoC k))). intros kv _ _. 
    transitivity (sqrt k * sqrt (q - x * x) * sqrt (1 - m) * (/ (PI * PI) / (sqrt s * D) * kv / (sqrt (q - x * x) * sqrt (1 - m))))%R; [field; repeat split; lra|]. rewrite SQ. field. repeat split; lra.
  - assert (Lq' : (q < x * x)%R) by lra. destruct (Rlt_dec (x * x) ((1 + s) * (1 + s))) as [_|X]; [|contradiction]. assert (K1 : (1 < k)%R) by nra. assert (KI : (/ k < 1)%R) by (apply (Rmult_lt_reg_r k); [lra|]; rewrite Rinv_l by lra; lra).
    assert (KP := Kf_pos (RtoC (/ k)) ltac:(right; exact KI)).
    assert (EE : exists el, ellipk (RtoC k) = Ok el /\ fst el = (/ sqrt k * fst (Kf (RtoC (/ k))))%R).
    { destruct HC as [A|A]; [exists (Ef (RtoC k)); split; [apply above_val; assumption|apply Ef_re, K1]|exists (Df (RtoC k)); split; [apply below_val; assumption|apply Df_re, K1]]. }
    destruct EE as (el & EL & RE). rewrite EL. cbn [bind]. rewrite rsqrt_ok by lra. cbn [bind]. cbn [Cconj fst]. rewrite RE.
    replace (f * sqrt k * (/ sqrt k * fst (Kf (RtoC (/ k)))))%R with (f * fst (Kf (RtoC (/ k))))%R by (field; lra). rewrite Rabs_pos_eq by (apply Rlt_le, Rmult_lt_0_compat; assumption). f_equal.
    set (m := (4 * s / (x * x - q))%R). assert (Pm : (0 < m)%R) by (unfold m; apply Rdiv_lt_0_compat; lra). assert (Em : (m * (x * x - q) = 4 * s)%R) by (unfold m; field; lra).
    assert (KM : (/ k = 1 - / m)%R). { unfold k, m. rewrite !Rinv_div. unfold q. field. lra. }
    rewrite KM, (Kf_recip m Pm). assert (SQ : (sqrt m * sqrt (x * x - q) = 2 * sqrt s)%R). { rewrite <- sqrt_mult_alt by lra. rewrite Em. replace (4 * s)%R with (2 * 2 * s)%R by ring. rewrite sqrt_mult_alt by lra. rewrite sqrt_square by lra. reflexivity. }
    assert (S3 : (0 < sqrt (x * x - q))%R) by (apply sqrt_lt_R0; lra). rewrite Ef'. generalize (fst (Kf (RtoC (1 - m)))). intros kv.
    transitivity (sqrt m * sqrt (x * x - q) * (/ (PI * PI) / (sqrt s * D) * kv / sqrt (x * x - q)))%R; [field; repeat split; lra|]. rewrite SQ. field. repeat split; lra.
Qed.
End Code.
Lemma rect_bd (hb s e : R) : (0 < hb)%R -> (0 <= s)%R -> let D := (hb / (1 + s))%R in let x := (e / D)%R in (x * x <> (s - 1) * (s - 1))%R -> (x * x <> (1 + s) * (1 + s))%R ->
  exists g, boundary (fun z D => rectangular_gf_z ellipk_above z D s) e hb g /\ (- snd g / PI = 2 / (PI * PI) / D * rect_val s x)%R.
Proof.
  intros Hb Hs D x Nq Ne. assert (HP := PI_RGT_0). assert (DP : (0 < D)%R) by (unfold D; apply Rdiv_lt_0_compat; lra). destruct (rect_lim s x Hs Nq Ne) as (g & L & V). assert (Ex : e = (D * x)%R) by (unfold x; field; lra).
  exists (RtoC (2 / PI) / RtoC D * g). split.
  - apply (bd_ulim _ (fun w => RtoC (2 / PI) / RtoC D * (iota (w / RtoC D) (RtoC ((s - 1) * (s - 1))) * Kf (RtoC (4 * s) / (w / RtoC D * (w / RtoC D) - RtoC ((s - 1) * (s - 1))))))).
    + apply ulim_mul; [apply ulim_const|]. rewrite Ex. exact (ulim_scale x D _ _ DP L).
    + apply uev_true. intros w Hw. rewrite (rect_ok ellipk_above ellipk_above_K hb s w Hb Hs) by (left; lra). f_equal. unfold D. ring.
  - rewrite <- RtoC_div by lra. replace (snd (RtoC (2 / PI / D) * g)) with (2 / PI / D * snd g)%R by (cbn; ring). rewrite V. field. lra.
Qed.
Lemma rect_excl (hb s e : R) : (0 < hb)%R -> (0 <= s)%R -> Rabs e <> hb -> ((1 + s) * Rabs e <> hb * Rabs (s - 1))%R ->
  (e / (hb / (1 + s)) * (e / (hb / (1 + s))) <> (s - 1) * (s - 1))%R /\ (e / (hb / (1 + s)) * (e / (hb / (1 + s))) <> (1 + s) * (1 + s))%R.
Proof.
  intros Hb Hs N1 N2. assert (E : (e / (hb / (1 + s)) * (e / (hb / (1 + s))) * (hb * hb) = (1 + s) * Rabs e * ((1 + s) * Rabs e))%R).
  { transitivity ((1 + s) * (1 + s) * (e * e))%R; [field; lra|]. replace (e * e)%R with (Rabs e * Rabs e)%R; [ring|]. unfold Rabs. destruct (Rcase_abs e); ring. }
  assert (AE := Rabs_pos e). assert (AS := Rabs_pos (s - 1)). assert (P1 : (0 <= (1 + s) * Rabs e)%R) by (apply Rmult_le_pos; lra).
  assert (SE : (Rabs (s - 1) * Rabs (s - 1) = (s - 1) * (s - 1))%R) by (unfold Rabs; destruct (Rcase_abs (s - 1)); ring).
  split; intros X; rewrite X in E.
  - apply N2. assert (Y : (Rsqr ((1 + s) * Rabs e) = Rsqr (hb * Rabs (s - 1)))%R). { unfold Rsqr. rewrite <- E, <- SE. ring. } apply Rsqr_inj in Y; [exact Y|exact P1|apply Rmult_le_pos; lra].
  - apply N1. assert (Y : (Rsqr ((1 + s) * Rabs e) = Rsqr ((1 + s) * hb))%R). { unfold Rsqr. rewrite <- E. ring. } apply Rsqr_inj in Y; [|exact P1|apply Rmult_le_pos; lra]. apply (Rmult_eq_reg_l (1 + s)); lra.
Qed.
