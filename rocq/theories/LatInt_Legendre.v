(** * Legendre's integral satisfies what is used of the elliptic integral *)
From Coq Require Import Reals Lra Lia.
From Coquelicot Require Import Coquelicot.
From Verif Require Import Base CBase CExp CSqrt Lattice_Model Bethe_Proofs Bethe_Main Fourier_Filon LatMom_Int LatDer_Spec LatSym_Proofs LatInt_Proofs LatInt_Real LatInt_Square.
Local Open Scope C_scope.

Definition ellipk_legendre (m : C) : result C := Ok (CInt (fun t => 1 / csqrt (1 - m * RtoC (sin t * sin t))%C) 0 (PI / 2)).
Lemma off_dec (m : C) : (snd m <> 0%R \/ (fst m < 1)%R) \/ (snd m = 0%R /\ (1 <= fst m)%R).
Proof. destruct (Req_dec (snd m) 0) as [E|N]; [|left; left; exact N]. destruct (Rlt_dec (fst m) 1) as [H|H]; [left; right; exact H|right; split; [exact E|lra]]. Qed.
Lemma gap (m : C) : snd m <> 0%R \/ (fst m < 1)%R -> exists c, (0 < c)%R /\ forall s, (0 <= s <= 1)%R -> (c <= fst (csqrt (1 - m * RtoC s)%C))%R.
Proof.
  intros Hm. destruct (continuity_ab_min (fun s => fst (csqrt (1 - m * RtoC s)%C)) 0 1 ltac:(lra)) as (s0 & Hs & Hb).
  - intros s Hs. apply continuity_pt_filterlim. apply (csqrt_cont_along (fun s => 1 - m * RtoC s) s); [|apply offcut_param; assumption].
    apply ccont_minus; [apply ccont_const|]. apply ccont_mult; [apply ccont_const|]. apply ccont_R, continuous_id.
  - exists (fst (csqrt (1 - m * RtoC s0)%C)). split; [apply csqrt_pos, offcut_param; assumption|exact Hs].
Qed.
Lemma is_CInt_conj f a b l : is_CInt f a b l -> is_CInt (fun t => Cconj (f t)) a b (Cconj l).
Proof. intros [A B]. split; [exact A|]. cbn [snd Cconj]. apply (is_RInt_opp (V := R_NormedModule)), B. Qed.
Lemma legendre_elliptic : elliptic_like ellipk_legendre.
Proof.
  intros m Hm. eexists. split; [reflexivity|]. split.
  - unfold ellipk_legendre. f_equal. apply CInt_val. apply (is_CInt_ext (fun t => Cconj (1 / csqrt (1 - m * RtoC (sin t * sin t))%C))); [|apply is_CInt_conj, K_ex, Hm].
    intros t _. assert (O : offcut (1 - m * RtoC (sin t * sin t))) by (apply offcut_param; [exact Hm|]; destruct (SIN_bound t); nra).
    replace (1 - Cconj m * RtoC (sin t * sin t)) with (Cconj (1 - m * RtoC (sin t * sin t))) by (apply C_ext; cbn; ring). rewrite csqrt_conj by exact O.
    assert (P := csqrt_pos _ O). unfold Cdiv. rewrite conj_mult, conj_inv by (intros E; rewrite E in P; cbn in P; lra). f_equal. apply C_ext; cbn; ring.
  - destruct (gap m Hm) as (c & C0 & Hc). assert (HP := PI_RGT_0).
    assert (Near : forall w s, (0 <= s <= 1)%R -> (Cmod (w - m)%C < c * c / 2)%R -> (Cmod (csqrt (1 - w * RtoC s)%C - csqrt (1 - m * RtoC s)%C)%C <= Cmod (w - m)%C / c)%R /\ (c / 2 <= Cmod (csqrt (1 - w * RtoC s)%C))%R).
    { intros w s Hs Hw. assert (P := Hc s Hs). assert (N := Cmod_ge_0 (w - m)).
      assert (B : (Cmod (csqrt (1 - w * RtoC s)%C - csqrt (1 - m * RtoC s)%C)%C <= Cmod (w - m)%C / c)%R).
      { eapply Rle_trans; [apply csqrt_lip; lra|]. replace (1 - w * RtoC s - (1 - m * RtoC s)) with (- ((w - m) * RtoC s)) by ring. rewrite Cmod_opp, Cmod_mult, Cmod_R, Rabs_pos_eq by lra.
        unfold Rdiv. apply Rmult_le_compat; [nra|left; apply Rinv_0_lt_compat; lra|nra|apply Rinv_le_contravar; lra]. }
      split; [exact B|]. assert (T := Cmod_triangle (csqrt (1 - w * RtoC s)%C) (csqrt (1 - m * RtoC s)%C - csqrt (1 - w * RtoC s)%C)).
      replace (csqrt (1 - w * RtoC s)%C + (csqrt (1 - m * RtoC s)%C - csqrt (1 - w * RtoC s)%C)) with (csqrt (1 - m * RtoC s)%C) in T by ring.
      rewrite <- (Cmod_opp (csqrt (1 - m * RtoC s)%C - csqrt (1 - w * RtoC s)%C)) in T. replace (- (csqrt (1 - m * RtoC s)%C - csqrt (1 - w * RtoC s)%C)) with (csqrt (1 - w * RtoC s)%C - csqrt (1 - m * RtoC s)%C) in T by ring.
      assert (Q : (fst (csqrt (1 - m * RtoC s)%C) <= Cmod (csqrt (1 - m * RtoC s)%C))%R). { eapply Rle_trans; [apply Rle_abs|]. eapply Rle_trans; [|apply Rmax_Cmod]. apply Rmax_l. }
      assert (Cmod (w - m)%C / c < c / 2)%R; [|lra]. apply Rmult_lt_reg_r with c; [exact C0|]. unfold Rdiv. rewrite Rmult_assoc, Rinv_l by lra. lra. }
    intros t Ht. set (B := (2 * (2 / (c * c * c) * (PI / 2)))%R). assert (B0 : (0 < B)%R). { unfold B. apply Rmult_lt_0_compat; [lra|]. apply Rmult_lt_0_compat; [apply Rdiv_lt_0_compat; [lra|]; apply Rmult_lt_0_compat; [nra|lra]|lra]. }
    exists (Rmin (c * c / 2) (t / B))%R. split; [apply Rmin_glb_lt; [nra|apply Rdiv_lt_0_compat; lra]|]. intros w Hw. assert (M1 := Rmin_l (c * c / 2) (t / B)). assert (M2 := Rmin_r (c * c / 2) (t / B)).
    assert (Hw1 : (Cmod (w - m)%C < c * c / 2)%R) by lra. assert (Hw2 : (Cmod (w - m)%C < t / B)%R) by lra.
    assert (Ow : snd w <> 0%R \/ (fst w < 1)%R).
    { destruct (off_dec w) as [O|[E1 E2]]; [exact O|exfalso]. assert (Hs : (0 <= / fst w <= 1)%R) by (split; [left; apply Rinv_0_lt_compat; lra|rewrite <- Rinv_1; apply Rinv_le_contravar; lra]).
      destruct (Near w _ Hs Hw1) as [_ N]. replace (1 - w * RtoC (/ fst w)) with (RtoC 0) in N; [rewrite csqrt_R, sqrt_0, Cmod_0 in N by lra; lra|].
      apply C_ext; cbn; rewrite ?E1; field; lra. }
    eexists. split; [reflexivity|]. assert (I1 := K_ex w Ow). assert (I2 := K_ex m Hm). unfold legendre_K in I1, I2. assert (I := is_CInt_minus _ _ _ _ _ _ I1 I2).
    apply Rle_lt_trans with (2 * (Cmod (w - m)%C * (2 / (c * c * c)) * (PI / 2 - 0)))%R.
    + eapply CInt_bound with (3 := I); [lra|]. intros x _. cbv beta. assert (Hs : (0 <= sin x * sin x <= 1)%R) by (destruct (SIN_bound x); nra).
      destruct (Near w _ Hs Hw1) as [N1 N2]. destruct (Near m _ Hs) as [_ _]. { replace (m - m) with (0 : C) by ring. rewrite Cmod_0. nra. }
      assert (P := Hc _ Hs). assert (Q : (c <= Cmod (csqrt (1 - m * RtoC (sin x * sin x))%C))%R). { eapply Rle_trans; [exact P|]. eapply Rle_trans; [apply Rle_abs|]. eapply Rle_trans; [|apply Rmax_Cmod]. apply Rmax_l. }
      set (a := csqrt (1 - w * RtoC (sin x * sin x))%C) in *. set (b := csqrt (1 - m * RtoC (sin x * sin x))%C) in *.
      assert (a0 : a <> 0) by (intros E; rewrite E, Cmod_0 in N2; lra). assert (b0 : b <> 0) by (intros E; rewrite E, Cmod_0 in Q; lra).
      replace (1 / a - 1 / b) with (- (a - b) / (a * b)) by (field; split; assumption). rewrite Cmod_div, Cmod_opp, Cmod_mult by (apply Cmult_neq_0; assumption).
      replace (Cmod (w - m)%C * (2 / (c * c * c)))%R with (Cmod (w - m)%C / c * / (c / 2 * c))%R by (field; lra). unfold Rdiv at 1.
      apply Rmult_le_compat; [apply Cmod_ge_0|left; apply Rinv_0_lt_compat; nra|exact N1|apply Rinv_le_contravar; nra].
    + replace (2 * (Cmod (w - m)%C * (2 / (c * c * c)) * (PI / 2 - 0)))%R with (Cmod (w - m)%C * B)%R by (unfold B; ring). apply Rmult_lt_reg_r with (/ B)%R; [apply Rinv_0_lt_compat, B0|]. rewrite Rmult_assoc, Rinv_r, Rmult_1_r by lra. exact Hw2.
Qed.
