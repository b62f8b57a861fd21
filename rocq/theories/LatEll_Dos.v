(** * Density of states of the body-centred cubic lattice; symmetries of the box *)
From Coq Require Import Reals List ZArith Bool Lia Lra.
From Coquelicot Require Import Coquelicot.
From Verif Require Import Base CBase CExp CSqrt Lattice_Model Bethe_Proofs LatDer_Spec LatDer_Model LatDer_Dos LatEll_Model LatEll_Proofs LatSym_Proofs.
Local Open Scope C_scope.

(** ** box *)
Lemma carg_conj r : snd r <> 0%R -> carg (Cconj r) = (- carg r)%R.
Proof.
  intros H. unfold carg. rewrite Cmod_conj. change (fst (Cconj r)) with (fst r). change (snd (Cconj r)) with (- snd r)%R.
  destruct (Rle_dec 0 (- snd r)), (Rle_dec 0 (snd r)); try (exfalso; lra); ring.
Qed.
Lemma carg_scal r (c : R) : (0 < c)%R -> carg (RtoC c * r) = carg r.
Proof.
  intros H. unfold carg. rewrite Cmod_mult, Cmod_R, (Rabs_pos_eq c) by lra. replace (fst (RtoC c * r)) with (c * fst r)%R by (cbn; ring). replace (snd (RtoC c * r)) with (c * snd r)%R by (cbn; ring).
  destruct (Ceq_dec r 0) as [->|N].
  - rewrite Cmod_0. cbn. rewrite !Rmult_0_r. reflexivity.
  - assert (P := proj1 (Cmod_gt_0 r) N). replace (c * fst r / (c * Cmod r))%R with (fst r / Cmod r)%R by (field; lra).
    destruct (Rle_dec 0 (c * snd r)) as [A|A], (Rle_dec 0 (snd r)) as [B|B]; try reflexivity; exfalso.
    + assert (Q := Rmult_lt_0_compat c (- snd r) H ltac:(lra)). lra.
    + assert (Q := Rmult_le_pos c (snd r) ltac:(lra) B). lra.
Qed.
Lemma inv_as_conj (r : C) : r <> 0 -> / r = RtoC (/ (Cmod r * Cmod r)) * Cconj r.
Proof.
  intros N. assert (P := proj1 (Cmod_gt_0 r) N). assert (Q := Rmult_lt_0_compat _ _ P P). rewrite RtoC_inv by lra.
  assert (E : RtoC (Cmod r * Cmod r) = r * Cconj r). { rewrite Cmod_sqr. apply C_ext; cbn; ring. }
  rewrite E. assert (N' : Cconj r <> 0) by (intros X; exact (N (conj_eq0 r X))). field. split; assumption.
Qed.
Lemma clog_inv r : snd r <> 0%R -> clog (/ r) = - clog r.
Proof.
  intros H. assert (N := im_neq0 r H). assert (P := proj1 (Cmod_gt_0 r) N). assert (Q := Rmult_lt_0_compat _ _ P P). unfold clog. apply C_ext; cbn [fst snd].
  - rewrite Cmod_inv by exact N. rewrite ln_Rinv by exact P. reflexivity.
  - rewrite inv_as_conj by exact N. rewrite carg_scal by (apply Rinv_0_lt_compat, Q). rewrite carg_conj by exact H. reflexivity.
Qed.
Lemma clog_conj r : snd r <> 0%R -> clog (Cconj r) = Cconj (clog r).
Proof. intros H. unfold clog. rewrite Cmod_conj, carg_conj by exact H. reflexivity. Qed.
Lemma mobius_im (w : C) : snd w <> 0%R -> w - 1 <> 0 /\ w + 1 <> 0 /\ snd ((w + 1) / (w - 1)) <> 0%R.
Proof.
  intros H. assert (A : w - 1 <> 0) by (apply im_neq0; cbn; lra). assert (B : w + 1 <> 0) by (apply im_neq0; cbn; lra). repeat split; try assumption.
  replace ((w + 1) / (w - 1)) with (1 + RtoC 2 / (w - 1)).
  2:{ replace (w + 1) with (w - 1 + RtoC 2) by (apply C_ext; cbn; ring). field. exact A. }
  replace (snd (1 + RtoC 2 / (w - 1))) with (snd (RtoC 2 / (w - 1))) by (cbn; ring). apply relinv_im; [lra|cbn; lra].
Qed.
Lemma box_conj D z : D <> 0%R -> snd z <> 0%R -> box_gf_z (Cconj z) D = sconj (box_gf_z z D).
Proof.
  intros HD Hz. assert (dc := RtoC_neq0 D HD). unfold box_gf_z, sconj. rewrite cdivD_conj, cdiv_ok by exact dc. cbn [bind]. assert (Hr := rel_im z D HD Hz). set (r := z / RtoC D) in *. clearbody r.
  destruct (mobius_im r Hr) as (A & B & M). replace (Cconj r + 1) with (Cconj (r + 1)) by (cj; reflexivity). replace (Cconj r - 1) with (Cconj (r - 1)) by (cj; reflexivity).
  rewrite cdiv_conj, cdiv_ok by exact A. cbn [bind]. set (q := (r + 1) / (r - 1)) in *. clearbody q. destruct (Ceq_dec (Cconj q) 0) as [E|_]; [exfalso; exact (im_neq0 q M (conj_eq0 q E))|].
  destruct (Ceq_dec q 0) as [E|_]; [exfalso; exact (im_neq0 q M E)|]. destruct (cdiv (RtoC (1 / 2)) (RtoC D)) as [p|] eqn:Ep; cbn [bind]; [|reflexivity]. f_equal.
  rewrite conj_mult, clog_conj by exact M. rewrite (rc_conj _ _ _ (conj_R _) (conj_R D) Ep). reflexivity.
Qed.
Lemma box_odd D z : D <> 0%R -> snd z <> 0%R -> box_gf_z (- z) D = do g <- box_gf_z z D; Ok (- g).
Proof.
  intros HD Hz. assert (dc := RtoC_neq0 D HD). unfold box_gf_z. rewrite cdiv_opp_l, cdiv_ok by exact dc. cbn [bind]. assert (Hr := rel_im z D HD Hz). set (r := z / RtoC D) in *. clearbody r.
  destruct (mobius_im r Hr) as (A & B & M). replace (- r + 1) with (- (r - 1)) by ring. replace (- r - 1) with (- (r + 1)) by ring. rewrite (cdiv_ok _ _ (opp_neq0 _ B)), (cdiv_ok _ _ A). cbn [bind].
  replace (- (r - 1) / - (r + 1)) with (/ ((r + 1) / (r - 1))) by (field; repeat split; try assumption; apply opp_neq0; assumption). set (q := (r + 1) / (r - 1)) in *. clearbody q. assert (Nq := im_neq0 q M).
  destruct (Ceq_dec (/ q) 0) as [E|_]; [exfalso|]. { apply C1_neq0. rewrite <- (Cinv_r q Nq), E. ring. }
  destruct (Ceq_dec q 0) as [E|_]; [exfalso; exact (Nq E)|]. destruct (cdiv _ (RtoC D)) as [p|]; cbn [bind]; [|reflexivity]. f_equal. rewrite clog_inv by exact M. ring.
Qed.
(** ** the root on its cut, from above *)
Lemma csqrt_upper (w : C) (a : R) : (0 <= snd w)%R -> (a <= 0)%R -> (Cmod (csqrt w - Ci * RtoC (sqrt (- a)))%C * Cmod (csqrt w - Ci * RtoC (sqrt (- a)))%C <= Cmod (w - RtoC a)%C)%R.
Proof.
  intros Hw Ha. set (s := sqrt (- a)). assert (Hs : (0 <= s)%R) by apply sqrt_pos. assert (Es : (s * s = - a)%R) by (apply sqrt_sqrt; lra).
  assert (Hi : (0 <= snd (csqrt w))%R). { unfold csqrt. cbn. destruct (Rle_dec 0 (snd w)); [|lra]. rewrite Rmult_1_l. apply sqrt_pos. }
  assert (E : w - RtoC a = (csqrt w - Ci * RtoC s) * (csqrt w + Ci * RtoC s)).
  { rewrite <- (csqrt_sqr w) at 1. replace a with (- (s * s))%R by lra. apply C_ext; cbn; ring. }
  rewrite E, Cmod_mult. apply Rmult_le_compat_l; [apply Cmod_ge_0|]. apply Rsqr_incr_0_var; [|apply Cmod_ge_0]. unfold Rsqr. rewrite !Cmod_sqr. clear E. set (c := csqrt w) in *. clearbody c s. cbn. assert (P := Rmult_le_pos _ _ Hi Hs). lra.
Qed.
Lemma ulim_csqrt x f a : ulim x f (RtoC a) -> uev x (fun w => (0 < snd (f w))%R) ->
  ulim x (fun w => csqrt (f w)) (if Rlt_dec 0 a then RtoC (sqrt a) else Ci * RtoC (sqrt (- a))).
Proof.
  intros Hf Hu t Ht. destruct (Rlt_dec 0 a) as [Ha|Ha].
  - assert (S := sqrt_lt_R0 a Ha). destruct (Hf (t * sqrt a)%R ltac:(apply Rmult_lt_0_compat; assumption)) as (r & Hr & B). exists r. split; [exact Hr|]. intros w Hw Hx. specialize (B w Hw Hx).
    assert (L := csqrt_lip (RtoC a) (f w)). rewrite csqrt_R in L by lra. specialize (L S). eapply Rle_lt_trans; [exact L|]. cbn [fst RtoC]. apply (Rmult_lt_reg_r (sqrt a)); [exact S|]. unfold Rdiv. rewrite Rmult_assoc, Rinv_l by lra. lra.
  - destruct (Hf (t * t)%R ltac:(apply Rmult_lt_0_compat; assumption)) as (r1 & H1 & B). destruct Hu as (r2 & H2 & U). exists (Rmin r1 r2). split; [apply Rmin_glb_lt; assumption|].
    intros w Hw Hx. assert (M1 := Rmin_l r1 r2). assert (M2 := Rmin_r r1 r2). specialize (B w Hw ltac:(lra)). specialize (U w Hw ltac:(lra)). cbv beta in U.
    assert (L := csqrt_upper (f w) a ltac:(lra) ltac:(lra)). set (q := Cmod (csqrt (f w) - _)%C) in *. assert (Q : (0 <= q)%R) by apply Cmod_ge_0. apply Rsqr_incrst_0; unfold Rsqr; lra.
Qed.
Section Bcc.
  Variable ellipk : C -> result C.
  Hypothesis Hk : elliptic_like ellipk.
  Lemma ell_conj (m : C) : snd m <> 0%R \/ (fst m < 1)%R -> ellipk (Cconj m) = sconj (ellipk m).
  Proof. intros H. destruct (Hk m H) as (k & E1 & E2 & _). rewrite E1, E2. reflexivity. Qed.
  Variables (e D : R).
  Hypotheses (HD : (0 < D)%R) (He : (0 < e)%R).
  Let x0 : R := (1 - 1 / (e / D * (e / D)))%R.
  Let s0 : C := if Rlt_dec 0 x0 then RtoC (sqrt x0) else Ci * RtoC (sqrt (- x0)).
  Let m0 : C := RtoC (1 / 2) * (1 - s0).
  Let Xb (w : C) : C := 1 - 1 / (w / RtoC D * (w / RtoC D)).
  Lemma er_pos : (0 < e / D)%R. Proof. apply Rdiv_lt_0_compat; assumption. Qed.
  Lemma Xb_lim : ulim e Xb (RtoC x0).
  Proof.
    assert (P := er_pos). unfold Xb, x0. rewrite RtoC_minus. apply (ulim_add e (fun _ => RtoC 1) (fun w => - (1 / (w / RtoC D * (w / RtoC D))))); [apply ulim_const|].
    rewrite RtoC_div by (apply Rgt_not_eq, Rmult_lt_0_compat; assumption). rewrite RtoC_mult, RtoC_div by lra.
    assert (E : forall y : C, - (1 / y) = - (1) * / y) by (intros y; unfold Cdiv; ring). rewrite E.
    intros t Ht. destruct (ulim_mul e (fun _ => - (1)) (fun w => / (w / RtoC D * (w / RtoC D))) (- (1)) (/ (RtoC e / RtoC D * (RtoC e / RtoC D)))) with (t := t) as (r & Hr & B); [apply ulim_const| |exact Ht|].
    - apply ulim_inv. + apply ulim_mul; (apply ulim_mul; [apply ulim_id|apply ulim_const]). + rewrite <- RtoC_div by lra. apply Cmult_neq_0; apply RtoC_neq0; lra.
    - exists r. split; [exact Hr|]. intros w Hw Hx. rewrite E. exact (B w Hw Hx).
  Qed.
  Lemma Xb_im : uev e (fun w => (0 < snd (Xb w))%R).
  Proof.
    destruct (uev_re e (e / 2) (2 * e) ltac:(lra)) as (r & Hr & B). exists r. split; [exact Hr|]. intros w Hw Hx. specialize (B w Hw Hx). cbv beta in B.
    unfold Xb. replace (1 / (w / RtoC D * (w / RtoC D))) with (RtoC (D * D) * (/ w * / w)).
    2:{ rewrite RtoC_mult. field. split; [apply RtoC_neq0; lra|apply upper_neq0, Hw]. }
    assert (P : (0 < fst w * fst w + snd w * snd w)%R) by (assert (0 < snd w * snd w)%R by (apply Rmult_lt_0_compat; exact Hw); assert (0 <= fst w * fst w)%R by apply Rle_0_sqr; lra).
    assert (Q := Rmult_lt_0_compat D D HD HD). assert (S : (0 < fst w * snd w)%R) by (apply Rmult_lt_0_compat; lra).
    replace (snd (1 - RtoC (D * D) * (/ w * / w))) with (2 * (D * D) * (fst w * snd w) / ((fst w * fst w + snd w * snd w) * (fst w * fst w + snd w * snd w)))%R.
    - apply Rdiv_lt_0_compat; apply Rmult_lt_0_compat; lra.
    - cbn. field. intros E. replace (fst w ^ 2 + snd w ^ 2)%R with (fst w * fst w + snd w * snd w)%R in E by ring. lra.
  Qed.
  Lemma s0_re : (0 <= fst s0)%R.
  Proof. unfold s0. destruct (Rlt_dec 0 x0); cbn; [apply sqrt_pos|lra]. Qed.
  Lemma m0_off : (fst m0 < 1)%R.
  Proof. unfold m0. assert (P := s0_re). clearbody s0. cbn. lra. Qed.
  Lemma bcc_boundary_pos : exists g, boundary (bcc_gf_z ellipk) e D g /\ bcc_dos ellipk e D = Ok (- snd g / PI)%R.
  Proof.
    destruct (Hk m0 (or_intror m0_off)) as (k0 & E0 & Ec & Hcont). assert (P := er_pos). assert (PP := PI_RGT_0). assert (P2 := Rmult_lt_0_compat _ _ PP PP).
    exists (4 / (RtoC (PI * PI) * RtoC e) * (k0 * k0)). split.
    - (* the elliptic integral along the approach *)
      set (kk := fun w => match ellipk (RtoC (1 / 2) * (1 - csqrt (Xb w))) with Ok k => k | Err _ => 0 end).
      assert (Lm : ulim e (fun w => RtoC (1 / 2) * (1 - csqrt (Xb w))) m0).
      { unfold m0, s0. apply ulim_mul; [apply ulim_const|]. apply (ulim_add e (fun _ => RtoC 1) (fun w => - csqrt (Xb w))); [apply ulim_const|].
        assert (L := ulim_csqrt e Xb x0 Xb_lim Xb_im). intros t Ht. destruct (L t Ht) as (r & Hr & B). exists r. split; [exact Hr|]. intros w Hw Hx. specialize (B w Hw Hx).
        match goal with |- (Cmod (- ?a - - ?b)%C < _)%R => replace (- a - - b) with (- (a - b)) by ring end. rewrite Cmod_opp. exact B. }
      assert (Lk : ulim e kk k0).
      { intros t Ht. destruct (Hcont t Ht) as (r & Hr & B). destruct (Lm r Hr) as (r1 & H1 & B1). exists r1. split; [exact H1|]. intros w Hw Hx. unfold kk.
        destruct (B _ (B1 w Hw Hx)) as (k' & Ek & L). rewrite Ek. exact L. }
      assert (Lg : ulim e (fun w => 4 / (RtoC (PI * PI) * w) * (kk w * kk w)) (4 / (RtoC (PI * PI) * RtoC e) * (k0 * k0))).
      { apply ulim_mul; [|apply ulim_mul; exact Lk]. apply ulim_mul; [apply ulim_const|]. apply ulim_inv; [apply ulim_mul; [apply ulim_const|apply ulim_id]|]. apply Cmult_neq_0; apply RtoC_neq0; lra. }
      intros t Ht. destruct (Lg t Ht) as (r & Hr & B). exists r. split; [exact Hr|]. intros w Hw Hx. specialize (B w Hw Hx). exists (4 / (RtoC (PI * PI) * w) * (kk w * kk w)). split; [|exact B].
      assert (Nw := upper_neq0 w Hw). assert (dc := RtoC_neq0 D ltac:(lra)). unfold bcc_gf_z. cbv zeta. rewrite cdiv_ok by exact dc. cbn [bind].
      assert (Nr : w / RtoC D <> 0) by (apply im_neq0, rel_im; lra). rewrite (cdiv_ok _ _ (Cmult_neq_0 _ _ Nr Nr)). cbn [bind].
      rewrite cdiv_ok by (apply Cmult_neq_0; [apply RtoC_neq0; lra|exact Nw]). cbn [bind]. unfold kk, Xb.
      destruct (Hk (RtoC (1 / 2) * (1 - csqrt (1 - 1 / (w / RtoC D * (w / RtoC D)))))) as (k & Ek & _).
      { right. assert (Q := csqrt_re_nonneg (1 - 1 / (w / RtoC D * (w / RtoC D)))). set (s := csqrt _) in *. clearbody s. cbn. lra. }
      rewrite Ek. reflexivity.
    - assert (Pg : snd (4 / (RtoC (PI * PI) * RtoC e) * (k0 * k0)) = (4 / (PI * PI * e) * snd (k0 * k0)%C)%R).
      { rewrite <- RtoC_mult, <- RtoC_div by (apply Rgt_not_eq, Rmult_lt_0_compat; assumption). cbn. ring. }
      rewrite Pg. unfold bcc_dos. rewrite rdiv_ok' by lra. cbn [bind]. destruct (Req_EM_T (e / D) 0); [lra|]. rewrite (Rabs_pos_eq (e / D)), (Rabs_pos_eq e) by lra.
      assert (R2 := Rmult_lt_0_compat _ _ P P). destruct (Rle_dec (e / D) 1) as [L|L].
      + assert (X : (x0 <= 0)%R). { unfold x0. assert (Q : (e / D * (e / D) <= 1)%R) by (replace 1%R with (1 * 1)%R by ring; apply Rmult_le_compat; lra).
          assert (I : (1 <= 1 / (e / D * (e / D)))%R). { apply (Rmult_le_reg_r (e / D * (e / D))); [exact R2|]. unfold Rdiv at 3. rewrite Rmult_assoc, Rinv_l by lra. lra. } lra. }
        replace (RtoC (1 / 2) - RtoC (1 / 2) * Ci * RtoC (sqrt (1 / (e / D * (e / D)) - 1))) with m0.
        2:{ unfold m0, s0. destruct (Rlt_dec 0 x0); [lra|]. replace (- x0)%R with (1 / (e / D * (e / D)) - 1)%R by (unfold x0; ring). ring. }
        rewrite E0. cbn [bind]. rewrite rdiv_ok' by (apply Rgt_not_eq, Rmult_lt_0_compat; [apply Rmult_lt_0_compat; assumption|assumption]). cbn [bind]. f_equal. field. split; lra.
      + (* outside the band the elliptic integral is real *)
        assert (X : (0 < x0)%R). { unfold x0. assert (I : (1 / (e / D * (e / D)) < 1)%R); [|lra]. apply (Rmult_lt_reg_r (e / D * (e / D))); [exact R2|]. unfold Rdiv at 1. rewrite Rmult_assoc, Rinv_l by lra.
          assert (1 * 1 < e / D * (e / D))%R by (apply Rmult_le_0_lt_compat; lra). lra. }
        assert (Em : Cconj m0 = m0). { unfold m0, s0. destruct (Rlt_dec 0 x0); [|lra]. cj. reflexivity. }
        rewrite Em, E0 in Ec. injection Ec as Ec. f_equal. assert (S := f_equal snd Ec). cbn in S. replace (snd (k0 * k0)) with 0%R; [field; split; lra|]. cbn. replace (snd k0) with 0%R by lra. ring.
  Qed.
End Bcc.
Lemma boundary_reflect (gf : C -> R -> result C) e D g : D <> 0%R -> (forall z, snd z <> 0%R -> gf (Cconj z) D = sconj (gf z D)) -> (forall z, gf (- z) D = do g <- gf z D; Ok (- g)) ->
  boundary gf e D g -> boundary gf (- e) D (- Cconj g).
Proof.
  intros HD Hc Ho Hb t Ht. destruct (Hb t Ht) as (r & Hr & B). exists r. split; [exact Hr|]. intros w Hw Hx.
  destruct (B (- Cconj w)) as (G & E & L). { cbn. lra. } { replace (- Cconj w - RtoC e) with (- Cconj (w - RtoC (- e))) by (apply C_ext; cbn; ring). rewrite Cmod_opp, Cmod_conj. exact Hx. }
  exists (- Cconj G). rewrite Ho, Hc in E by lra. split.
  - destruct (gf w D) as [h|]; [|discriminate]. unfold sconj in E. cbn [bind] in E. injection E as <-. f_equal. rewrite conj_opp, conj_conj. ring.
  - replace (- Cconj G - - Cconj g) with (- Cconj (G - g)) by (apply C_ext; cbn; ring). rewrite Cmod_opp, Cmod_conj. exact L.
Qed.
Lemma bcc_boundary ellipk e D : elliptic_like ellipk -> (0 < D)%R -> e <> 0%R -> exists g, boundary (bcc_gf_z ellipk) e D g /\ bcc_dos ellipk e D = Ok (- snd g / PI)%R.
Proof.
  intros Hk HD He. destruct (Rlt_dec 0 e) as [P|N]; [exact (bcc_boundary_pos ellipk Hk e D HD P)|].
  destruct (bcc_boundary_pos ellipk Hk (- e) D HD ltac:(lra)) as (g & B & E). exists (- Cconj g). split.
  - replace e with (- - e)%R by ring. apply boundary_reflect; [lra|intros z Hz; apply bcc_conj; [exact (ell_conj ellipk Hk)|lra|exact Hz]|intros z; apply bcc_odd|exact B].
  - rewrite bcc_dos_even in E. rewrite E. f_equal. cbn. field. apply PI_neq0.
Qed.
