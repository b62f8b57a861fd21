(** * Lattices given by elliptic integrals *)
From Coq Require Import Reals List ZArith Bool Lia Lra.
From Coquelicot Require Import Coquelicot.
From Verif Require Import Base CBase CExp CSqrt Lattice_Model Bethe_Proofs LatDer_Spec LatDer_Model LatDer_Dos LatEll_Model.
Local Open Scope C_scope.

Section Ell.
  Variable ellipk : C -> result C.
  Lemma inv_scale s D z : (0 < s)%R -> D <> 0%R -> RtoC (1 / (s * D)) * (RtoC s * z) = RtoC (1 / D) * z.
  Proof. intros H HD. rewrite Cmult_assoc, <- RtoC_mult. f_equal. f_equal. field. split; lra. Qed.
  Lemma sc_scales : cscales (sc_gf_z ellipk).
  Proof.
    intros s z D H. unfold sc_gf_z. rewrite rdiv_scale_D by exact H. destruct (rdiv 3 D) as [d|]; cbn [bind]; [|reflexivity].
    assert (S := RtoC_neq0 s ltac:(lra)). replace (RtoC (d / s) * (RtoC s * z)) with (RtoC d * z) by (rewrite RtoC_div by lra; field; exact S).
    destruct (sc_core ellipk (RtoC d * z)) as [g|]; cbn [bind]; [|reflexivity]. f_equal. rewrite RtoC_div by lra. field. exact S.
  Qed.
  Lemma cdiv_scale_z s x c z : (0 < s)%R -> cdiv x (c * (RtoC s * z)) = do q <- cdiv x (c * z); Ok (q / RtoC s).
  Proof.
    intros H. assert (S := RtoC_neq0 s ltac:(lra)). replace (c * (RtoC s * z)) with (RtoC s * (c * z)) by ring. unfold cdiv. destruct (Ceq_dec (c * z) 0) as [->|N].
    - destruct (Ceq_dec (RtoC s * 0) 0) as [|n]; [reflexivity|]. exfalso. apply n. ring.
    - destruct (Ceq_dec (RtoC s * (c * z)) 0) as [E'|_]; [exfalso; exact (Cmult_neq_0 _ _ S N E')|]. cbn [bind]. f_equal. field. repeat split; try assumption; intros E; apply N; rewrite E; ring.
  Qed.
  Lemma bcc_scales : cscales (bcc_gf_z ellipk).
  Proof.
    intros s z D H. assert (S := RtoC_neq0 s ltac:(lra)). unfold bcc_gf_z. rewrite cdiv_scale_z by exact H. rewrite (RtoC_mult s D), cdiv_scale by exact H.
    destruct (cdiv z (RtoC D)) as [r|]; cbn [bind]; [|reflexivity]. destruct (cdiv 1 (r * r)) as [m|]; cbn [bind]; [|reflexivity].
    destruct (cdiv 4 (RtoC (PI * PI) * z)) as [p|]; cbn [bind]; [|reflexivity]. destruct (ellipk _) as [k|]; cbn [bind]; [|reflexivity]. f_equal. field. exact S.
  Qed.
  Lemma bcc_dos_scales : rscales (bcc_dos ellipk).
  Proof.
    intros s x D H. unfold bcc_dos. rewrite rdiv_scale by exact H. destruct (rdiv x D) as [e|]; cbn [bind]; [|reflexivity].
    destruct (Req_EM_T e 0); [reflexivity|]. destruct (Rle_dec (Rabs e) 1); [|cbn [bind]; f_equal; field; lra].
    destruct (ellipk _) as [k|]; cbn [bind]; [|reflexivity].
    rewrite Rabs_mult, (Rabs_pos_eq s) by lra. replace (PI * PI * PI * (s * Rabs x))%R with (s * (PI * PI * PI * Rabs x))%R by ring. rewrite rdiv_scale_D by exact H.
    destruct (rdiv (- (4)) _) as [p|]; cbn [bind]; [|reflexivity]. f_equal. field. lra.
  Qed.
  Lemma fcc_core_scales s z D : (0 < s)%R -> fcc_core ellipk z (s * D) = do g <- fcc_core ellipk z D; Ok (g / RtoC s).
  Proof.
    intros H. assert (S := RtoC_neq0 s ltac:(lra)). unfold fcc_core. cbv zeta. destruct (cdiv 1 _) as [p|]; cbn [bind]; [|reflexivity].
    destruct (ellipk (RtoC (1 / 2) * (1 + 4 * fcc_signed_sqrt z * p - _))) as [k1|]; cbn [bind]; [|reflexivity].
    match goal with |- context [bind (if ?b then ?x else ?y) _] => destruct (if b then x else y) as [k2|]; cbn [bind]; [|reflexivity] end.
    replace (RtoC (PI * PI * (s * D)) * (z + 1)) with (RtoC s * (RtoC (PI * PI * D) * (z + 1))) by (rewrite !RtoC_mult; ring).
    assert (E : forall w, cdiv 4 (RtoC s * w) = do q <- cdiv 4 w; Ok (q / RtoC s)).
    { intros w. replace (RtoC s * w) with (1 * (RtoC s * w)) by ring. rewrite cdiv_scale_z by exact H. rewrite Cmult_1_l. reflexivity. }
    rewrite E. destruct (cdiv 4 (RtoC (PI * PI * D) * (z + 1))) as [q|]; cbn [bind]; [|reflexivity]. destruct (ellipk _) as [k3|]; cbn [bind]; [|reflexivity]. f_equal. field. exact S.
  Qed.
  Lemma conj_div_R (g : C) s : s <> 0%R -> Cconj (g / RtoC s) = Cconj g / RtoC s.
  Proof. intros H. unfold Cdiv. rewrite <- RtoC_inv by exact H. apply C_ext; cbn; ring. Qed.
  Lemma fcc_scales : cscales (fcc_gf_z ellipk).
  Proof.
    intros s z D H. unfold fcc_gf_z. rewrite half_scale. cbv zeta. rewrite rdiv_scale_D by exact H. destruct (rdiv 1 (D / 2)) as [d|]; cbn [bind]; [|reflexivity].
    assert (S := RtoC_neq0 s ltac:(lra)). replace (RtoC (d / s) * (RtoC s * z)) with (RtoC d * z) by (rewrite RtoC_div by lra; field; exact S).
    destruct (Rlt_dec 0 (snd (RtoC d * z))).
    - rewrite fcc_core_scales by exact H. destruct (fcc_core ellipk (Cconj (RtoC d * z)) (D / 2)) as [g|]; cbn [bind]; [|reflexivity]. f_equal. apply conj_div_R. lra.
    - apply fcc_core_scales. exact H.
  Qed.
  Lemma tri_core_scales s z D : (0 < s)%R -> tri_core ellipk z (s * D) = do g <- tri_core ellipk z D; Ok (g / RtoC s).
  Proof.
    intros H. assert (S := RtoC_neq0 s ltac:(lra)). unfold tri_core. cbv zeta. destruct (cdiv 4 _) as [p|]; cbn [bind]; [|reflexivity].
    destruct (ellipk _) as [k1|]; cbn [bind]; [|reflexivity].
    match goal with |- context [bind (if ?b then ?x else ?y) _] => destruct (if b then x else y) as [k2|]; cbn [bind]; [|reflexivity] end.
    rewrite rdiv_scale_D by exact H. destruct (rdiv (1 / PI) D) as [q|]; cbn [bind]; [|reflexivity]. f_equal. rewrite RtoC_div by lra. field. exact S.
  Qed.
  (** the mask acts at the frequency -1 itself *)
  Lemma tri_scales s z D : (0 < s)%R -> z <> - (1) -> RtoC s * z <> - (1) ->
    triangular_gf_z ellipk (RtoC s * z) (s * D) = do g <- triangular_gf_z ellipk z D; Ok (g / RtoC s).
  Proof.
    intros H N1 N2. assert (S := RtoC_neq0 s ltac:(lra)). unfold triangular_gf_z. cbv zeta.
    replace (s * D * 4 / 9)%R with (s * (D * 4 / 9))%R by field. set (d := (D * 4 / 9)%R).
    assert (Hd : forall w t : R, rdiv 1 w = Ok t -> w <> 0%R /\ t = (1 / w)%R) by (intros w t E; unfold rdiv in E; destruct (Req_EM_T w 0); [discriminate|]; injection E as <-; split; [assumption|reflexivity]).
    rewrite rdiv_scale_D by exact H. destruct (rdiv 1 d) as [t|] eqn:Et; cbn [bind]; [|reflexivity]. destruct (Hd _ _ Et) as [Nd ->].
    replace (RtoC (1 / d / s) * (RtoC s * z)) with (RtoC (1 / d) * z) by (rewrite (RtoC_div (1 / d)) by lra; field; exact S).
    set (w := RtoC (1 / d) * z). assert (dc := RtoC_neq0 d Nd).
    assert (Dw : RtoC d * w = z) by (unfold w; rewrite RtoC_div by exact Nd; field; exact dc).
    set (w' := if cneg (snd w) then Cconj w else w).
    assert (K : forall c : R, c <> 0%R -> RtoC c * z <> - (1) -> RtoC (c * d) * w' <> - (1)).
    { intros c Hc Hn E. apply Hn. rewrite RtoC_mult in E. unfold w' in E. destruct (cneg (snd w)).
      - assert (E2 : Cconj (RtoC c * RtoC d * Cconj w) = Cconj (- (1))) by (rewrite E; reflexivity).
        replace (Cconj (RtoC c * RtoC d * Cconj w)) with (RtoC c * (RtoC d * w)) in E2 by (apply C_ext; cbn; ring). rewrite Dw in E2. rewrite E2. apply C_ext; cbn; ring.
      - rewrite <- Dw. rewrite Cmult_assoc. exact E. }
    destruct (Ceq_dec (RtoC (s * d) * w') (- (1))) as [E|_]; [exfalso; exact (K s ltac:(lra) N2 E)|].
    destruct (Ceq_dec (RtoC d * w') (- (1))) as [E|_]; [exfalso; apply (K 1%R ltac:(lra)); [rewrite Cmult_1_l; exact N1|rewrite Rmult_1_l; exact E]|].
    rewrite tri_core_scales by exact H. destruct (tri_core ellipk w' d) as [g|]; cbn [bind]; [|reflexivity]. f_equal. destruct (cneg (snd w)); [apply conj_div_R; lra|reflexivity].
  Qed.
  (** conjugation *)
  Lemma conj_conj (z : C) : Cconj (Cconj z) = z. Proof. apply C_ext; cbn; ring. Qed.
  Lemma tri_reflects D : (0 < D)%R -> reflects (triangular_gf_z ellipk) D.
  Proof.
    intros HD w G Hw. unfold triangular_gf_z. cbv zeta. set (d := (D * 4 / 9)%R). assert (Hd : (0 < d)%R) by (unfold d; lra). rewrite rdiv_ok' by lra. cbn [bind].
    assert (I := Rdiv_lt_0_compat 1 d ltac:(lra) Hd). 
    assert (S1 : cneg (snd (RtoC (1 / d) * w)) = false).
    { unfold cneg. destruct (Rlt_dec _ 0) as [L|]; [|reflexivity]. exfalso. cbn [Cmult RtoC fst snd] in L. assert (P := Rmult_lt_0_compat _ _ I Hw). cbn in L. lra. }
    assert (S2 : cneg (snd (RtoC (1 / d) * Cconj w)) = true).
    { unfold cneg. destruct (Rlt_dec _ 0) as [|L]; [reflexivity|]. exfalso. apply L. cbn. assert (P := Rmult_lt_0_compat _ _ I Hw). lra. }
    rewrite S1, S2. replace (Cconj (RtoC (1 / d) * Cconj w)) with (RtoC (1 / d) * w) by (apply C_ext; cbn; ring).
    destruct (Ceq_dec _ _); [discriminate|]. destruct (tri_core ellipk _ d) as [g|]; cbn [bind]; [|discriminate]. intros [= ->]. reflexivity.
  Qed.
  Lemma fcc_reflects D : (0 < D)%R -> reflects (fcc_gf_z ellipk) D.
  Proof.
    intros HD w G Hw. unfold fcc_gf_z. cbv zeta. set (d := (D / 2)%R). assert (Hd : (0 < d)%R) by (unfold d; lra). rewrite rdiv_ok' by lra. cbn [bind].
    assert (I := Rdiv_lt_0_compat 1 d ltac:(lra) Hd). assert (P := Rmult_lt_0_compat _ _ I Hw).
    destruct (Rlt_dec 0 (snd (RtoC (1 / d) * w))) as [_|L]; [|exfalso; apply L; cbn; lra].
    destruct (Rlt_dec 0 (snd (RtoC (1 / d) * Cconj w))) as [L|_]; [exfalso; cbn in L; lra|].
    replace (Cconj (RtoC (1 / d) * w)) with (RtoC (1 / d) * Cconj w) by (apply C_ext; cbn; ring).
    destruct (fcc_core ellipk _ d) as [g|]; cbn [bind]; [|discriminate]. intros [= <-]. rewrite conj_conj. reflexivity.
  Qed.
  Lemma cneg_scale s x : (0 < s)%R -> cneg (s * x) = cneg x.
  Proof.
    intros H. unfold cneg. destruct (Rlt_dec (s * x) 0) as [A|A], (Rlt_dec x 0) as [B|B]; try reflexivity; exfalso.
    - assert (P := Rmult_le_pos s x ltac:(lra) ltac:(lra)). lra.
    - assert (P := Rmult_lt_0_compat s (- x) H ltac:(lra)). lra.
  Qed.
  Lemma fcc_dos_scales : rscales (fcc_dos ellipk).
  Proof.
    intros s x D H. unfold fcc_dos. replace (- (1 / 2) * (s * D))%R with (s * (- (1 / 2) * D))%R by ring. set (l := (- (1 / 2) * D)%R).
    replace (s * l - s * x)%R with (s * (l - x))%R by ring. replace (s * x - 3 / 2 * (s * D))%R with (s * (x - 3 / 2 * D))%R by ring. rewrite !cneg_scale by exact H.
    destruct (Req_EM_T x l) as [->|N]; [destruct (Req_EM_T (s * l) (s * l)); [reflexivity|exfalso; auto]|].
    destruct (Req_EM_T (s * x) (s * l)) as [E|_]; [exfalso; apply N; apply Rmult_eq_reg_l with s; [exact E|lra]|].
    destruct (cneg (l - x) && cneg (x - 3 / 2 * D))%bool; [|cbn [bind]; f_equal; field; lra].
    rewrite (RtoC_mult s x), (fcc_scales s (RtoC x) D H). destruct (fcc_gf_z ellipk (RtoC x) D) as [g|]; cbn [bind]; [|reflexivity]. f_equal.
    replace (snd (g / RtoC s)) with (snd g / s)%R by (unfold Cdiv; rewrite <- RtoC_inv by lra; cbn; field; lra).
    replace (1 / PI * (snd g / s))%R with (1 / PI * snd g * / s)%R by (field; split; [lra|apply PI_neq0]). rewrite Rabs_mult, (Rabs_pos_eq (/ s)); [reflexivity|]. left. apply Rinv_0_lt_compat, H.
  Qed.
  Lemma sc_dos_scales small : rscales (sc_dos ellipk small).
  Proof.
    intros s x D H. unfold sc_dos. rewrite rdiv_scale_D by exact H. destruct (rdiv 3 D) as [d|]; cbn [bind]; [|reflexivity].
    replace (d / s * (s * x))%R with (d * x)%R by (field; lra). cbv zeta. match goal with |- context [bind (if ?b then ?x else ?y) _] => destruct (if b then x else y) as [k|]; cbn [bind]; [|reflexivity] end. f_equal. field. lra.
  Qed.
End Ell.
Lemma triangular_dos_scales ellipkm1 : rscales (triangular_dos ellipkm1).
Proof.
  intros s x D H. unfold triangular_dos. cbv zeta. replace (s * D * 4 / 9)%R with (s * (D * 4 / 9))%R by field. rewrite !rdiv_scale_D by exact H. set (d := (D * 4 / 9)%R).
  destruct (rdiv 1 d) as [t|]; cbn [bind]; [|reflexivity]. replace (t / s * (s * x))%R with (t * x)%R by (field; lra).
  match goal with |- context [bind (if ?b then ?x else ?y) _] => destruct (if b then x else y) as [k|]; cbn [bind]; [|reflexivity] end.
  destruct (rdiv (2 / (PI * PI)) d) as [q|]; cbn [bind]; [|reflexivity]. f_equal. field. lra.
Qed.
