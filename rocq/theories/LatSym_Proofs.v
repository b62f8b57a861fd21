(** * Symmetries of the lattice Green's functions: z -> -z and z -> conj z *)
From Coq Require Import Reals List ZArith Bool Lia Lra.
From Coquelicot Require Import Coquelicot.
From Verif Require Import Base CBase CExp CSqrt Lattice_Model Bethe_Proofs LatDer_Spec LatDer_Model LatDer_Dos LatEll_Model LatEll_Proofs.
Local Open Scope C_scope.

Definition odd_gf (f : C -> R -> result C) : Prop := forall z D, f (- z) D = do g <- f z D; Ok (- g).
Definition even_dos (f : R -> R -> result R) : Prop := forall x D, f (- x)%R D = f x D.

Lemma Copp_eq0 (y : C) : - y = 0 <-> y = 0.
Proof. split; intros E; [replace y with (- - y) by ring; rewrite E; ring|rewrite E; ring]. Qed.
Lemma opp_neq0 (y : C) : y <> 0 -> - y <> 0. Proof. intros N E. apply N, Copp_eq0, E. Qed.
Lemma cdiv_opp_l x y : cdiv (- x) y = do q <- cdiv x y; Ok (- q).
Proof. unfold cdiv. destruct (Ceq_dec y 0); [reflexivity|]. cbn [bind]. f_equal. field. assumption. Qed.
Lemma cdiv_opp_r x y : cdiv x (- y) = do q <- cdiv x y; Ok (- q).
Proof.
  unfold cdiv. destruct (Ceq_dec y 0) as [->|N].
  - destruct (Ceq_dec (- 0) 0) as [|n]; [reflexivity|]. exfalso. apply n. ring.
  - destruct (Ceq_dec (- y) 0) as [E|n]; [exfalso; apply N, Copp_eq0, E|]. cbn [bind]. f_equal. field. split; assumption.
Qed.
Ltac bd := match goal with |- context [bind ?x _] => destruct x; cbn [bind]; [|reflexivity] end.
Ltac sqopp a := replace (- a * - a) with (a * a) by ring.
Lemma bethe_odd : odd_gf bethe_gf_z.
Proof. intros z D. unfold bethe_gf_z. rewrite cdiv_opp_l. destruct (cdiv z D) as [r|]; cbn [bind]; [|reflexivity]. sqopp r. bd. f_equal. ring. Qed.
Lemma bethez_odd Z : odd_gf (fun z D => bethez_gf_z z D Z).
Proof.
  intros z D. unfold bethez_gf_z. destruct (Rlt_dec 1 Z) as [_|_]; [|reflexivity]. rewrite cdiv_opp_r. destruct (cdiv D z) as [r|]; cbn [bind]; [|reflexivity]. sqopp r.
  destruct (cdiv _ D) as [p|]; cbn [bind]; [|reflexivity]. replace (p * - r) with (- (p * r)) by ring. apply cdiv_opp_l.
Qed.
Lemma onedim_odd : odd_gf onedim_gf_z.
Proof.
  intros z D. unfold onedim_gf_z. rewrite cdiv_opp_r. destruct (cdiv D z) as [r|]; cbn [bind]; [|reflexivity]. sqopp r.
  destruct (cdiv _ D) as [p|]; cbn [bind]; [|reflexivity]. replace (p * - r) with (- (p * r)) by ring. apply cdiv_opp_l.
Qed.
Section Ell.
  Variable ellipk : C -> result C.
  Lemma square_odd : odd_gf (square_gf_z ellipk).
  Proof. intros z D. unfold square_gf_z. rewrite cdiv_opp_r. destruct (cdiv D z) as [r|]; cbn [bind]; [|reflexivity]. sqopp r. bd. bd. f_equal. ring. Qed.
  Lemma rectangular_odd s : odd_gf (fun z D => rectangular_gf_z ellipk z D s).
  Proof.
    intros z D. unfold rectangular_gf_z. cbv zeta. bd. rewrite cdiv_opp_l. destruct (cdiv z _) as [r|]; cbn [bind]; [|reflexivity]. sqopp r. bd. bd.
    rewrite cdiv_opp_r. destruct (cdiv 1 r) as [i|]; cbn [bind]; [|reflexivity]. sqopp i. bd. bd. f_equal. ring.
  Qed.
  Lemma sc_odd : odd_gf (sc_gf_z ellipk).
  Proof.
    intros z D. unfold sc_gf_z. bd. unfold sc_core. cbv zeta. match goal with |- context [RtoC ?d * - z] => set (w := RtoC d * z); replace (RtoC d * - z) with (- w) by (unfold w; ring) end.
    sqopp w. bd. bd. bd. bd. rewrite cdiv_opp_r. bd. f_equal. ring.
  Qed.
  Lemma bcc_odd : odd_gf (bcc_gf_z ellipk).
  Proof.
    intros z D. unfold bcc_gf_z. cbv zeta. rewrite cdiv_opp_l. destruct (cdiv z _) as [r|]; cbn [bind]; [|reflexivity]. sqopp r. bd.
    replace (RtoC (PI * PI) * - z) with (- (RtoC (PI * PI) * z)) by ring. rewrite cdiv_opp_r. bd. bd. f_equal. ring.
  Qed.
  Lemma sc_dos_even small : even_dos (sc_dos ellipk small).
  Proof. intros x D. unfold sc_dos. bd. cbv zeta. match goal with |- context [(?d * - x)%R] => replace (d * - x)%R with (- (d * x))%R by ring end. rewrite Rabs_Ropp. reflexivity. Qed.
  Lemma rdiv_opp_l x y : rdiv (- x) y = do q <- rdiv x y; Ok (- q)%R.
  Proof. unfold rdiv. destruct (Req_EM_T y 0); [reflexivity|]. cbn [bind]. f_equal. field. assumption. Qed.
  Lemma bcc_dos_even : even_dos (bcc_dos ellipk).
  Proof.
    intros x D. unfold bcc_dos. rewrite rdiv_opp_l. destruct (rdiv x D) as [e|]; cbn [bind]; [|reflexivity]. rewrite !Rabs_Ropp. replace (- e * - e)%R with (e * e)%R by ring.
    destruct (Req_EM_T e 0) as [->|N]; [destruct (Req_EM_T (-0) 0); [reflexivity|lra]|]. destruct (Req_EM_T (- e) 0); [lra|]. reflexivity.
  Qed.
End Ell.
Lemma square_dos_even k : even_dos (square_dos k).
Proof. intros x D. unfold square_dos. rewrite rdiv_opp_l. destruct (rdiv x D) as [e|]; cbn [bind]; [|reflexivity]. rewrite !Rabs_Ropp. replace (- e * - e)%R with (e * e)%R by ring. reflexivity. Qed.
Lemma lieb_odd s : odd_gf (lieb_gf_z s).
Proof. intros z D. unfold lieb_gf_z. cbv zeta. rewrite cdiv_opp_l. destruct (cdiv z _) as [r|]; cbn [bind]; [|reflexivity]. sqopp r. rewrite cdiv_opp_r. bd. bd. bd. f_equal. ring. Qed.
Lemma honeycomb_odd s : odd_gf (honeycomb_gf_z s).
Proof. intros z D. unfold honeycomb_gf_z. cbv zeta. rewrite cdiv_opp_l. destruct (cdiv z _) as [r|]; cbn [bind]; [|reflexivity]. sqopp r. bd. bd. f_equal. ring. Qed.
Lemma lieb_dos_even s : even_dos (lieb_dos s).
Proof. intros x D. unfold lieb_dos. cbv zeta. rewrite rdiv_opp_l. destruct (rdiv x D) as [e|]; cbn [bind]; [|reflexivity]. rewrite !Rabs_Ropp. replace (- e * - e)%R with (e * e)%R by ring. reflexivity. Qed.
Lemma honeycomb_dos_even s : even_dos (honeycomb_dos s).
Proof. intros x D. unfold honeycomb_dos. cbv zeta. rewrite rdiv_opp_l. destruct (rdiv x _) as [e|]; cbn [bind]; [|reflexivity]. rewrite !Rabs_Ropp. replace (- e * - e)%R with (e * e)%R by ring. reflexivity. Qed.

(** ** conjugation *)
Lemma conj_opp (a : C) : Cconj (- a) = - Cconj a. Proof. apply C_ext; cbn; ring. Qed.
Lemma conj_plus (a b : C) : Cconj (a + b) = Cconj a + Cconj b. Proof. apply C_ext; cbn; ring. Qed.
Lemma conj_minus (a b : C) : Cconj (a - b) = Cconj a - Cconj b. Proof. apply C_ext; cbn; ring. Qed.
Lemma conj_mult (a b : C) : Cconj (a * b) = Cconj a * Cconj b. Proof. apply C_ext; cbn; ring. Qed.
Lemma conj_R (r : R) : Cconj (RtoC r) = RtoC r. Proof. apply C_ext; cbn; ring. Qed.
Lemma conj_eq0 (a : C) : Cconj a = 0 -> a = 0.
Proof. intros E. apply C_ext; [apply (f_equal fst) in E|apply (f_equal snd) in E]; cbn in *; lra. Qed.
Lemma conj_inv (a : C) : a <> 0 -> Cconj (/ a) = / Cconj a.
Proof.
  intros N. assert (N' : Cconj a <> 0) by (intros E; exact (N (conj_eq0 a E))).
  replace (Cconj (/ a)) with (Cconj (/ a) * Cconj a * / Cconj a) by (field; exact N'). rewrite <- conj_mult, Cinv_l, conj_R by exact N. ring.
Qed.
Lemma cdiv_conj x y : cdiv (Cconj x) (Cconj y) = do q <- cdiv x y; Ok (Cconj q).
Proof.
  unfold cdiv. destruct (Ceq_dec y 0) as [->|N].
  - destruct (Ceq_dec (Cconj 0) 0) as [|n]; [reflexivity|]. exfalso. apply n, conj_R.
  - destruct (Ceq_dec (Cconj y) 0) as [E|n]; [exfalso; exact (N (conj_eq0 y E))|]. cbn [bind]. f_equal. unfold Cdiv. rewrite conj_mult, conj_inv by exact N. reflexivity.
Qed.
Definition sconj (c : result C) : result C := do g <- c; Ok (Cconj g).
(** squares and inverse squares of non-real numbers avoid the non-negative axis *)
Lemma sqr_offaxis (z : C) : snd z <> 0%R -> snd (z * z) <> 0%R \/ (fst (z * z)%C < 0)%R.
Proof.
  intros H. destruct (Req_dec (fst z) 0) as [E|E].
  - right. cbn. rewrite E. assert (P := Rsqr_pos_lt _ H). unfold Rsqr in P. lra.
  - left. cbn. intros A. assert (P := Rmult_integral_contrapositive_currified _ _ E H). lra.
Qed.
Lemma offcut_1m (w : C) : snd w <> 0%R \/ (fst w < 1)%R -> offcut (1 - w).
Proof. intros [H|H]; [left|right]; cbn; lra. Qed.
Lemma inv_im (z : C) : snd z <> 0%R -> snd (/ z) <> 0%R.
Proof.
  intros H. assert (N : z <> 0) by (intros E; apply H; rewrite E; reflexivity). assert (P : (0 < fst z ^ 2 + snd z ^ 2)%R).
  { assert (A := Rsqr_pos_lt _ H). assert (B := Rle_0_sqr (fst z)). unfold Rsqr in *. cbn. lra. }
  cbn. intros E. apply H. apply Rmult_eq_reg_r with (/ (fst z ^ 2 + snd z ^ 2))%R; [|apply Rinv_neq_0_compat; cbn in P |- *; lra]. unfold Rdiv in E. cbn in E |- *. lra.
Qed.
Lemma scal_im (r : R) (z : C) : r <> 0%R -> snd z <> 0%R -> snd (RtoC r * z) <> 0%R.
Proof. intros A B. cbn. intros E. assert (P := Rmult_integral_contrapositive_currified _ _ A B). lra. Qed.
Lemma rel_im (z : C) (D : R) : D <> 0%R -> snd z <> 0%R -> snd (z / RtoC D) <> 0%R.
Proof. intros A B. unfold Cdiv. rewrite Cmult_comm, <- RtoC_inv by exact A. apply scal_im; [apply Rinv_neq_0_compat, A|exact B]. Qed.
Lemma relinv_im (z : C) (D : R) : D <> 0%R -> snd z <> 0%R -> snd (RtoC D / z) <> 0%R.
Proof. intros A B. apply scal_im; [exact A|apply inv_im, B]. Qed.
Lemma im_neq0 (z : C) : snd z <> 0%R -> z <> 0. Proof. intros H E. apply H. rewrite E. reflexivity. Qed.
Lemma root_conj (r : C) : snd r <> 0%R -> csqrt (1 - Cconj r * Cconj r) = Cconj (csqrt (1 - r * r)).
Proof.
  intros H. rewrite <- conj_mult. replace (1 - Cconj (r * r)) with (Cconj (1 - r * r)) by (rewrite conj_minus, conj_R; reflexivity). apply csqrt_conj, offcut_1m. destruct (sqr_offaxis r H); [left; assumption|right; lra].
Qed.
Lemma root_conj' (r : C) : snd r <> 0%R -> csqrt (1 - Cconj (1 / (r * r))) = Cconj (csqrt (1 - 1 / (r * r))).
Proof.
  intros H. replace (1 / (r * r)) with (/ r * / r) by (field; apply im_neq0, H). rewrite conj_mult. apply root_conj, inv_im, H.
Qed.
Ltac cj := repeat (rewrite conj_minus || rewrite conj_plus || rewrite conj_mult || rewrite conj_R).
Lemma cdivD_conj (z : C) D : cdiv (Cconj z) (RtoC D) = do q <- cdiv z (RtoC D); Ok (Cconj q).
Proof. rewrite <- cdiv_conj, conj_R. reflexivity. Qed.
Lemma cdivz_conj (x : R) (z : C) : cdiv (RtoC x) (Cconj z) = do q <- cdiv (RtoC x) z; Ok (Cconj q).
Proof. rewrite <- cdiv_conj, conj_R. reflexivity. Qed.
Lemma bethe_conj D z : D <> 0%R -> snd z <> 0%R -> bethe_gf_z (Cconj z) D = sconj (bethe_gf_z z D).
Proof.
  intros HD Hz. assert (dc := RtoC_neq0 D HD). unfold bethe_gf_z, sconj. rewrite cdivD_conj. rewrite cdiv_ok by exact dc. cbn [bind]. assert (Hr := rel_im z D HD Hz). set (r := z / RtoC D) in *.
  rewrite <- conj_mult, cdivz_conj. rewrite cdiv_ok by (apply Cmult_neq_0; apply im_neq0, Hr). cbn [bind]. f_equal. rewrite root_conj' by exact Hr. cj.
  replace (Cconj (2 / RtoC D)) with (2 / RtoC D); [reflexivity|]. rewrite <- RtoC_div by exact HD. rewrite conj_R. reflexivity.
Qed.
Lemma rc_conj (x y q : C) : Cconj x = x -> Cconj y = y -> cdiv x y = Ok q -> Cconj q = q.
Proof. intros A B E. assert (K := cdiv_conj x y). rewrite A, B, E in K. cbn [bind] in K. congruence. Qed.
Lemma onedim_conj D z : D <> 0%R -> snd z <> 0%R -> onedim_gf_z (Cconj z) D = sconj (onedim_gf_z z D).
Proof.
  intros HD Hz. assert (dc := RtoC_neq0 D HD). unfold onedim_gf_z, sconj. rewrite cdivz_conj. rewrite cdiv_ok by (apply im_neq0, Hz). cbn [bind]. assert (Hr := relinv_im z D HD Hz). set (r := RtoC D / z) in *.
  destruct (cdiv 1 (RtoC D)) as [p|] eqn:Ep; cbn [bind]; [|reflexivity]. rewrite root_conj by exact Hr.
  assert (Hp := rc_conj _ _ _ (conj_R 1) (conj_R D) Ep). rewrite <- Hp at 1. rewrite <- conj_mult. apply cdiv_conj.
Qed.
Lemma bethez_conj D z Z : D <> 0%R -> snd z <> 0%R -> bethez_gf_z (Cconj z) D Z = sconj (bethez_gf_z z D Z).
Proof.
  intros HD Hz. assert (dc := RtoC_neq0 D HD). unfold bethez_gf_z, sconj. destruct (Rlt_dec 1 Z) as [_|_]; [|reflexivity]. rewrite cdivz_conj. rewrite cdiv_ok by (apply im_neq0, Hz). cbn [bind]. assert (Hr := relinv_im z D HD Hz). set (r := RtoC D / z) in *.
  match goal with |- context [cdiv ?x (RtoC D)] => destruct (cdiv x (RtoC D)) as [p|] eqn:Ep; cbn [bind]; [|reflexivity]; assert (Hx : Cconj x = x) by (cj; reflexivity) end. rewrite root_conj by exact Hr.
  assert (Hp := rc_conj _ _ _ Hx (conj_R D) Ep). rewrite <- Hp at 1. rewrite <- conj_mult.
  match goal with |- cdiv _ ?d = bind (cdiv _ ?e) _ => replace d with (Cconj e) by (cj; reflexivity) end. apply cdiv_conj.
Qed.
Section EllConj.
  Variable ellipk : C -> result C.
  (** symmetric off the branch cut of the elliptic integral *)
  Variable ell_conj : forall m : C, snd m <> 0%R \/ (fst m < 1)%R -> ellipk (Cconj m) = sconj (ellipk m).
  Lemma square_conj D z : D <> 0%R -> snd z <> 0%R -> square_gf_z ellipk (Cconj z) D = sconj (square_gf_z ellipk z D).
  Proof.
    intros HD Hz. unfold square_gf_z, sconj. rewrite cdivz_conj. rewrite cdiv_ok by (apply im_neq0, Hz). cbn [bind]. assert (Hr := relinv_im z D HD Hz). set (r := RtoC D / z) in *.
    rewrite <- conj_mult, ell_conj by (destruct (sqr_offaxis r Hr); [left; assumption|right; lra]). destruct (ellipk (r * r)) as [k|]; unfold sconj; cbn [bind]; [|reflexivity].
    destruct (cdiv _ (RtoC D)) as [p|] eqn:Ep; cbn [bind]; [|reflexivity]. f_equal. cj. rewrite (rc_conj _ _ _ (conj_R _) (conj_R D) Ep). reflexivity.
  Qed.
  Lemma bcc_conj D z : D <> 0%R -> snd z <> 0%R -> bcc_gf_z ellipk (Cconj z) D = sconj (bcc_gf_z ellipk z D).
  Proof.
    intros HD Hz. assert (dc := RtoC_neq0 D HD). unfold bcc_gf_z, sconj. cbv zeta. rewrite cdivD_conj. rewrite cdiv_ok by exact dc. cbn [bind]. assert (Hr := rel_im z D HD Hz). set (r := z / RtoC D) in *.
    rewrite <- conj_mult, cdivz_conj. rewrite cdiv_ok by (apply Cmult_neq_0; apply im_neq0, Hr). cbn [bind]. rewrite root_conj' by exact Hr.
    replace (RtoC (PI * PI) * Cconj z) with (Cconj (RtoC (PI * PI) * z)) by (cj; reflexivity). rewrite cdivz_conj. destruct (cdiv 4 (RtoC (PI * PI) * z)) as [p|]; cbn [bind]; [|reflexivity].
    set (s := csqrt (1 - 1 / (r * r))). replace (RtoC (1 / 2) * (1 - Cconj s)) with (Cconj (RtoC (1 / 2) * (1 - s))) by (cj; reflexivity). rewrite ell_conj.
    2:{ right. assert (P := csqrt_re_nonneg (1 - 1 / (r * r))). fold s in P. clearbody s. cbn. lra. }
    destruct (ellipk _) as [k|]; unfold sconj; cbn [bind]; [|reflexivity]. f_equal. cj. reflexivity.
  Qed.
  Lemma rectangular_conj D z s : D <> 0%R -> (0 < s)%R -> snd z <> 0%R -> rectangular_gf_z ellipk (Cconj z) D s = sconj (rectangular_gf_z ellipk z D s).
  Proof.
    intros HD Hs Hz. unfold rectangular_gf_z, sconj. cbv zeta. rewrite rdiv_ok' by lra. cbn [bind]. set (d := (D / (1 + s))%R). assert (Hd : d <> 0%R) by (unfold d; apply Rmult_integral_contrapositive_currified; [exact HD|apply Rinv_neq_0_compat; lra]).
    assert (dc := RtoC_neq0 d Hd). rewrite cdivD_conj, cdiv_ok by exact dc. cbn [bind]. assert (Hr := rel_im z d Hd Hz). set (r := z / RtoC d) in *. set (q := ((s - 1) * (s - 1))%R). assert (Hq : (0 <= q)%R) by apply Rle_0_sqr.
    replace (Cconj r * Cconj r - RtoC q) with (Cconj (r * r - RtoC q)) by (cj; reflexivity). rewrite cdivz_conj.
    assert (Hw : snd (r * r - RtoC q) <> 0%R \/ (fst (r * r - RtoC q)%C < 0)%R).
    { destruct (sqr_offaxis r Hr) as [A|A]; [left|right]; cbn in *; lra. }
    set (w := r * r - RtoC q) in *. assert (Nw : w <> 0) by (intros E; rewrite E in Hw; cbn in Hw; lra). rewrite cdiv_ok by exact Nw. cbn [bind].
    rewrite ell_conj.
    2:{ destruct Hw as [A|A]; [left; apply relinv_im; [apply Rgt_not_eq; lra|exact A]|]. destruct (Req_dec (snd w) 0) as [B|B]; [right|left; apply relinv_im; [apply Rgt_not_eq; lra|exact B]].
        assert (Ew : w = RtoC (fst w)) by (clearbody w; apply C_ext; [reflexivity|exact B]). clearbody w. rewrite Ew.  rewrite <- RtoC_div by lra. cbn. assert (P := Rinv_lt_0_compat _ A). assert (Q := Rmult_lt_0_compat (4 * s) (- / fst w) ltac:(lra) ltac:(lra)). unfold Rdiv. lra. }
    destruct (ellipk _) as [k|]; unfold sconj; cbn [bind]; [|reflexivity]. rewrite cdivz_conj, cdiv_ok by (apply im_neq0, Hr). cbn [bind].
    assert (Hi : snd (1 / r) <> 0%R) by (apply relinv_im; [apply Rgt_not_eq; lra|exact Hr]). set (i := 1 / r) in *. clearbody i.
    replace (csqrt (1 - RtoC q * (Cconj i * Cconj i))) with (Cconj (csqrt (1 - RtoC q * (i * i)))).
    2:{ rewrite <- csqrt_conj; [cj; reflexivity|]. apply offcut_1m. destruct Hq as [Hq|Hq].
        - destruct (sqr_offaxis i Hi) as [A|A].
          + left. apply scal_im; [apply Rgt_not_eq; lra|exact A].
          + right. cbn. cbn in A. assert (P := Rmult_lt_0_compat q (- (fst i * fst i - snd i * snd i)) Hq ltac:(lra)). lra.
        - right. rewrite <- Hq. cbn. lra. }
    rewrite cdivz_conj. destruct (cdiv 1 _) as [k1|]; cbn [bind]; [|reflexivity]. destruct (cdiv _ (RtoC d)) as [p|] eqn:Ep; cbn [bind]; [|reflexivity]. f_equal. cj. rewrite (rc_conj _ _ _ (conj_R _) (conj_R d) Ep). reflexivity.
  Qed.
End EllConj.
(** the derived lattices evaluate their parents at a quadratic in z, which is real on the imaginary axis of the band centre *)
Definition conj_off (f : C -> result C) : Prop := forall w, snd w <> 0%R -> f (Cconj w) = sconj (f w).
Lemma lieb_conj sqr D z : D <> 0%R -> conj_off (fun w => sqr w 4%R) -> fst z <> 0%R -> snd z <> 0%R -> lieb_gf_z sqr (Cconj z) D = sconj (lieb_gf_z sqr z D).
Proof.
  intros HD Hs Hx Hz. unfold lieb_gf_z, sconj. cbv zeta. set (d := (D / (2 * sqrt 2))%R). assert (Hd : d <> 0%R).
  { unfold d. apply Rmult_integral_contrapositive_currified; [exact HD|]. apply Rinv_neq_0_compat. assert (P := sqrt_lt_R0 2 ltac:(lra)). lra. }
  assert (dc := RtoC_neq0 d Hd). rewrite cdivD_conj, cdiv_ok by exact dc. cbn [bind]. rewrite cdivz_conj. destruct (cdiv (RtoC (1 / 3)) z) as [p|]; cbn [bind]; [|reflexivity].
  match goal with |- context [cdiv ?y ?x] => destruct (cdiv y x) as [q|] eqn:Eq; cbn [bind]; [|reflexivity]; assert (Hq : Cconj x = x) by (cj; reflexivity) end.
  apply (rc_conj _ _ _ (conj_R 2) Hq) in Eq. set (r := z / RtoC d).
  replace (Cconj r * Cconj r - 4) with (Cconj (r * r - 4)) by (cj; reflexivity). cbn in Hs. rewrite Hs.
  2:{ assert (A : snd r = (/ d * snd z)%R) by (unfold r, Cdiv; rewrite <- RtoC_inv by exact Hd; cbn; ring). assert (B : fst r = (/ d * fst z)%R) by (unfold r, Cdiv; rewrite <- RtoC_inv by exact Hd; cbn; ring).
      clearbody r. cbn. rewrite A, B. assert (I := Rinv_neq_0_compat _ Hd). assert (P := Rmult_integral_contrapositive_currified _ _ (Rmult_integral_contrapositive_currified _ _ I Hx) (Rmult_integral_contrapositive_currified _ _ I Hz)). lra. }
  destruct (sqr (r * r - 4) 4%R) as [g|]; unfold sconj; cbn [bind]; [|reflexivity]. f_equal. cj. rewrite Eq. reflexivity.
Qed.
Lemma honeycomb_conj tri D z : D <> 0%R -> conj_off (fun w => tri w (9 / 4)%R) -> fst z <> 0%R -> snd z <> 0%R -> honeycomb_gf_z tri (Cconj z) D = sconj (honeycomb_gf_z tri z D).
Proof.
  intros HD Hs Hx Hz. unfold honeycomb_gf_z, sconj. cbv zeta. set (d := (D / (3 / 2))%R). assert (Hd : d <> 0%R) by (unfold d; apply Rmult_integral_contrapositive_currified; [exact HD|apply Rinv_neq_0_compat; lra]).
  assert (dc := RtoC_neq0 d Hd). rewrite cdivD_conj, cdiv_ok by exact dc. cbn [bind].
  destruct (cdiv 2 (RtoC d)) as [q|] eqn:Eq; cbn [bind]; [|reflexivity]. apply (rc_conj _ _ _ (conj_R 2) (conj_R d)) in Eq. set (r := z / RtoC d).
  replace (2 * (Cconj r * Cconj r) - RtoC (3 / 2)) with (Cconj (2 * (r * r) - RtoC (3 / 2))) by (cj; reflexivity). cbn in Hs. rewrite Hs.
  2:{ assert (A : snd r = (/ d * snd z)%R) by (unfold r, Cdiv; rewrite <- RtoC_inv by exact Hd; cbn; ring). assert (B : fst r = (/ d * fst z)%R) by (unfold r, Cdiv; rewrite <- RtoC_inv by exact Hd; cbn; ring).
      clearbody r. cbn. rewrite A, B. assert (I := Rinv_neq_0_compat _ Hd). assert (P := Rmult_integral_contrapositive_currified _ _ (Rmult_integral_contrapositive_currified _ _ I Hx) (Rmult_integral_contrapositive_currified _ _ I Hz)). lra. }
  destruct (tri _ (9 / 4)%R) as [g|]; unfold sconj; cbn [bind]; [|reflexivity]. f_equal. cj. rewrite Eq. reflexivity.
Qed.
Lemma kagome_conj tri D z : D <> 0%R -> conj_off (fun w => tri w (9 / 4)%R) -> fst z <> (D / 3)%R -> snd z <> 0%R -> kagome_gf_z tri (Cconj z) D = sconj (kagome_gf_z tri z D).
Proof.
  intros HD Hs Hx Hz. unfold kagome_gf_z, sconj. cbv zeta. replace (3 * Cconj z + 2 * RtoC D) with (Cconj (3 * z + 2 * RtoC D)) by (cj; reflexivity). rewrite cdivz_conj.
  destruct (cdiv 1 _) as [p|]; cbn [bind]; [|reflexivity]. replace (Cconj z - RtoC (D / 3)) with (Cconj (z - RtoC (D / 3))) by (cj; reflexivity).
  rewrite honeycomb_conj; [|exact HD|exact Hs|cbn; lra|cbn; lra]. destruct (honeycomb_gf_z tri _ D) as [g|]; unfold sconj; cbn [bind]; [|reflexivity]. f_equal. cj. reflexivity.
Qed.
(** triangular and fcc: by their branch selection, whatever the elliptic integral *)
Lemma tri_conj_off k D : (0 < D)%R -> conj_off (fun w => triangular_gf_z k w D).
Proof.
  intros HD w Hw. cbn. unfold triangular_gf_z, sconj. cbv zeta. set (d := (D * 4 / 9)%R). assert (Hd : (0 < d)%R) by (unfold d; lra). rewrite rdiv_ok' by lra. cbn [bind].
  replace (RtoC (1 / d) * Cconj w) with (Cconj (RtoC (1 / d) * w)) by (cj; reflexivity). assert (H : snd (RtoC (1 / d) * w) <> 0%R) by (apply scal_im; [apply Rgt_not_eq, Rdiv_lt_0_compat; lra|exact Hw]).
  set (v := RtoC (1 / d) * w) in *. clearbody v.
  assert (K : (cneg (snd (Cconj v)) = true /\ cneg (snd v) = false) \/ (cneg (snd (Cconj v)) = false /\ cneg (snd v) = true)).
  { unfold cneg. cbn. destruct (Rlt_dec (- snd v) 0), (Rlt_dec (snd v) 0); (left; split; reflexivity) || (right; split; reflexivity) || (exfalso; lra). }
  destruct K as [[-> ->]|[-> ->]].
  - rewrite conj_conj. destruct (Ceq_dec _ _); [reflexivity|]. bd. reflexivity.
  - destruct (Ceq_dec _ _); [reflexivity|]. bd. rewrite conj_conj. reflexivity.
Qed.
Lemma fcc_conj_off k D : (0 < D)%R -> conj_off (fun w => fcc_gf_z k w D).
Proof.
  intros HD w Hw. cbn. unfold fcc_gf_z, sconj. cbv zeta. set (d := (D / 2)%R). assert (Hd : (0 < d)%R) by (unfold d; lra). rewrite rdiv_ok' by lra. cbn [bind].
  replace (RtoC (1 / d) * Cconj w) with (Cconj (RtoC (1 / d) * w)) by (cj; reflexivity). assert (H : snd (RtoC (1 / d) * w) <> 0%R) by (apply scal_im; [apply Rgt_not_eq, Rdiv_lt_0_compat; lra|exact Hw]).
  set (v := RtoC (1 / d) * w) in *. clearbody v. destruct (Rlt_dec 0 (snd (Cconj v))) as [A|A], (Rlt_dec 0 (snd v)) as [B|B]; cbn in A; try (exfalso; lra).
  - rewrite conj_conj. reflexivity.
  - bd. rewrite conj_conj. reflexivity.
Qed.
