(** * The density of states is the spectral function *)
From Coq Require Import Reals Lra Psatz Field.
From Coquelicot Require Import Coquelicot.
From Verif Require Import Base CBase CExp CSqrt Lattice_Model Bethe_Proofs Bethe_Main.
Local Open Scope C_scope.

(** one-sided limit at zero of a complex valued function *)
Definition clim (f : R -> C) (l : C) : Prop := forall eps, (0 < eps)%R -> exists d, (0 < d)%R /\ forall h, (0 < h < d)%R -> (Cmod (f h - l)%C < eps)%R.
Lemma clim_const l : clim (fun _ => l) l.
Proof. intros eps He. exists 1%R. split; [lra|]. intros h _. replace (l - l) with (RtoC 0) by ring. now rewrite Cmod_0. Qed.
Lemma clim_ext f g l : (forall h, (0 < h)%R -> f h = g h) -> clim f l -> clim g l.
Proof. intros E H eps He. destruct (H eps He) as (d & Hd & B). exists d. split; [exact Hd|]. intros h Hh. rewrite <- E by lra. now apply B. Qed.
Lemma clim_add f g a b : clim f a -> clim g b -> clim (fun h => f h + g h) (a + b).
Proof.
  intros Hf Hg eps He. destruct (Hf (eps / 2)%R ltac:(lra)) as (d1 & P1 & B1). destruct (Hg (eps / 2)%R ltac:(lra)) as (d2 & P2 & B2).
  exists (Rmin d1 d2). split; [now apply Rmin_glb_lt|]. intros h Hh. assert (M1 := Rmin_l d1 d2). assert (M2 := Rmin_r d1 d2).
  replace (f h + g h - (a + b)) with ((f h - a) + (g h - b)) by ring. eapply Rle_lt_trans; [apply Cmod_triangle|].
  specialize (B1 h ltac:(lra)). specialize (B2 h ltac:(lra)). lra.
Qed.
Lemma clim_scal f a c : clim f a -> clim (fun h => c * f h) (c * a).
Proof.
  intros Hf eps He. assert (Hc := Cmod_ge_0 c). destruct (Hf (eps / (Cmod c + 1))%R) as (d & P & B); [apply Rdiv_lt_0_compat; lra|].
  exists d. split; [exact P|]. intros h Hh. specialize (B h Hh). replace (c * f h - c * a) with (c * (f h - a)) by ring. rewrite Cmod_mult.
  assert (H0 := Cmod_ge_0 (f h - a)). apply Rle_lt_trans with ((Cmod c) * (eps / (Cmod c + 1)))%R; [apply Rmult_le_compat_l; lra|].
  apply (Rmult_lt_reg_r (Cmod c + 1)); [lra|]. replace (Cmod c * (eps / (Cmod c + 1)) * (Cmod c + 1))%R with (Cmod c * eps)%R by (field; lra). nra.
Qed.
Lemma clim_bound f a : clim f a -> a <> 0 -> exists d, (0 < d)%R /\ forall h, (0 < h < d)%R -> (Cmod a / 2 <= Cmod (f h)%C)%R.
Proof.
  intros Hf Ha. assert (P := proj1 (Cmod_gt_0 a) Ha). destruct (Hf (Cmod a / 2)%R ltac:(lra)) as (d & Hd & B). exists d. split; [exact Hd|]. intros h Hh. specialize (B h Hh).
  assert (T := Cmod_triangle (f h) (a - f h)). replace (f h + (a - f h)) with a in T by ring. replace (a - f h) with (- (f h - a)) in T by ring. rewrite Cmod_opp in T. lra.
Qed.
Lemma clim_inv f a : clim f a -> a <> 0 -> clim (fun h => / f h) (/ a).
Proof.
  intros Hf Ha eps He. assert (P := proj1 (Cmod_gt_0 a) Ha). destruct (clim_bound f a Hf Ha) as (d0 & Hd0 & B0).
  destruct (Hf (eps * (Cmod a * Cmod a) / 2)%R) as (d1 & Hd1 & B1). { assert (0 < Cmod a * Cmod a)%R by nra. nra. }
  exists (Rmin d0 d1). split; [now apply Rmin_glb_lt|]. intros h Hh. assert (M1 := Rmin_l d0 d1). assert (M2 := Rmin_r d0 d1).
  specialize (B0 h ltac:(lra)). specialize (B1 h ltac:(lra)). assert (Hn : f h <> 0) by (apply Cmod_gt_0; lra).
  replace (/ f h - / a) with (- ((f h - a) / (f h * a))) by (field; now split). rewrite Cmod_opp, Cmod_div, Cmod_mult by now apply Cmult_neq_0.
  assert (Q : (0 < Cmod (f h)%C)%R) by lra. assert (QP := Rmult_lt_0_compat _ _ Q P).
  apply (Rmult_lt_reg_r (Cmod (f h)%C * Cmod a)%R); [exact QP|]. unfold Rdiv. rewrite Rmult_assoc, Rinv_l, Rmult_1_r by lra.
  assert (X : (Cmod a / 2 * Cmod a <= Cmod (f h)%C * Cmod a)%R) by (apply Rmult_le_compat_r; lra). assert (X2 := Rmult_le_compat_l eps _ _ ltac:(lra) X). lra.
Qed.
Lemma clim_im f a : clim f a -> forall eps, (0 < eps)%R -> exists d, (0 < d)%R /\ forall h, (0 < h < d)%R -> (Rabs (snd (f h) - snd a) < eps)%R.
Proof.
  intros H eps He. destruct (H eps He) as (d & Hd & B). exists d. split; [exact Hd|]. intros h Hh. specialize (B h Hh).
  eapply Rle_lt_trans; [|exact B]. apply (Cmod_ge_im (f h - a)).
Qed.
Lemma clim_csqrt f (a : R) : clim f (RtoC a) -> (0 <= a)%R -> clim (fun h => csqrt (f h)) (RtoC (sqrt a)).
Proof.
  intros Hf Ha. destruct (Req_dec a 0) as [->|Hn].
  - intros eps He. destruct (Hf (eps * eps)%R ltac:(nra)) as (d & Hd & B). exists d. split; [exact Hd|]. intros h Hh. specialize (B h Hh). rewrite sqrt_0.
    replace (csqrt (f h) - RtoC 0) with (csqrt (f h)) by ring. replace (f h - RtoC 0) with (f h) in B by ring. rewrite <- Cmod_csqrt_sqr in B. assert (H0 := Cmod_ge_0 (csqrt (f h))). nra.
  - assert (Hp : (0 < sqrt a)%R) by (apply sqrt_lt_R0; lra). intros eps He. destruct (Hf (eps * sqrt a)%R ltac:(nra)) as (d & Hd & B). exists d. split; [exact Hd|]. intros h Hh. specialize (B h Hh).
    assert (E := csqrt_R a Ha). assert (L := csqrt_lip (RtoC a) (f h)). rewrite E in L. specialize (L Hp). eapply Rle_lt_trans; [exact L|].
    change (fst (RtoC (sqrt a))) with (sqrt a). apply (Rmult_lt_reg_r (sqrt a)); [lra|]. unfold Rdiv. rewrite Rmult_assoc, Rinv_l by lra. lra.
Qed.

(** ** the root of w^2 - 1 in the upper half plane *)
Lemma upper_root (w : C) : (0 < snd w)%R -> w * sq w = Ci * csqrt (1 - w * w).
Proof.
  intros Hw. assert (Hw0 : w <> 0) by (intros E; rewrite E in Hw; cbn in Hw; lra).
  assert (N := uu_neq0 w Hw0). assert (Hc : cutfree w) by (left; lra).
  assert (I := proj2 (uu_im w Hw0) ltac:(lra)). assert (Hu : (snd (uu w) < 0)%R) by nra.
  set (q := w * sq w). assert (Eq : q = (/ uu w - uu w) / 2).
  { rewrite uu_inv by exact Hw0. unfold uu, q. rewrite C2_eq. field. exact C11_neq0. }
  assert (Hq : (0 < snd q)%R).
  { rewrite Eq. replace ((/ uu w - uu w) / 2) with ((/ uu w - uu w) * RtoC (1 / 2)) by (rewrite RtoC_div; [unfold Cdiv; ring|lra]).
    change (snd ((/ uu w - uu w) * RtoC (1 / 2))) with (fst (/ uu w - uu w)%C * 0 + (snd (/ uu w)%C + - snd (uu w)) * (1 / 2))%R. rewrite im_inv by exact N.
    assert (M := proj1 (Cmod_gt_0 (uu w)) N). set (m := Cmod (uu w)%C) in *. assert (0 < / (m * m))%R by (apply Rinv_0_lt_compat; nra). unfold Rdiv. nra. }
  assert (Ec : csqrt (1 - w * w) = - Ci * q).
  { apply csqrt_unique.
    - transitivity ((Ci * Ci) * (q * q)); [ring|]. replace (Ci * Ci) with (RtoC (-1)) by (apply C_ext; cbn; ring). unfold q.
      transitivity (RtoC (-1) * (w * w * (sq w * sq w))); [ring|]. rewrite sq_sqr. replace (RtoC (-1)) with (- RtoC 1) by (rewrite <- RtoC_opp; reflexivity). field. exact Hw0.
    - unfold Cmult, Copp, Ci. cbn [fst snd]. lra. }
  rewrite Ec. transitivity (- (Ci * Ci) * q); [|ring]. replace (Ci * Ci) with (RtoC (-1)) by (apply C_ext; cbn; ring). rewrite <- RtoC_opp. replace (- -1)%R with 1%R by ring. ring.
Qed.

Section D.
Variable D : R.
Hypothesis HD : (0 < D)%R.
Variable eps : R.
Let e := (eps / D)%R.
Definition wz (h : R) : C := (eps, h) / D.
Lemma wz_split h : wz h = (e, (h / D)%R).
Proof. unfold wz. apply C_ext; [apply (zD_split D HD (eps, h))|apply (zD_split D HD (eps, h))]. Qed.
Lemma wz_pos h : (0 < h)%R -> (0 < snd (wz h))%R.
Proof. intros H. rewrite wz_split. cbn. apply Rdiv_lt_0_compat; lra. Qed.
Lemma clim_w : clim wz (RtoC e).
Proof.
  intros t Ht. exists (t * D)%R. split; [nra|]. intros h Hh. rewrite wz_split.
  replace ((e, (h / D)%R) - RtoC e) with (Ci * RtoC (h / D)) by (apply C_ext; cbn; ring). rewrite Cmod_mult.
  replace (Cmod Ci) with 1%R by (unfold Cmod, Ci; cbn; rewrite <- sqrt_1 at 1; f_equal; ring). rewrite Cmod_R, Rabs_pos_eq by (apply Rdiv_le_0_compat; lra).
  rewrite Rmult_1_l. apply (Rmult_lt_reg_r D); [lra|]. unfold Rdiv. rewrite Rmult_assoc, Rinv_l by lra. lra.
Qed.
Lemma clim_mul f g a b : clim f a -> clim g b -> clim (fun h => f h * g h) (a * b).
Proof.
  intros Hf Hg t Ht. assert (Ha := Cmod_ge_0 a). assert (Hb := Cmod_ge_0 b).
  destruct (Hf (Rmin 1 (t / (2 * (Cmod b + 1))))%R) as (d1 & P1 & B1). { apply Rmin_glb_lt; [lra|apply Rdiv_lt_0_compat; lra]. }
  destruct (Hg (t / (2 * (Cmod a + 1)))%R) as (d2 & P2 & B2). { apply Rdiv_lt_0_compat; lra. }
  exists (Rmin d1 d2). split; [now apply Rmin_glb_lt|]. intros h Hh. assert (M1 := Rmin_l d1 d2). assert (M2 := Rmin_r d1 d2).
  specialize (B1 h ltac:(lra)). specialize (B2 h ltac:(lra)).
  assert (Q1 := Rmin_l 1 (t / (2 * (Cmod b + 1)))). assert (Q2 := Rmin_r 1 (t / (2 * (Cmod b + 1)))).
  replace (f h * g h - a * b) with (f h * (g h - b) + (f h - a) * b) by ring. eapply Rle_lt_trans; [apply Cmod_triangle|]. rewrite !Cmod_mult.
  assert (Hfh : (Cmod (f h)%C <= Cmod a + 1)%R). { assert (T := Cmod_triangle a (f h - a)). replace (a + (f h - a)) with (f h) in T by ring. lra. }
  assert (X1 : (Cmod (f h)%C * Cmod (g h - b)%C <= (Cmod a + 1) * (t / (2 * (Cmod a + 1))))%R) by (apply Rmult_le_compat; try apply Cmod_ge_0; lra).
  assert (X2 : (Cmod (f h - a)%C * (Cmod b + 1) < t / (2 * (Cmod b + 1)) * (Cmod b + 1))%R) by (apply Rmult_lt_compat_r; lra).
  replace ((Cmod a + 1) * (t / (2 * (Cmod a + 1))))%R with (t / 2)%R in X1 by (field; lra). replace (t / (2 * (Cmod b + 1)) * (Cmod b + 1))%R with (t / 2)%R in X2 by (field; lra).
  assert (H0 := Cmod_ge_0 (f h - a)). nra.
Qed.

(** inside of the band *)
Lemma clim_root_in : (Rabs e <= 1)%R -> clim (fun h => wz h * sq (wz h)) (Ci * RtoC (sqrt (1 - e * e))).
Proof.
  intros He. apply clim_ext with (fun h => Ci * csqrt (1 - wz h * wz h)).
  { intros h Hh. symmetry. apply upper_root, wz_pos, Hh. }
  apply clim_scal. apply clim_csqrt.
  - replace (RtoC (1 - e * e)) with (1 + (-(1)) * (RtoC e * RtoC e)) by (rewrite RtoC_minus, RtoC_mult; ring).
    apply clim_ext with (fun h => 1 + (-(1)) * (wz h * wz h)); [intros; ring|]. apply clim_add; [apply clim_const|]. apply clim_scal. apply clim_mul; apply clim_w.
  - assert (e * e <= 1)%R; [|lra]. rewrite <- (Rabs_pos_eq (e * e)), Rabs_mult by nra. assert (H0 := Rabs_pos e). nra.
Qed.
Lemma clim_root_out : (1 < Rabs e)%R -> exists q : R, (0 < e * q)%R /\ clim (fun h => wz h * sq (wz h)) (RtoC q).
Proof.
  intros He. assert (He0 : e <> 0%R) by (intros E; rewrite E, Rabs_R0 in He; lra). assert (Hsq : (1 < e * e)%R). { rewrite <- (Rabs_pos_eq (e * e)), Rabs_mult by nra. nra. }
  assert (Hpos : (0 < 1 - / (e * e))%R). { assert (/ (e * e) < / 1)%R by (apply Rinv_lt_contravar; lra). rewrite Rinv_1 in H. lra. }
  exists (e * sqrt (1 - / (e * e)))%R. split. { assert (S := sqrt_lt_R0 _ Hpos). rewrite <- Rmult_assoc. apply Rmult_lt_0_compat; [lra|exact S]. }
  rewrite RtoC_mult. apply clim_mul; [apply clim_w|]. unfold sq. apply clim_csqrt; [|lra].
  replace (RtoC (1 - / (e * e))) with (1 + (-(1)) * / (RtoC e * RtoC e)) by (rewrite RtoC_minus, RtoC_inv, RtoC_mult by lra; ring).
  apply clim_ext with (fun h => 1 + (-(1)) * / (wz h * wz h)).
  { intros h Hh. unfold Cdiv. ring. }
  apply clim_add; [apply clim_const|]. apply clim_scal. apply clim_inv; [apply clim_mul; apply clim_w|]. rewrite <- RtoC_mult. apply RtoC_neq0. lra.
Qed.
Lemma ez_neq0 h : (0 < h)%R -> ((eps, h) : C) <> 0.
Proof. intros H E. injection E as _ E. lra. Qed.
Lemma sq_neq0 h : (0 < h)%R -> sq (wz h) <> 0.
Proof. intros H. apply re_pos_neq0. apply sq_pos; [apply (zD_neq D HD), ez_neq0, H|left; assert (P := wz_pos h H); lra]. Qed.

Definition spectral (gf : C -> R -> result C) (d : R) : Prop :=
  forall t, (0 < t)%R -> exists r, (0 < r)%R /\ forall h, (0 < h < r)%R ->
   exists G, gf (eps, h) D = Ok G /\ (Rabs (- snd G / PI - d) < t)%R.
Lemma spectral_of_clim (gf : C -> R -> result C) (f : R -> C) (l : C) d : (forall h, (0 < h)%R -> gf (eps, h) D = Ok (f h)) -> clim f l -> (d = - snd l / PI)%R -> spectral gf d.
Proof.
  intros Hg Hf -> t Ht. assert (HP := PI_RGT_0). destruct (clim_im f l Hf (t * PI)%R ltac:(nra)) as (r & Hr & B). exists r. split; [exact Hr|]. intros h Hh.
  exists (f h). split; [apply Hg; lra|]. specialize (B h Hh). replace (- snd (f h) / PI - - snd l / PI)%R with (- ((snd (f h) - snd l) / PI))%R by (field; lra).
  rewrite Rabs_Ropp. unfold Rdiv. rewrite Rabs_mult, (Rabs_pos_eq (/ PI)) by (left; apply Rinv_0_lt_compat; lra). apply (Rmult_lt_reg_r PI); [lra|]. rewrite Rmult_assoc, Rinv_l by lra. lra.
Qed.

Theorem bethe_spectral : exists d, bethe_dos eps D = Ok d /\ spectral bethe_gf_z d.
Proof.
  unfold bethe_dos. rewrite rdiv_ok by lra. cbn [bind]. fold e. eexists. split; [reflexivity|]. assert (HP := PI_RGT_0).
  assert (Hg : forall h, (0 < h)%R -> bethe_gf_z (eps, h) D = Ok (2 / D * (wz h + (- (1)) * (wz h * sq (wz h))))).
  { intros h Hh. rewrite (bethe_ok D HD) by now apply ez_neq0. f_equal. unfold uu. fold (wz h). ring. }
  assert (Hlim : forall l, clim (fun h => wz h * sq (wz h)) l -> clim (fun h => 2 / D * (wz h + (- (1)) * (wz h * sq (wz h)))) (2 / D * (RtoC e + (- (1)) * l))).
  { intros l Hl. apply clim_scal, clim_add; [apply clim_w|]. now apply clim_scal. }
  assert (E2 : 2 / D = RtoC (2 / D)) by (rewrite RtoC_div by lra; reflexivity).
  destruct (Rle_dec (Rabs e) 1) as [He|He].
  - refine (spectral_of_clim _ _ _ _ Hg (Hlim _ (clim_root_in He)) _). rewrite E2. cbn. destruct (Rlt_dec (Rabs e) 1) as [|Hn]; [field; split; lra|].
    assert (A : (e * e = 1)%R). { assert (Rabs e = 1%R) by lra. rewrite <- (Rabs_pos_eq (e * e)), Rabs_mult by nra. rewrite H. ring. }
    rewrite A. replace (1 - 1)%R with 0%R by ring. rewrite sqrt_0. field. split; lra.
  - destruct (clim_root_out ltac:(lra)) as (q & Hq & Hl). refine (spectral_of_clim _ _ _ _ Hg (Hlim _ Hl) _). rewrite E2. cbn. destruct (Rlt_dec (Rabs e) 1); [lra|]. field. split; lra.
Qed.

Theorem onedim_spectral : Rabs e <> 1%R -> exists d, onedim_dos eps D = Ok d /\ spectral onedim_gf_z d.
Proof.
  intros Hne. assert (HP := PI_RGT_0). assert (DC : RtoC D <> 0) by (apply RtoC_neq0; lra).
  assert (Hg : forall h, (0 < h)%R -> onedim_gf_z (eps, h) D = Ok (1 / D * / (wz h * sq (wz h)))).
  { intros h Hh. assert (Hz := ez_neq0 h Hh). assert (Hs := sq_neq0 h Hh). rewrite (onedim_ok D HD) by assumption. f_equal. fold (wz h). set (s := sq (wz h)) in *. unfold wz. field. repeat split; assumption. }
  unfold onedim_dos. rewrite rdiv_ok by lra. cbn [bind]. fold e.
  destruct (Rle_dec (Rabs e) 1) as [He|He].
  - assert (Hp : (0 < 1 - e * e)%R). { assert (e * e < 1)%R; [|lra]. rewrite <- (Rabs_pos_eq (e * e)), Rabs_mult by nra. assert (H0 := Rabs_pos e). nra. }
    assert (Hq := sqrt_lt_R0 _ Hp). rewrite rdiv_ok by nra. cbn [bind]. rewrite rdiv_ok by lra. eexists. split; [reflexivity|].
    refine (spectral_of_clim _ _ _ _ Hg (clim_scal _ _ _ (clim_inv _ _ (clim_root_in He) _)) _).
    + apply Cmult_neq_0; [intros E; injection E as E; lra|apply RtoC_neq0; lra].
    + replace (1 / D * / (Ci * RtoC (sqrt (1 - e * e)))) with (RtoC (1 / D / sqrt (1 - e * e)) * (- Ci)).
      * cbn. field. repeat split; lra.
      * rewrite !RtoC_div by lra. assert (I : Ci <> 0) by (intros E; injection E as E; lra). assert (Q : RtoC (sqrt (1 - e * e)) <> 0) by (apply RtoC_neq0; lra).
        assert (II : / Ci = - Ci) by (apply C_ext; cbn; field). rewrite <- II. field. repeat split; assumption.
  - eexists. split; [reflexivity|]. destruct (clim_root_out ltac:(lra)) as (q & Hq' & Hl). assert (Hq : q <> 0%R) by (intros E; rewrite E in Hq'; lra).
    refine (spectral_of_clim _ _ _ _ Hg (clim_scal _ _ _ (clim_inv _ _ Hl _)) _); [now apply RtoC_neq0|].
    rewrite <- RtoC_inv by exact Hq. replace (1 / D) with (RtoC (1 / D)) by (rewrite RtoC_div by lra; reflexivity). cbn. field. lra.
Qed.

Theorem bethez_spectral (Z : R) : (2 <= Z)%R -> (2 < Z)%R \/ Rabs e <> 1%R -> exists d, bethez_dos eps D Z = Ok d /\ spectral (fun z D => bethez_gf_z z D Z) d.
Proof.
  intros HZ Hor. assert (HP := PI_RGT_0). assert (DC : RtoC D <> 0) by (apply RtoC_neq0; lra).
  assert (Hg : forall h, (0 < h)%R -> bethez_gf_z (eps, h) D Z = Ok (2 * (Z - 1) / D * / ((Z - 2) * wz h + Z * (wz h * sq (wz h))))).
  { intros h Hh. assert (Hz := ez_neq0 h Hh). assert (Hs := sq_neq0 h Hh). rewrite (bethez_ok D HD) by (try assumption; now right). f_equal. 
    assert (N := zden_neq D (eps, h) Z Hz HZ ltac:(now right)). fold (wz h) in N |- *. set (s := sq (wz h)) in *. unfold wz. set (z := (eps, h) : C) in *.
    field. repeat split; try assumption. intros E. apply (Cmult_neq_0 _ _ Hz N). transitivity ((Z - 2) * z + Z * (z * s)); [ring|exact E]. }
  assert (Hlim : forall l, clim (fun h => wz h * sq (wz h)) l -> (Z - 2) * RtoC e + Z * l <> 0 ->
    clim (fun h => 2 * (Z - 1) / D * / ((Z - 2) * wz h + Z * (wz h * sq (wz h)))) (2 * (Z - 1) / D * / ((Z - 2) * RtoC e + Z * l))).
  { intros l Hl Hn. apply clim_scal. apply (clim_inv (fun h => (Z - 2) * wz h + Z * (wz h * sq (wz h)))); [|exact Hn]. apply clim_add; apply clim_scal; [apply clim_w|exact Hl]. }
  assert (E2 : 2 * (Z - 1) / D = RtoC (2 * (Z - 1) / D)) by (rewrite RtoC_div, RtoC_mult, RtoC_minus by lra; reflexivity).
  unfold bethez_dos. destruct (Rlt_dec 1 Z); [|lra]. rewrite rdiv_ok by lra. cbn [bind]. fold e.
  destruct (Rle_dec (Rabs e) 1) as [He|He].
  - assert (Hp : (0 <= 1 - e * e)%R). { assert (e * e <= 1)%R; [|lra]. rewrite <- (Rabs_pos_eq (e * e)), Rabs_mult by nra. assert (H0 := Rabs_pos e). nra. }
    assert (Hp2 : (2 < Z)%R \/ (0 < 1 - e * e)%R). { destruct Hor as [H|H]; [now left|right]. assert (e * e < 1)%R; [|lra]. rewrite <- (Rabs_pos_eq (e * e)), Rabs_mult by nra. assert (H0 := Rabs_pos e). nra. }
    set (q := sqrt (1 - e * e)). assert (Q2 : (q * q = 1 - e * e)%R) by (apply sqrt_sqrt; exact Hp). assert (Hq : (0 <= q)%R) by apply sqrt_pos.
    assert (Hden : (Z * Z - 4 * (Z - 1) * (e * e) = (Z - 2) * e * ((Z - 2) * e) + Z * q * (Z * q))%R). { transitivity ((Z - 2) * e * ((Z - 2) * e) + Z * Z * (q * q))%R; [rewrite Q2; ring|ring]. }
    assert (Hdp : (0 < Z * Z - 4 * (Z - 1) * (e * e))%R). { destruct Hp2 as [H|H]; nra. }
    rewrite rdiv_ok by nra. cbn [bind]. rewrite rdiv_ok by lra. eexists. split; [reflexivity|].
    assert (Hn : (Z - 2) * RtoC e + Z * (Ci * RtoC q) <> 0). { intros E. assert (E1 := f_equal fst E). assert (E3 := f_equal snd E). cbn in E1, E3. assert (Za : ((Z - 2) * e = 0)%R) by lra. assert (Zb : (Z * q = 0)%R) by lra. rewrite Za, Zb in Hden. lra. }
    refine (spectral_of_clim _ _ _ _ Hg (Hlim _ (clim_root_in He) Hn) _). fold q. rewrite E2.
    replace ((Z - 2) * RtoC e + Z * (Ci * RtoC q)) with (((Z - 2) * e)%R, (Z * q)%R) by (apply C_ext; cbn; ring).
    unfold Cmult, Cinv. cbn [fst snd RtoC]. rewrite Hden. rewrite <- !Rsqr_pow2. unfold Rsqr. field. repeat split; lra.
  - eexists. split; [reflexivity|]. destruct (clim_root_out ltac:(lra)) as (q & Hq & Hl).
    assert (Hn : ((Z - 2) * e + Z * q <> 0)%R). { intros E. assert (0 < e * ((Z - 2) * e + Z * q))%R; [|rewrite E in H; lra]. assert (H0 : (0 < e * e)%R) by (assert (e <> 0%R) by (intros E0; rewrite E0 in Hq; lra); nra). assert (H1 := Rmult_lt_0_compat _ _ (ltac:(lra) : (0 < Z)%R) Hq). nra. }
    assert (En : (Z - 2) * RtoC e + Z * RtoC q = RtoC ((Z - 2) * e + Z * q)) by (rewrite RtoC_plus, !RtoC_mult, RtoC_minus; reflexivity).
    refine (spectral_of_clim _ _ _ _ Hg (Hlim _ Hl _) _); rewrite En; [now apply RtoC_neq0|].
    rewrite E2, <- RtoC_inv by exact Hn. cbn. field. lra.
Qed.
End D.
