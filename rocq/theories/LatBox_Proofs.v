(** * Box lattice: the density of states is the spectral function *)
From Coq Require Import Reals Lra Psatz Field.
From Coquelicot Require Import Coquelicot.
From Verif Require Import Base CBase CExp CSqrt Lattice_Model Bethe_Proofs Bethe_Main LatDos_Proofs.
Local Open Scope C_scope.

Lemma acos_near_m1 (x t : R) : (-1 <= x <= 1)%R -> (0 < t < PI)%R -> (x < - cos t)%R -> (PI - t < acos x <= PI)%R.
Proof.
  intros Hx Ht Hc. assert (B := acos_bound x). split; [|lra]. destruct (Rlt_dec (PI - t) (acos x)) as [|N]; [assumption|exfalso].
  assert (cos (PI - t) <= cos (acos x))%R by (apply cos_decr_1; lra). rewrite cos_acos in H by lra. rewrite Rtrigo_facts.cos_pi_minus in H. lra.
Qed.
Lemma acos_near_1 (x t : R) : (-1 <= x <= 1)%R -> (0 < t < PI)%R -> (cos t < x)%R -> (0 <= acos x < t)%R.
Proof.
  intros Hx Ht Hc. assert (B := acos_bound x). split; [lra|]. destruct (Rlt_dec (acos x) t) as [|N]; [assumption|exfalso].
  assert (cos (acos x) <= cos t)%R by (apply cos_decr_1; lra). rewrite cos_acos in H by lra. lra.
Qed.
Lemma re_ratio_bound (r : C) : r <> 0 -> (-1 <= fst r / Cmod r <= 1)%R.
Proof.
  intros H. assert (P := proj1 (Cmod_gt_0 r) H). assert (B := Cmod_ge_re r). apply Rabs_le_between in B.
  split; [apply (Rmult_le_reg_r (Cmod r)); [exact P|]; unfold Rdiv; rewrite Rmult_assoc, Rinv_l by lra; lra|].
  apply (Rmult_le_reg_r (Cmod r)); [exact P|]; unfold Rdiv; rewrite Rmult_assoc, Rinv_l by lra; lra.
Qed.
Lemma Cmod_near (r : C) (a : R) : (Rabs (Cmod r - Rabs a) <= Cmod (r - RtoC a)%C)%R.
Proof.
  assert (T1 := Cmod_triangle (RtoC a) (r - RtoC a)). replace (RtoC a + (r - RtoC a)) with r in T1 by ring.
  assert (T2 := Cmod_triangle r (- (r - RtoC a))). replace (r + - (r - RtoC a)) with (RtoC a) in T2 by ring. rewrite Cmod_opp in T2. rewrite Cmod_R in *.
  apply Rabs_le. lra.
Qed.
(** the direction of a number close to a non-zero real number *)
Lemma ratio_near (f : R -> C) (a : R) : clim f (RtoC a) -> a <> 0%R -> forall t, (0 < t)%R -> exists d, (0 < d)%R /\ forall h, (0 < h < d)%R ->
  f h <> 0 /\ (Rabs (fst (f h) / Cmod (f h)%C - a / Rabs a) < t)%R.
Proof.
  intros Hf Ha t Ht. assert (Pa := Rabs_pos_lt a Ha). destruct (Hf (Rmin (Rabs a / 2) (t * Rabs a / 4))%R) as (d & Hd & B).
  { apply Rmin_glb_lt; [lra|]. apply Rdiv_lt_0_compat; [nra|lra]. }
  exists d. split; [exact Hd|]. intros h Hh. specialize (B h Hh). assert (M1 := Rmin_l (Rabs a / 2) (t * Rabs a / 4)). assert (M2 := Rmin_r (Rabs a / 2) (t * Rabs a / 4)).
  set (r := f h) in *. assert (N := Cmod_near r a). apply Rabs_le_between in N.
  assert (Hr : (Rabs a / 2 < Cmod r)%R) by lra. assert (Hr0 : r <> 0) by (apply Cmod_gt_0; lra). split; [exact Hr0|].
  assert (F := Cmod_ge_re (r - RtoC a)). change (fst (r - RtoC a)) with (fst r - a)%R in F.
  replace (fst r / Cmod r - a / Rabs a)%R with (((fst r - a) * Rabs a - a * (Cmod r - Rabs a)) / (Cmod r * Rabs a))%R by (field; lra).
  set (e := Cmod (r - RtoC a)%C) in *. assert (He : (0 <= e)%R) by apply Cmod_ge_0.
  assert (Hb : (Rabs ((fst r - a) * Rabs a - a * (Cmod r - Rabs a)) <= 2 * e * Rabs a)%R).
  { eapply Rle_trans; [apply Rabs_triang|]. rewrite Rabs_Ropp, !Rabs_mult, Rabs_Rabsolu. assert (Rabs (Cmod r - Rabs a) <= e)%R by (apply Rabs_le; lra). nra. }
  unfold Rdiv. rewrite Rabs_mult. assert (Hp : (0 < Cmod r * Rabs a)%R) by (apply Rmult_lt_0_compat; lra). rewrite (Rabs_pos_eq (/ (Cmod r * Rabs a))) by (left; now apply Rinv_0_lt_compat).
  apply (Rmult_lt_reg_r (Cmod r * Rabs a)); [exact Hp|]. rewrite Rmult_assoc, Rinv_l, Rmult_1_r by lra. eapply Rle_lt_trans; [exact Hb|].
  rewrite <- Rmult_assoc. apply Rmult_lt_compat_r; [exact Pa|]. assert (t * (Rabs a / 2) < t * Cmod r)%R by (apply Rmult_lt_compat_l; lra). lra.
Qed.

Section B.
Variables D eps : R.
Hypothesis HD : (0 < D)%R.
Let e := (eps / D)%R.
Definition br (h : R) : C := (wz D eps h + 1) * / (wz D eps h + - (1)).
Lemma wz_m1 h : (0 < h)%R -> wz D eps h + - (1) <> 0.
Proof. intros H E. assert (P := wz_pos D HD eps h H). apply (f_equal snd) in E. change (snd (wz D eps h) + - 0 = 0)%R in E. lra. Qed.
Lemma wz_p1 h : (0 < h)%R -> wz D eps h + 1 <> 0.
Proof. intros H E. assert (P := wz_pos D HD eps h H). apply (f_equal snd) in E. change (snd (wz D eps h) + 0 = 0)%R in E. lra. Qed.
Lemma br_im h : (0 < h)%R -> (snd (br h) < 0)%R.
Proof.
  intros H. assert (P := wz_pos D HD eps h H). assert (N := wz_m1 h H). assert (I := im_inv _ N). unfold br.
  replace ((wz D eps h + 1) * / (wz D eps h + - (1))) with (1 + 2 * / (wz D eps h + - (1))) by (rewrite C2_eq; field; exact N).
  change (snd (1 + 2 * / (wz D eps h + - (1)))) with (0 + (2 * snd (/ (wz D eps h + - (1)))%C + 0 * fst (/ (wz D eps h + - (1)))%C))%R. rewrite I.
  change (snd (wz D eps h + - (1))) with (snd (wz D eps h) + - 0)%R. assert (M := proj1 (Cmod_gt_0 _) N). set (m := Cmod _) in *. assert (0 < / (m * m))%R by (apply Rinv_0_lt_compat; nra). unfold Rdiv. nra.
Qed.
Lemma br_lim : e <> 1%R -> clim br (RtoC ((e + 1) / (e - 1))).
Proof.
  intros H. assert (N : RtoC e + - (1) <> 0). { rewrite <- RtoC_opp, <- RtoC_plus. apply RtoC_neq0. lra. }
  replace (RtoC ((e + 1) / (e - 1))) with ((RtoC e + 1) * / (RtoC e + - (1))).
  - apply clim_mul; [apply clim_add; [apply clim_w; exact HD|apply clim_const]|apply clim_inv; [apply clim_add; [apply clim_w; exact HD|apply clim_const]|exact N]].
  - rewrite RtoC_div, RtoC_plus, RtoC_minus by lra. reflexivity.
Qed.
Theorem box_spectral : Rabs eps <> D -> exists d, box_dos eps D = Ok d /\ spectral D eps box_gf_z d.
Proof.
  intros Hne. unfold box_dos. rewrite rdiv_ok by lra. cbn [bind]. eexists. split; [reflexivity|].
  assert (HP := PI_RGT_0). assert (DC : RtoC D <> 0) by (apply RtoC_neq0; lra).
  assert (Hg : forall h, (0 < h)%R -> box_gf_z (eps, h) D = Ok (RtoC (1 / 2) / D * clog (br h))).
  { intros h Hh. unfold box_gf_z. rewrite cdiv_ok by exact DC. cbn [bind]. fold (wz D eps h). rewrite cdiv_ok by exact (wz_m1 h Hh). cbn [bind].
    change ((wz D eps h + 1) / (wz D eps h - 1)) with (br h). destruct (Ceq_dec (br h) 0) as [E|]. { exfalso. assert (B := br_im h Hh). rewrite E in B. cbn in B. lra. }
    rewrite cdiv_ok by exact DC. reflexivity. }
  assert (HgI : forall h, (0 < h)%R -> (- snd (RtoC (1 / 2) / D * clog (br h))%C / PI = 1 / 2 / D * (acos (fst (br h) / Cmod (br h)%C) / PI))%R).
  { intros h Hh. replace (RtoC (1 / 2) / D) with (RtoC (1 / 2 / D)) by (rewrite (RtoC_div (1/2)) by lra; reflexivity). unfold clog, carg.
    destruct (Rle_dec 0 (snd (br h))) as [H|H]; [assert (B := br_im h Hh); lra|]. cbn. field. split; lra. }
  assert (Edge : forall x, (x = D \/ x = - D -> Rabs x = D)%R). { intros x [->| ->]; [|rewrite Rabs_Ropp]; apply Rabs_pos_eq; lra. }
  assert (H1 : e <> 1%R). { intros E. apply Hne, Edge. left. replace eps with (e * D)%R by (unfold e; field; lra). rewrite E. ring. }
  assert (H2 : e <> (-1)%R). { intros E. apply Hne, Edge. right. replace eps with (e * D)%R by (unfold e; field; lra). rewrite E. ring. }
  assert (Ha : ((e + 1) / (e - 1) <> 0)%R) by (apply Rmult_integral_contrapositive; split; [lra|apply Rinv_neq_0_compat; lra]).
  assert (Ed : eps = (e * D)%R) by (unfold e; field; lra).
  intros t Ht. set (t' := Rmin (t * D) (PI / 2)). assert (Ht' : (0 < t' < PI)%R). { split; [apply Rmin_glb_lt; nra|]. assert (M := Rmin_r (t * D) (PI / 2)). fold t' in M. lra. }
  assert (Hcos : (cos t' < 1)%R). { rewrite <- cos_0. apply cos_decreasing_1; lra. }
  destruct (ratio_near br _ (br_lim H1) Ha (1 - cos t')%R ltac:(lra)) as (d & Hd & B). exists d. split; [exact Hd|]. intros h Hh. exists (RtoC (1 / 2) / D * clog (br h)). split; [apply Hg; lra|].
  rewrite HgI by lra. destruct (B h Hh) as [Hr Hx]. assert (Rb := re_ratio_bound _ Hr). set (x := (fst (br h) / Cmod (br h)%C)%R) in *. apply Rabs_lt_between in Hx.
  assert (Hfin : forall a, (Rabs (acos x - a * PI) < t')%R -> (Rabs (1 / 2 / D * (acos x / PI) - a * (1 / 2 / D)) < t)%R).
  { intros a Hb. replace (1 / 2 / D * (acos x / PI) - a * (1 / 2 / D))%R with ((acos x - a * PI) / (2 * D * PI))%R by (field; split; lra).
    unfold Rdiv. rewrite Rabs_mult. assert (Hp : (0 < 2 * D * PI)%R) by nra. rewrite (Rabs_pos_eq (/ _)) by (left; now apply Rinv_0_lt_compat).
    apply (Rmult_lt_reg_r (2 * D * PI)); [exact Hp|]. rewrite Rmult_assoc, Rinv_l, Rmult_1_r by lra. assert (M := Rmin_l (t * D) (PI / 2)). fold t' in M. assert (PI2_1 := PI2_3_2). nra. }
  destruct (Rlt_dec (Rabs eps) D) as [Hin|Hout].
  - assert (He : (-1 < e < 1)%R). { apply Rabs_lt_between in Hin. split; apply (Rmult_lt_reg_r D); lra. }
    assert (Es : ((e + 1) / (e - 1) / Rabs ((e + 1) / (e - 1)) = -1)%R).
    { assert (L : ((e + 1) / (e - 1) < 0)%R). { apply (Rmult_lt_reg_r (1 - e)); [lra|]. replace ((e + 1) / (e - 1) * (1 - e))%R with (- (e + 1))%R by (field; lra). lra. }
      rewrite Rabs_left by exact L. field. split; lra. }
    rewrite Es in Hx. destruct (acos_near_m1 x t' Rb Ht') as [A1 A2]; [lra|].
    replace (1 / 2 / D)%R with (1 * (1 / 2 / D))%R at 2 by ring. apply Hfin. apply Rabs_def1; lra.
  - assert (He : (1 < e \/ e < -1)%R). { destruct (Rlt_dec 1 e); [now left|right]. destruct (Rlt_dec e (-1)); [assumption|exfalso]. apply Hout. apply Rabs_def1; [|]; rewrite Ed; [replace D with (1 * D)%R at 2 by ring|replace (- D)%R with (-1 * D)%R by ring]; apply Rmult_lt_compat_r; lra. }
    assert (Es : ((e + 1) / (e - 1) / Rabs ((e + 1) / (e - 1)) = 1)%R).
    { assert (L : (0 < (e + 1) / (e - 1))%R). { assert (0 < (e - 1) * (e - 1))%R by nra. apply (Rmult_lt_reg_r ((e - 1) * (e - 1))); [lra|]. replace ((e + 1) / (e - 1) * ((e - 1) * (e - 1)))%R with ((e + 1) * (e - 1))%R by (field; lra). nra. }
      rewrite Rabs_pos_eq by lra. field. split; lra. }
    rewrite Es in Hx. destruct (acos_near_1 x t' Rb Ht') as [A1 A2]; [lra|].
    replace 0%R with (0 * (1 / 2 / D))%R by ring. apply Hfin. apply Rabs_def1; lra.
Qed.
End B.
