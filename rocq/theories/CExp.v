(** * Complex exponential and complex derivatives.

    Shared vocabulary; nothing in this file models gftool code by itself. *)
From Coq Require Import Reals Lra Lia ZArith Psatz.
From Coquelicot Require Import Coquelicot.
From Verif Require Import Base CBase.
Local Open Scope C_scope.

Definition cexp (z : C) : C := (exp (fst z) * cos (snd z), exp (fst z) * sin (snd z))%R.

Lemma cexp_add z w : cexp (z + w) = cexp z * cexp w.
Proof.
  unfold cexp. destruct z as [a b], w as [c d]. apply C_ext; cbn; rewrite exp_plus, ?cos_plus, ?sin_plus; ring.
Qed.
Lemma cexp_0 : cexp 0 = 1.
Proof. unfold cexp. apply C_ext; cbn; rewrite exp_0, ?cos_0, ?sin_0; ring. Qed.
Lemma cexp_R (r : R) : cexp (RtoC r) = RtoC (exp r).
Proof. unfold cexp. apply C_ext; cbn; rewrite ?cos_0, ?sin_0; ring. Qed.
Lemma Cmod_cexp z : Cmod (cexp z) = exp (fst z).
Proof.
  assert (H := exp_pos (fst z)). assert (H2 := Cmod_sqr (cexp z)). assert (H3 := Cmod_ge_0 (cexp z)).
  unfold cexp in H2 at 3 4 5 6. cbn in H2. assert (T := sin2_cos2 (snd z)). unfold Rsqr in T.
  assert (E : (Cmod (cexp z) * Cmod (cexp z) = exp (fst z) * exp (fst z))%R).
  { rewrite H2. transitivity (exp (fst z) * exp (fst z) * (sin (snd z) * sin (snd z) + cos (snd z) * cos (snd z)))%R; [ring|rewrite T; ring]. }
  nra.
Qed.
Lemma cexp_neq_0 z : cexp z <> 0.
Proof. intros E. assert (H := Cmod_cexp z). rewrite E, Cmod_0 in H. assert (H2 := exp_pos (fst z)). lra. Qed.
Lemma cexp_opp z : cexp (- z) = / cexp z.
Proof.
  assert (H : cexp (- z) * cexp z = 1). { rewrite <- cexp_add. replace (- z + z) with (RtoC 0) by ring. apply cexp_0. }
  assert (N := cexp_neq_0 z). replace (cexp (- z)) with (cexp (- z) * cexp z * / cexp z); [rewrite H; field; exact N|field; exact N].
Qed.
Lemma Cconj_cexp z : Cconj (cexp z) = cexp (Cconj z).
Proof. unfold cexp, Cconj. cbn. rewrite cos_neg, sin_neg. apply C_ext; cbn; ring. Qed.

Lemma sin_Zpi (k : Z) : sin (IZR k * PI) = 0%R.
Proof. apply sin_eq_0_1. now exists k. Qed.
Lemma cos_2Zpi (k : Z) : cos (2 * IZR k * PI) = 1%R.
Proof.
  destruct (Z_le_gt_dec 0 k) as [H|H].
  - replace k with (Z.of_nat (Z.to_nat k)) by lia. rewrite <- INR_IZR_INZ.
    replace (2 * INR (Z.to_nat k) * PI)%R with (0 + 2 * INR (Z.to_nat k) * PI)%R by ring. rewrite cos_period. apply cos_0.
  - replace k with (- Z.of_nat (Z.to_nat (- k)))%Z by lia. rewrite opp_IZR, <- INR_IZR_INZ.
    replace (2 * - INR (Z.to_nat (- k)) * PI)%R with (- (0 + 2 * INR (Z.to_nat (- k)) * PI))%R by ring.
    rewrite cos_neg, cos_period. apply cos_0.
Qed.
Lemma cos_odd_pi (k : Z) : cos (IZR (2 * k + 1) * PI) = (-1)%R.
Proof.
  rewrite plus_IZR, mult_IZR. replace ((2 * IZR k + 1) * PI)%R with (2 * IZR k * PI + PI)%R by ring.
  rewrite neg_cos. now rewrite cos_2Zpi.
Qed.

(** ** Complex derivative *)
Definition is_cderive (f : C -> C) (z l : C) : Prop :=
  forall eps, (0 < eps)%R -> exists delta, (0 < delta)%R /\
    forall h : C, h <> 0 -> (Cmod h < delta)%R -> (Cmod ((f (z + h) - f z) / h - l)%C < eps)%R.

(** convenient equivalent: f (z+h) = f z + (l + e(h)) h with e -> 0 *)
Definition ctends0 (e : C -> C) : Prop :=
  forall eps, (0 < eps)%R -> exists delta, (0 < delta)%R /\ forall h : C, h <> 0 -> (Cmod h < delta)%R -> (Cmod (e h) < eps)%R.

Lemma ctends0_add e1 e2 : ctends0 e1 -> ctends0 e2 -> ctends0 (fun h => e1 h + e2 h).
Proof.
  intros H1 H2 eps He. destruct (H1 (eps/2)%R ltac:(lra)) as (d1 & P1 & Q1). destruct (H2 (eps/2)%R ltac:(lra)) as (d2 & P2 & Q2).
  exists (Rmin d1 d2). split; [apply Rmin_pos; lra|]. intros h Hh Hd.
  assert (A := Rmin_l d1 d2). assert (B := Rmin_r d1 d2).
  specialize (Q1 h Hh ltac:(lra)). specialize (Q2 h Hh ltac:(lra)). assert (T := Cmod_triangle (e1 h) (e2 h)). lra.
Qed.
Lemma ctends0_bounded (e1 e2 : C -> C) (M d : R) : ctends0 e1 -> (0 < d)%R -> (forall h : C, h <> 0 -> (Cmod h < d)%R -> (Cmod (e2 h) <= M)%R) ->
  ctends0 (fun h => e1 h * e2 h).
Proof.
  intros H1 Hd Hb eps He.
  assert (HM : (0 < Rmax M 0 + 1)%R) by (assert (A := Rmax_r M 0); lra).
  destruct (H1 (eps / (Rmax M 0 + 1))%R) as (d1 & P1 & Q1). { apply Rdiv_lt_0_compat; lra. }
  exists (Rmin d1 d). split; [apply Rmin_pos; lra|]. intros h Hh Hlt.
  assert (A := Rmin_l d1 d). assert (B := Rmin_r d1 d).
  specialize (Q1 h Hh ltac:(lra)). specialize (Hb h Hh ltac:(lra)). rewrite Cmod_mult.
  assert (A2 := Rmax_l M 0). assert (A3 := Rmax_r M 0). assert (N := Cmod_ge_0 (e1 h)). assert (N2 := Cmod_ge_0 (e2 h)).
  apply Rle_lt_trans with (Cmod (e1 h) * (Rmax M 0 + 1))%R; [apply Rmult_le_compat_l; lra|].
  apply Rlt_le_trans with (eps / (Rmax M 0 + 1) * (Rmax M 0 + 1))%R; [apply Rmult_lt_compat_r; lra|].
  right. field. lra.
Qed.
Lemma ctends0_const_mul e c : ctends0 e -> ctends0 (fun h => e h * c).
Proof. intros H. apply (ctends0_bounded e (fun _ => c) (Cmod c) 1 H); [lra|]. intros; lra. Qed.
Lemma ctends0_id : ctends0 (fun h => h).
Proof. intros eps He. exists eps. split; [lra|]. intros; assumption. Qed.
Lemma ctends0_ext (e1 e2 : C -> C) : (forall h : C, h <> 0 -> e1 h = e2 h) -> ctends0 e1 -> ctends0 e2.
Proof. intros E H eps He. destruct (H eps He) as (d & P & Q). exists d. split; [exact P|]. intros h Hh Hd. rewrite <- E by exact Hh. now apply Q. Qed.
Lemma ctends0_ext_near (e1 e2 : C -> C) (d0 : R) : (0 < d0)%R -> (forall h : C, h <> 0 -> (Cmod h < d0)%R -> e1 h = e2 h) -> ctends0 e1 -> ctends0 e2.
Proof.
  intros Hd0 E H eps He. destruct (H eps He) as (d & P & Q). exists (Rmin d d0). split; [apply Rmin_pos; lra|].
  intros h Hh Hd. assert (A := Rmin_l d d0). assert (B := Rmin_r d d0). rewrite <- E by (assumption || lra). apply Q; [exact Hh|lra].
Qed.

Lemma is_cderive_alt f z l : is_cderive f z l <-> ctends0 (fun h => (f (z + h) - f z) / h - l).
Proof. reflexivity. Qed.

Lemma is_cderive_unique f z l1 l2 : is_cderive f z l1 -> is_cderive f z l2 -> l1 = l2.
Proof.
  intros H1 H2. destruct (Ceq_dec l1 l2) as [|N]; [assumption|exfalso].
  assert (Hp : (0 < Cmod (l1 - l2)%C)%R). { apply Cmod_gt_0. intros E. apply N. replace l1 with (l1 - l2 + l2) by ring. rewrite E. ring. }
  destruct (H1 (Cmod (l1 - l2)%C / 2)%R ltac:(lra)) as (d1 & P1 & Q1).
  destruct (H2 (Cmod (l1 - l2)%C / 2)%R ltac:(lra)) as (d2 & P2 & Q2).
  set (h := RtoC (Rmin d1 d2 / 2)%R). assert (A := Rmin_l d1 d2). assert (B := Rmin_r d1 d2). assert (D := Rmin_pos d1 d2 P1 P2).
  assert (Hh : h <> 0) by (intros E; injection E; lra).
  assert (Hm : Cmod h = (Rmin d1 d2 / 2)%R). { unfold h. rewrite Cmod_R. apply Rabs_pos_eq. lra. }
  specialize (Q1 h Hh ltac:(lra)). specialize (Q2 h Hh ltac:(lra)).
  set (q := (f (z + h) - f z) / h) in *.
  assert (T := Cmod_triangle (- (q - l1)) (q - l2)). rewrite Cmod_opp in T. replace (- (q - l1) + (q - l2)) with (l1 - l2) in T by ring. lra.
Qed.

(** differentiable functions are continuous *)
Lemma is_cderive_cont f z l : is_cderive f z l -> ctends0 (fun h => f (z + h) - f z).
Proof.
  intros H. rewrite is_cderive_alt in H.
  apply (ctends0_ext (fun h => h * ((f (z + h) - f z) / h - l) + h * l)).
  { intros h Hh. field. exact Hh. }
  apply ctends0_add.
  - destruct (H 1%R ltac:(lra)) as (d & P & Q).
    apply (ctends0_bounded (fun h => h) _ 1 d ctends0_id P). intros h Hh Hd. specialize (Q h Hh Hd). lra.
  - apply ctends0_const_mul, ctends0_id.
Qed.

Lemma is_cderive_const c z : is_cderive (fun _ => c) z 0.
Proof.
  intros eps He. exists 1%R. split; [lra|]. intros h Hh _. replace ((c - c) / h - 0) with (RtoC 0) by (field; exact Hh).
  now rewrite Cmod_0.
Qed.
Lemma is_cderive_id z : is_cderive (fun w => w) z 1.
Proof.
  intros eps He. exists 1%R. split; [lra|]. intros h Hh _. replace ((z + h - z) / h - 1) with (RtoC 0) by (field; exact Hh).
  now rewrite Cmod_0.
Qed.
Lemma is_cderive_add f g z a b : is_cderive f z a -> is_cderive g z b -> is_cderive (fun w => f w + g w) z (a + b).
Proof.
  intros H1 H2. rewrite is_cderive_alt in *. apply (ctends0_ext (fun h => ((f (z+h) - f z)/h - a) + ((g (z+h) - g z)/h - b))).
  { intros h Hh. field. exact Hh. } now apply ctends0_add.
Qed.
Lemma is_cderive_scal f c z a : is_cderive f z a -> is_cderive (fun w => c * f w) z (c * a).
Proof.
  intros H1. rewrite is_cderive_alt in *. apply (ctends0_ext (fun h => ((f (z+h) - f z)/h - a) * c)).
  { intros h Hh. field. exact Hh. } now apply ctends0_const_mul.
Qed.
Lemma is_cderive_opp f z a : is_cderive f z a -> is_cderive (fun w => - f w) z (- a).
Proof.
  intros H1. rewrite is_cderive_alt in *. apply (ctends0_ext (fun h => ((f (z+h) - f z)/h - a) * (-(1)))).
  { intros h Hh. field. exact Hh. } now apply ctends0_const_mul.
Qed.
Lemma is_cderive_sub f g z a b : is_cderive f z a -> is_cderive g z b -> is_cderive (fun w => f w - g w) z (a - b).
Proof. intros H1 H2. apply is_cderive_add; [exact H1|now apply is_cderive_opp]. Qed.

Lemma bounded_near f z l : is_cderive f z l -> exists d, (0 < d)%R /\ forall h : C, h <> 0 -> (Cmod h < d)%R -> (Cmod (f (z + h)%C) <= Cmod (f z) + 1)%R.
Proof.
  intros H. destruct (is_cderive_cont _ _ _ H 1%R ltac:(lra)) as (d & P & Q). exists d. split; [exact P|].
  intros h Hh Hd. specialize (Q h Hh Hd). assert (T := Cmod_triangle (f (z + h) - f z) (f z)).
  replace (f (z + h) - f z + f z) with (f (z + h)) in T by ring. lra.
Qed.

Lemma is_cderive_mul f g z a b : is_cderive f z a -> is_cderive g z b -> is_cderive (fun w => f w * g w) z (a * g z + f z * b).
Proof.
  intros H1 H2. destruct (bounded_near g z b H2) as (d & Hd & Hb).
  assert (C2 := is_cderive_cont _ _ _ H2). rewrite is_cderive_alt in *.
  apply (ctends0_ext (fun h => ((f (z+h) - f z)/h - a) * g (z + h) + ((g (z + h) - g z) * a + ((g (z+h) - g z)/h - b) * f z))).
  { intros h Hh. field. exact Hh. }
  apply ctends0_add; [|apply ctends0_add; now apply ctends0_const_mul].
  apply (ctends0_bounded _ _ _ d H1 Hd Hb).
Qed.

Lemma nonzero_near f z l : is_cderive f z l -> f z <> 0 -> exists d, (0 < d)%R /\ forall h : C, h <> 0 -> (Cmod h < d)%R -> (Cmod (f z) / 2 <= Cmod (f (z + h)%C))%R.
Proof.
  intros H N. assert (Np : (0 < Cmod (f z))%R) by now apply Cmod_gt_0.
  destruct (is_cderive_cont _ _ _ H (Cmod (f z) / 2)%R ltac:(lra)) as (d & P & Q). exists d. split; [exact P|].
  intros h Hh Hd. specialize (Q h Hh Hd). assert (T := Cmod_triangle (f (z + h)) (- (f (z + h) - f z))).
  replace (f (z + h) + - (f (z + h) - f z)) with (f z) in T by ring. rewrite Cmod_opp in T. lra.
Qed.

Lemma is_cderive_inv f z a : is_cderive f z a -> f z <> 0 -> is_cderive (fun w => / f w) z (- a / (f z * f z)).
Proof.
  intros H1 N. destruct (nonzero_near f z a H1 N) as (d & Hd & Hb).
  assert (Np : (0 < Cmod (f z))%R) by now apply Cmod_gt_0.
  assert (Hn : forall h : C, h <> 0 -> (Cmod h < d)%R -> f (z + h) <> 0).
  { intros h Hh Hlt E. specialize (Hb h Hh Hlt). rewrite E, Cmod_0 in Hb. lra. }
  assert (C1 := is_cderive_cont _ _ _ H1). rewrite is_cderive_alt in *.
  apply (ctends0_ext_near (fun h => (((f (z+h) - f z)/h - a) * (- / (f z))  + (f (z+h) - f z) * (a / (f z * f z))) * / f (z + h)) _ d Hd).
  { intros h Hh Hlt. specialize (Hn h Hh Hlt). field. repeat split; assumption. }
  apply (ctends0_bounded _ _ (2 / Cmod (f z)) d); [|exact Hd|].
  - apply ctends0_add; now apply ctends0_const_mul.
  - intros h Hh Hlt. rewrite Cmod_inv by now apply Hn. specialize (Hb h Hh Hlt).
    replace (2 / Cmod (f z))%R with (/ (Cmod (f z) / 2))%R by (field; lra). apply Rinv_le_contravar; lra.
Qed.

Lemma is_cderive_ext (f g : C -> C) z a : (forall w, f w = g w) -> is_cderive f z a -> is_cderive g z a.
Proof.
  intros E H eps He. destruct (H eps He) as (d & P & Q). exists d. split; [exact P|]. intros h Hh Hd. rewrite <- !E. now apply Q.
Qed.
Lemma is_cderive_ext_near (f g : C -> C) z a (d0 : R) : (0 < d0)%R -> (forall h, (Cmod h < d0)%R -> f (z + h) = g (z + h)) -> is_cderive f z a -> is_cderive g z a.
Proof.
  intros Hd0 E H eps He. destruct (H eps He) as (d & P & Q). exists (Rmin d d0). split; [apply Rmin_pos; lra|]. intros h Hh Hd.
  assert (A := Rmin_l d d0). assert (B := Rmin_r d d0).
  assert (E0 : f z = g z). { assert (E1 := E 0 ltac:(rewrite Cmod_0; lra)). now replace (z + 0) with z in E1 by ring. }
  rewrite <- E, <- E0 by lra. apply Q; [exact Hh|lra].
Qed.

Lemma is_cderive_comp f g z a b : is_cderive g z b -> is_cderive f (g z) a -> is_cderive (fun w => f (g w)) z (a * b).
Proof.
  intros Hg Hf eps He.
  set (M := (Cmod b + 1)%R). assert (HM : (0 < M)%R) by (unfold M; assert (A := Cmod_ge_0 b); lra).
  assert (Ma := Cmod_ge_0 a).
  set (eta := (eps / 4 / M)%R). assert (Heta : (0 < eta)%R) by (unfold eta; repeat apply Rdiv_lt_0_compat; lra).
  destruct (Hf eta Heta) as (df & Pf & Qf).
  set (eg := Rmin 1 (eps / 4 / (Cmod a + 1))). assert (Heg : (0 < eg)%R) by (unfold eg; apply Rmin_pos; [lra|repeat apply Rdiv_lt_0_compat; lra]).
  destruct (Hg eg Heg) as (dg & Pg & Qg).
  destruct (is_cderive_cont _ _ _ Hg df Pf) as (dc & Pc & Qc).
  exists (Rmin dg dc). split; [apply Rmin_pos; lra|]. intros h Hh Hd.
  assert (A := Rmin_l dg dc). assert (B := Rmin_r dg dc).
  specialize (Qg h Hh ltac:(lra)). specialize (Qc h Hh ltac:(lra)).
  set (k := g (z + h) - g z) in *.
  assert (E1 : (Cmod (k / h - b)%C <= 1)%R) by (unfold eg in Qg; assert (X := Rmin_l 1 (eps / 4 / (Cmod a + 1))); lra).
  assert (E2 : (Cmod (k / h - b)%C * (Cmod a + 1) < eps / 2)%R).
  { assert (X := Rmin_r 1 (eps / 4 / (Cmod a + 1))). fold eg in X. apply Rle_lt_trans with (eps / 4)%R; [|lra].
    apply Rle_trans with (eps / 4 / (Cmod a + 1) * (Cmod a + 1))%R; [apply Rmult_le_compat_r; lra|right; field; lra]. }
  assert (E3 : (Cmod (k / h)%C <= M)%R).
  { unfold M. assert (T := Cmod_triangle (k / h - b) b). replace (k / h - b + b) with (k / h) in T by ring. lra. }
  replace (g (z + h)) with (g z + k) by (unfold k; ring).
  destruct (Ceq_dec k 0) as [K0|K0].
  - rewrite K0 in *. replace ((f (g z + 0) - f (g z)) / h - a * b) with (a * (0 / h - b)).
    2:{ replace (g z + 0) with (g z) by ring. field. exact Hh. }
    rewrite Cmod_mult. assert (X := Cmod_ge_0 (0 / h - b)%C). nra.
  - specialize (Qf k K0 Qc).
    replace ((f (g z + k) - f (g z)) / h - a * b) with (((f (g z + k) - f (g z)) / k - a) * (k / h) + a * (k / h - b)).
    2:{ field. split; assumption. }
    eapply Rle_lt_trans; [apply Cmod_triangle|]. rewrite !Cmod_mult.
    assert (X := Cmod_ge_0 (k / h)%C). assert (Y := Cmod_ge_0 (k / h - b)%C). assert (W := Cmod_ge_0 ((f (g z + k) - f (g z)) / k - a)%C).
    assert (E4 : (Cmod ((f (g z + k) - f (g z)) / k - a)%C * Cmod (k / h)%C <= eps / 4)%R).
    { apply Rle_trans with (eta * M)%R; [apply Rmult_le_compat; lra|]. unfold eta. right. field. lra. }
    nra.
Qed.
