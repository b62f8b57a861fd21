(** * The weights of the derived lattices add up to one *)
From Coq Require Import Reals List ZArith Bool Lia Lra.
From Coquelicot Require Import Coquelicot.
From Verif Require Import Base CBase CExp Lattice_Model Bethe_Proofs LatDer_Spec LatDer_Model LatDer_Dos.
Local Open Scope C_scope.

(** limits at infinity *)
Definition ilim (f : C -> C) (l : C) : Prop :=
  forall t, (0 < t)%R -> exists r, (0 < r)%R /\ forall z : C, (r < Cmod z)%R -> (Cmod (f z - l)%C < t)%R.
Definition iev (P : C -> Prop) : Prop := exists r, (0 < r)%R /\ forall z : C, (r < Cmod z)%R -> P z.
Lemma iev_and P Q : iev P -> iev Q -> iev (fun w => P w /\ Q w).
Proof.
  intros (r1 & H1 & A) (r2 & H2 & B). exists (Rmax r1 r2). split; [eapply Rlt_le_trans; [exact H1|apply Rmax_l]|]. intros w Hr.
  assert (M1 := Rmax_l r1 r2). assert (M2 := Rmax_r r1 r2). split; [apply A|apply B]; lra.
Qed.
Lemma iev_imp (P Q : C -> Prop) : (forall z, P z -> Q z) -> iev P -> iev Q.
Proof. intros H (r & Hr & B). exists r. split; [exact Hr|]. intros z Hz. apply H, B, Hz. Qed.
Lemma ilim_const l : ilim (fun _ => l) l.
Proof. intros t Ht. exists 1%R. split; [lra|]. intros w _. replace (l - l) with (RtoC 0) by ring. now rewrite Cmod_0. Qed.
Lemma ilim_add f g a b : ilim f a -> ilim g b -> ilim (fun w => f w + g w) (a + b).
Proof.
  intros Hf Hg t Ht. apply (iev_imp (fun w => (Cmod (f w - a)%C < t / 2)%R /\ (Cmod (g w - b)%C < t / 2)%R)).
  - intros w [A B]. replace (f w + g w - (a + b)) with ((f w - a) + (g w - b)) by ring. eapply Rle_lt_trans; [apply Cmod_triangle|]. lra.
  - apply iev_and; [apply Hf|apply Hg]; lra.
Qed.
Lemma ilim_mul f g a b : ilim f a -> ilim g b -> ilim (fun w => f w * g w) (a * b).
Proof.
  intros Hf Hg t Ht. assert (Ha := Cmod_ge_0 a). assert (Hb := Cmod_ge_0 b).
  apply (iev_imp (fun w => (Cmod (f w - a)%C < Rmin 1 (t / (2 * (Cmod b + 1))))%R /\ (Cmod (g w - b)%C < t / (2 * (Cmod a + 1)))%R)).
  - intros h [B1 B2]. assert (Q1 := Rmin_l 1 (t / (2 * (Cmod b + 1)))). assert (Q2 := Rmin_r 1 (t / (2 * (Cmod b + 1)))).
    replace (f h * g h - a * b) with (f h * (g h - b) + (f h - a) * b) by ring. eapply Rle_lt_trans; [apply Cmod_triangle|]. rewrite !Cmod_mult.
    assert (Hfh : (Cmod (f h)%C <= Cmod a + 1)%R). { assert (T := Cmod_triangle a (f h - a)). replace (a + (f h - a)) with (f h) in T by ring. lra. }
    assert (X1 : (Cmod (f h)%C * Cmod (g h - b)%C <= (Cmod a + 1) * (t / (2 * (Cmod a + 1))))%R) by (apply Rmult_le_compat; try apply Cmod_ge_0; lra).
    assert (X2 : (Cmod (f h - a)%C * (Cmod b + 1) < t / (2 * (Cmod b + 1)) * (Cmod b + 1))%R) by (apply Rmult_lt_compat_r; lra).
    replace ((Cmod a + 1) * (t / (2 * (Cmod a + 1))))%R with (t / 2)%R in X1 by (field; lra). replace (t / (2 * (Cmod b + 1)) * (Cmod b + 1))%R with (t / 2)%R in X2 by (field; lra).
    assert (H0 := Cmod_ge_0 (f h - a)%C). assert (H1 := Rmult_le_compat_l _ (Cmod b) (Cmod b + 1) H0 ltac:(lra)). lra.
  - apply iev_and; [apply Hf; apply Rmin_glb_lt; [lra|apply Rdiv_lt_0_compat; lra]|apply Hg; apply Rdiv_lt_0_compat; lra].
Qed.
Lemma ilim_inv0 : ilim (fun z => / z) 0.
Proof.
  intros t Ht. exists (/ t)%R. assert (I := Rinv_0_lt_compat t Ht). split; [exact I|]. intros z Hz. replace (/ z - 0) with (/ z) by ring.
  assert (N : z <> 0) by (apply Cmod_gt_0; lra). rewrite Cmod_inv by exact N. rewrite <- (Rinv_inv t). apply Rinv_lt_contravar; [apply Rmult_lt_0_compat; lra|exact Hz].
Qed.
(** X tends to infinity *)
Definition diverges (X : C -> C) : Prop := forall r, (0 < r)%R -> iev (fun z => (r < Cmod (X z)%C)%R).
Lemma ilim_comp f l X : ilim f l -> diverges X -> ilim (fun z => f (X z)) l.
Proof. intros H HX t Ht. destruct (H t Ht) as (r & Hr & B). apply (iev_imp (fun z => (r < Cmod (X z)%C)%R)); [intros z Hz; now apply B|apply HX, Hr]. Qed.
Lemma diverges_shift k : diverges (fun z => z - k).
Proof.
  intros r Hr. exists (r + Cmod k)%R. assert (K := Cmod_ge_0 k). split; [lra|]. intros z Hz. assert (T := Cmod_triangle (z - k) k). replace (z - k + k) with z in T by ring. lra.
Qed.
Lemma diverges_quad (c d k : R) : (0 < c)%R -> (0 < d)%R -> diverges (fun z => RtoC c * ((z / RtoC d) * (z / RtoC d)) - RtoC k).
Proof.
  intros Hc Hd r Hr. set (M := ((r + Rabs k) / c + 1)%R). assert (K := Rabs_pos k). assert (Q : (0 < (r + Rabs k) / c)%R) by (apply Rdiv_lt_0_compat; lra).
  exists (d * M)%R. assert (M1 : (1 < M)%R) by (unfold M; lra). split; [apply Rmult_lt_0_compat; lra|]. intros z Hz.
  assert (T := Cmod_triangle (RtoC c * ((z / RtoC d) * (z / RtoC d)) - RtoC k) (RtoC k)).
  replace (RtoC c * (z / RtoC d * (z / RtoC d)) - RtoC k + RtoC k) with (RtoC c * (z / RtoC d * (z / RtoC d))) in T by ring.
  rewrite !Cmod_mult, !Cmod_R, (Rabs_pos_eq c) in T by lra.
  assert (E : (M < Cmod (z / RtoC d)%C)%R). { rewrite Cmod_div by (apply RtoC_neq0; lra). rewrite Cmod_R, Rabs_pos_eq by lra. apply (Rmult_lt_reg_l d); [exact Hd|]. replace (d * (Cmod z / d))%R with (Cmod z) by (field; lra). exact Hz. }
  assert (E2 : (M < Cmod (z / RtoC d)%C * Cmod (z / RtoC d)%C)%R). { apply Rlt_trans with (M * M)%R; [|apply Rmult_gt_0_lt_compat; lra]. replace M with (M * 1)%R at 1 by ring. apply Rmult_lt_compat_l; lra. }
  assert (E3 : (c * M < c * (Cmod (z / RtoC d)%C * Cmod (z / RtoC d)%C))%R) by (apply Rmult_lt_compat_l; assumption).
  replace (c * M)%R with (r + Rabs k + c)%R in E3 by (unfold M; field; lra). lra.
Qed.
(** a normalised function as a total one *)
Lemma normalised_total (gf : C -> result C) : normalised gf -> exists T : C -> C, iev (fun z => gf z = Ok (T z)) /\ ilim (fun z => z * T z) 1.
Proof.
  intros H. exists (fun z => match gf z with Ok G => G | Err _ => 0 end).
  assert (Q : forall t, (0 < t)%R -> iev (fun z => gf z = Ok (match gf z with Ok G => G | Err _ => 0 end) /\ (Cmod (z * match gf z with Ok G => G | Err _ => 0 end - 1)%C < t)%R)).
  { intros t Ht. destruct (H t Ht) as (r & Hr & B). exists r. split; [exact Hr|]. intros z Hz. destruct (B z Hz) as (G & E & L). rewrite E. split; [reflexivity|exact L]. }
  split.
  - eapply iev_imp; [|apply (Q 1%R ltac:(lra))]. intros z [A _]. exact A.
  - intros t Ht. eapply iev_imp; [|apply (Q t Ht)]. intros z [_ A]. exact A.
Qed.
Lemma normalised_of (gf : C -> result C) (F : C -> C) : iev (fun z => gf z = Ok (F z)) -> ilim (fun z => z * F z) 1 -> normalised gf.
Proof. intros HE HL t Ht. eapply iev_imp; [|exact (iev_and _ _ HE (HL t Ht))]. intros z [A B]. exists (F z). split; assumption. Qed.
Lemma iev_neq k : iev (fun z => z <> k).
Proof. exists (Cmod k + 1)%R. assert (K := Cmod_ge_0 k). split; [lra|]. intros z Hz ->. lra. Qed.
Lemma ilim_ext f g l : iev (fun z => f z = g z) -> ilim f l -> ilim g l.
Proof. intros E H t Ht. eapply iev_imp; [|exact (iev_and _ _ E (H t Ht))]. intros z [A B]. rewrite <- A. exact B. Qed.
Lemma iev_comp P X : iev P -> diverges X -> iev (fun z => P (X z)).
Proof. intros (r & Hr & B) HX. apply (iev_imp (fun z => (r < Cmod (X z)%C)%R)); [intros z Hz; now apply B|apply HX, Hr]. Qed.
(** (X + k) T(X) -> 1 *)
Lemma shifted_norm T k X : ilim (fun z => z * T z) 1 -> diverges X -> ilim (fun z => (X z + k) * T (X z)) 1.
Proof.
  intros HT HX. apply (ilim_ext (fun z => (fun x => (1 + k * / x) * (x * T x)) (X z))).
  - apply (iev_comp (fun x => (1 + k * / x) * (x * T x) = (x + k) * T x)); [|exact HX]. eapply iev_imp; [|apply (iev_neq 0)]. intros x Hx. cbv beta. field. exact Hx.
  - apply (ilim_comp (fun x => (1 + k * / x) * (x * T x))); [|exact HX]. assert (A := ilim_mul _ _ _ _ (ilim_add _ _ _ _ (ilim_const 1) (ilim_mul _ _ _ _ (ilim_const k) ilim_inv0)) HT).
    replace ((1 + k * 0) * 1) with (RtoC 1) in A by ring. exact A.
Qed.

Theorem honeycomb_normalised tri D : (0 < D)%R -> normalised (fun x => tri x (9 / 4)%R) -> normalised (fun z => honeycomb_gf_z tri z D).
Proof.
  intros HD H. destruct (normalised_total _ H) as (T & E & L). set (d := (D / (3 / 2))%R). assert (Dp : (0 < d)%R) by (unfold d; lra). assert (Dc := RtoC_neq0 d ltac:(lra)).
  set (X := fun z => RtoC 2 * ((z / RtoC d) * (z / RtoC d)) - RtoC (3 / 2)). assert (HX : diverges X) by (apply diverges_quad; lra).
  apply (normalised_of _ (fun z => 2 / RtoC d * (z / RtoC d) * T (X z))).
  - eapply iev_imp; [|exact (iev_comp _ X E HX)]. intros z Ez. unfold honeycomb_gf_z. fold d. rewrite !cdiv_ok by exact Dc. cbn [bind]. fold (X z). cbv beta in Ez. rewrite Ez. reflexivity.
  - apply (ilim_ext (fun z => (X z + RtoC (3 / 2)) * T (X z))); [|apply shifted_norm; assumption]. exists 1%R. split; [lra|]. intros z _. unfold X. field. exact Dc.
Qed.
Theorem kagome_normalised tri D : (0 < D)%R -> normalised (fun x => tri x (9 / 4)%R) -> normalised (fun z => kagome_gf_z tri z D).
Proof.
  intros HD H. destruct (normalised_total _ (honeycomb_normalised tri D HD H)) as (T & E & L).
  assert (C3 : RtoC 3 <> 0) by (apply RtoC_neq0; lra).
  apply (normalised_of _ (fun z => 1 / (3 * z + 2 * RtoC D) + RtoC (2 / 3) * T (z - RtoC (D / 3)))).
  - eapply iev_imp; [|exact (iev_and _ _ (iev_neq (RtoC (- (2 / 3) * D))) (iev_comp _ _ E (diverges_shift (RtoC (D / 3)))))]. intros z [N Ez]. cbv beta in Ez. unfold kagome_gf_z. cbv zeta.
    rewrite cdiv_ok. { cbn [bind]. rewrite Ez. reflexivity. } intros E0. apply N. replace z with ((3 * z + 2 * RtoC D) / 3 + RtoC (- (2 / 3) * D)). { rewrite E0. field. exact C3. }
    rewrite RtoC_mult, RtoC_opp, RtoC_div by lra. field. exact C3.
  - assert (A : ilim (fun z => z / (3 * z + 2 * RtoC D)) (/ 3)).
    { assert (A1 : ilim (fun z => / 3 - 2 * RtoC D / 3 * / (3 * (z + RtoC (2 / 3 * D)))) (/ 3 - 2 * RtoC D / 3 * (/ 3 * 0))).
      { unfold Cminus. apply ilim_add; [apply ilim_const|]. intros t Ht. 
        assert (B : ilim (fun z => 2 * RtoC D / 3 * (/ 3 * / (z - RtoC (- (2 / 3 * D))))) (2 * RtoC D / 3 * (/ 3 * 0))).
        { apply ilim_mul; [apply ilim_const|]. apply ilim_mul; [apply ilim_const|]. apply (ilim_comp (fun z => / z)); [apply ilim_inv0|apply diverges_shift]. }
        eapply iev_imp; [|exact (iev_and _ _ (iev_neq (RtoC (- (2 / 3 * D)))) (B t Ht))]. intros z [N Bz]. cbv beta in Bz.
        assert (N2 : z + RtoC (2 / 3 * D) <> 0). { intros E0. apply N. rewrite RtoC_opp. replace z with (z + RtoC (2 / 3 * D) - RtoC (2 / 3 * D)) by ring. rewrite E0. ring. }
        replace (- (2 * RtoC D / 3 * / (3 * (z + RtoC (2 / 3 * D)))) - - (2 * RtoC D / 3 * (/ 3 * 0))) with (- (2 * RtoC D / 3 * (/ 3 * / (z - RtoC (- (2 / 3 * D)))) - 2 * RtoC D / 3 * (/ 3 * 0))).
        - rewrite Cmod_opp. exact Bz.
        - rewrite RtoC_opp. replace (z - - RtoC (2 / 3 * D)) with (z + RtoC (2 / 3 * D)) by ring. field. split; assumption. }
      replace (/ 3 - 2 * RtoC D / 3 * (/ 3 * 0)) with (/ 3) in A1 by ring. eapply ilim_ext; [|exact A1].
      eapply iev_imp; [|exact (iev_neq (RtoC (- (2 / 3 * D))))]. intros z N.
      assert (N2 : z + RtoC (2 / 3 * D) <> 0). { intros E0. apply N. rewrite RtoC_opp. replace z with (z + RtoC (2 / 3 * D) - RtoC (2 / 3 * D)) by ring. rewrite E0. ring. }
      assert (ED : 2 * RtoC D = 3 * RtoC (2 / 3 * D)) by (rewrite <- !RtoC_mult; f_equal; field).
      rewrite ED. replace (3 * z + 3 * RtoC (2 / 3 * D)) with (3 * (z + RtoC (2 / 3 * D))) by ring. set (q := RtoC (2 / 3 * D)) in *.
      field. split; assumption. }
    assert (B := shifted_norm T (RtoC (D / 3)) (fun z => z - RtoC (D / 3)) L (diverges_shift _)).
    assert (S := ilim_add _ _ _ _ A (ilim_mul _ _ _ _ (ilim_const (RtoC (2 / 3))) B)).
    replace (/ 3 + RtoC (2 / 3) * 1) with (RtoC 1) in S by (rewrite RtoC_div by lra; replace (RtoC 2) with (3 - 1) by (rewrite <- RtoC_minus; f_equal; ring); field; exact C3).
    eapply ilim_ext; [|exact S]. exists 1%R. split; [lra|]. intros z _. cbv beta. unfold Cdiv. ring.
Qed.
Theorem lieb_normalised sqr D : (0 < D)%R -> normalised (fun x => sqr x 4%R) -> normalised (fun z => lieb_gf_z sqr z D).
Proof.
  intros HD H. destruct (normalised_total _ H) as (T & E & L). set (d := (D / (2 * sqrt 2))%R). assert (S2 : (0 < sqrt 2)%R) by (apply sqrt_lt_R0; lra).
  assert (Dp : (0 < d)%R) by (unfold d; apply Rdiv_lt_0_compat; lra). assert (Dc := RtoC_neq0 d ltac:(lra)). assert (C3 : RtoC 3 <> 0) by (apply RtoC_neq0; lra).
  set (X := fun z => RtoC 1 * ((z / RtoC d) * (z / RtoC d)) - RtoC 4). assert (HX : diverges X) by (apply diverges_quad; lra).
  apply (normalised_of _ (fun z => RtoC (1 / 3) / z + 2 / (3 * RtoC d) * (z / RtoC d) * T (X z))).
  - eapply iev_imp; [|exact (iev_and _ _ (iev_neq 0) (iev_comp _ X E HX))]. intros z [N Ez]. unfold lieb_gf_z. fold d. rewrite !cdiv_ok by (assumption || (apply Cmult_neq_0; assumption)). cbn [bind].
    unfold X in *. cbv beta in Ez. rewrite Cmult_1_l in Ez. rewrite Ez, Cmult_1_l. reflexivity.
  - assert (A := ilim_add _ _ _ _ (ilim_const (RtoC (1 / 3))) (ilim_mul _ _ _ _ (ilim_const (2 / 3)) (shifted_norm T 4 X L HX))).
    replace (RtoC (1 / 3) + 2 / 3 * 1) with (RtoC 1) in A by (rewrite RtoC_div by lra; replace (RtoC 2) with (3 - 1) by (rewrite <- RtoC_minus; f_equal; ring); field; exact C3).
    eapply ilim_ext; [|exact A]. eapply iev_imp; [|exact (iev_neq 0)]. intros z N. cbv beta. unfold X. field. repeat split; assumption.
Qed.
