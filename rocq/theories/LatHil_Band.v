(** * From averages of the resolvent to integrals with the density of states *)
From Coq Require Import Reals Lra Lia List.
From Coquelicot Require Import Coquelicot.
From Verif Require Import Base CBase Fourier_Filon LatInt_Spec LatInt_Proofs LatBz_Spec LatSpf_Spec LatHil_Spec LatHil_Poisson LatHil_Stieltjes LatHil_Main LatHil_Mean.
Local Open Scope R_scope.

Definition tot (f : R -> result R) (e : R) : R := match f e with Ok x => x | Err _ => 0 end.
Fixpoint incr (p : R) (ps : list R) : Prop := match ps with nil => True | q :: qs => p < q /\ incr q qs end.
Lemma final_ge ps : forall p, incr p ps -> p <= final p ps.
Proof. induction ps as [|q qs IH]; cbn; intros p H; [lra|]. destruct H as [H1 H2]. specialize (IH q H2). lra. Qed.
Lemma fits_ex ps b : forall a, incr a ps -> final a ps < b -> exists d0, 0 < d0 /\ forall d a', 0 < d < d0 -> a' < a + d0 -> fits d a' ps b.
Proof.
  induction ps as [|p qs IH]; cbn; intros a H Hb.
  - exists (b - a). split; [lra|]. intros; lra.
  - destruct H as [H1 H2]. destruct (IH p H2 Hb) as (d0 & Hd0 & F). exists (Rmin d0 ((p - a) / 2)). split; [apply Rmin_pos; lra|]. intros d a' Hd Ha. assert (m1 := Rmin_l d0 ((p - a) / 2)). assert (m2 := Rmin_r d0 ((p - a) / 2)). split; [lra|]. apply F; lra.
Qed.
Lemma gaps_pint (F : R -> C) f1 f2 d B ps : 0 < d -> forall p, fits d (p + d) ps B -> (forall e, p < e < final p ps -> F e = (f1 e, f2 e)) -> (forall e, final p ps < e -> f1 e = 0 /\ f2 e = 0) ->
  gaps_ex f1 d (p + d) ps B -> gaps_ex f2 d (p + d) ps B -> is_pint F d p ps (gaps f1 d (p + d) ps B, gaps f2 d (p + d) ps B).
Proof.
  intros Hd. induction ps as [|q qs IH]; cbn [fits final gaps gaps_ex is_pint]; intros p Ft Ef Ez G1 G2.
  - assert (Z : forall f : R -> R, (forall e, p < e -> f e = 0) -> RInt f (p + d) B = 0). { intros f Hf. rewrite (RInt_ext f (fun _ => 0)); [rewrite RInt_const; apply (scal_zero_r (V := R_NormedModule))|]. intros x Hx. apply Hf. rewrite Rmin_left in Hx by lra. lra. }
    rewrite (Z f1) by (intros e He; apply Ez, He). rewrite (Z f2) by (intros e He; apply Ez, He). reflexivity.
  - destruct Ft as [Ft1 Ft2]. destruct G1 as [G1 G1']. destruct G2 as [G2 G2']. exists (RInt f1 (p + d) (q - d), RInt f2 (p + d) (q - d)), (gaps f1 d (q + d) qs B, gaps f2 d (q + d) qs B).
    assert (Fin : q <= final q qs). { clear - Ft2 Hd. revert q Ft2. induction qs as [|x qs IH]; cbn; intros q Ft; [lra|]. destruct Ft as [A Bx]. specialize (IH x Bx). lra. }
    split; [|split; [|reflexivity]].
    + apply (is_CInt_ext (fun e => (f1 e, f2 e))). { intros e He. rewrite Rmin_left, Rmax_right in He by lra. symmetry. apply Ef. lra. }
      split; cbn [fst snd]; apply (RInt_correct (V := R_CompleteNormedModule)); assumption.
    + apply IH; [exact Ft2|intros e He; apply Ef; lra|exact Ez|assumption|assumption].
Qed.

Definition clamp (a b x : R) : R := Rmax a (Rmin b x).
Lemma clamp_in a b x : a <= b -> a <= clamp a b x <= b.
Proof. intros H. unfold clamp. split; [apply Rmax_l|]. apply Rmax_lub; [exact H|apply Rmin_l]. Qed.
Lemma clamp_id a b x : a <= x <= b -> clamp a b x = x.
Proof. intros H. unfold clamp. rewrite Rmin_right, Rmax_right; lra. Qed.
Lemma clamp_lip a b x y : Rabs (clamp a b x - clamp a b y) <= Rabs (x - y).
Proof.
  assert (G : forall u v, Rabs (Rmin b u - Rmin b v) <= Rabs (u - v)) by (intros u v; unfold Rmin; destruct (Rle_dec b u), (Rle_dec b v); unfold Rabs; repeat destruct (Rcase_abs _); lra).
  assert (G' : forall u v, Rabs (Rmax a u - Rmax a v) <= Rabs (u - v)) by (intros u v; unfold Rmax; destruct (Rle_dec a u), (Rle_dec a v); unfold Rabs; repeat destruct (Rcase_abs _); lra).
  unfold clamp. eapply Rle_trans; [apply G'|apply G].
Qed.
Lemma clamp_cont a b : cont (clamp a b).
Proof. intros x. apply cont_eps. intros t Ht. exists t. split; [exact Ht|]. intros y Hy. eapply Rle_trans; [apply clamp_lip|lra]. Qed.
Lemma clamp_comp (f : R -> R) a b : a <= b -> (forall x, a <= x <= b -> continuous f x) -> cont (fun x => f (clamp a b x)) /\ exists H, forall x, Rabs (f (clamp a b x)) <= H.
Proof.
  intros Hab C. split; [intros x; apply (continuous_comp (clamp a b) f); [apply clamp_cont|apply C, clamp_in, Hab]|].
  destruct (continuity_ab_maj (fun x => Rabs (f x)) a b Hab) as (x0 & B & _).
  - intros c Hc. apply (continuity_pt_comp f Rabs); [apply continuity_pt_filterlim, C, Hc|apply Rcontinuity_abs].
  - exists (Rabs (f x0)). intros x. apply B. apply clamp_in, Hab.
Qed.

Section Gen.
Variables (L : (R -> R) -> R) (p : R) (ps : list R) (dd : R -> R).
Let b := final p ps.
Let M := Rmax (Rabs p) (Rabs b).
Hypothesis HL : meanl L M.
(** L looks at the functions between p and the final point only *)
Hypothesis Lext : forall f g, (forall x, p <= x <= b -> f x = g x) -> L f = L g.
Hypothesis Inc : incr p ps.
Hypothesis Bv : forall e, ~ In e (p :: ps) -> bv L dd e.
Hypothesis Out : forall e, e < p \/ b < e -> dd e = 0.
Hypothesis Na : forall q, In q (p :: ps) -> forall t, 0 < t -> exists r, 0 < r /\ forall d, 0 < d < r -> weight L q d <= t.
Lemma real_band (f : R -> R) : (forall x, p <= x <= b -> continuous f x) -> forall t, 0 < t -> exists r, 0 < r /\ forall d, 0 < d < r ->
  fits d (p + d) ps (M + 1) /\ gaps_ex (fun e => f (clamp p b e) * dd e) d (p + d) ps (M + 1) /\ Rabs (gaps (fun e => f (clamp p b e) * dd e) d (p + d) ps (M + 1) - L f) <= t.
Proof.
  intros Cf t Ht. assert (pb := final_ge ps p Inc). fold b in pb. destruct (clamp_comp f p b pb Cf) as (Ch & H & Hh).
  assert (M0 : 0 <= M) by (apply Rle_trans with (Rabs p); [apply Rabs_pos|apply Rmax_l]). assert (Mp : - M <= p). { assert (A := Rmax_l (Rabs p) (Rabs b)). fold M in A. apply Rabs_le_between in A. lra. } assert (Mb : b <= M). { assert (A := Rmax_r (Rabs p) (Rabs b)). fold M in A. apply Rabs_le_between in A. lra. }
  assert (Ft : exists d0, 0 < d0 /\ forall d, 0 < d < d0 -> fits d (- M - 1) (p :: ps) (M + 1)).
  { destruct (fits_ex (p :: ps) (M + 1) (- M - 1)) as (d0 & Hd0 & F); [split; [lra|exact Inc]|cbn; fold b; lra|]. exists d0. split; [exact Hd0|]. intros d Hd. apply F; lra. }
  destruct (stieltjes_lim L M HL M0 (fun e => f (clamp p b e)) H Ch Hh dd (p :: ps) Ft Bv Na t Ht) as (r & Hr & Q). destruct Ft as (d0 & Hd0 & F).
  exists (Rmin r d0). split; [apply Rmin_pos; assumption|]. intros d Hd. assert (m1 := Rmin_l r d0). assert (m2 := Rmin_r r d0). destruct (F d ltac:(lra)) as [F1 F2]. destruct (Q d ltac:(lra)) as [[G1 G2] E]. split; [exact F2|]. split; [exact G2|].
  cbn [gaps] in E. replace (RInt (fun e => f (clamp p b e) * dd e) (- M - 1) (p - d)) with 0 in E.
  - rewrite Rplus_0_l in E. rewrite (Lext f (fun e => f (clamp p b e))); [exact E|]. intros x Hx. now rewrite clamp_id.
  - symmetry. rewrite (RInt_ext _ (fun _ => 0)); [rewrite RInt_const; apply (scal_zero_r (V := R_NormedModule))|]. intros x Hx. rewrite Rmin_left, Rmax_right in Hx by lra. rewrite Out by lra. exact (Rmult_0_r _).
Qed.
Lemma band_integral (phi : R -> C) : (forall x, p <= x <= b -> ccont phi x) -> is_band_integral (fun e => RtoC (dd e) * phi e)%C p ps (L (fun x => fst (phi x)), L (fun x => snd (phi x))).
Proof.
  intros C t Ht. destruct (real_band (fun x => fst (phi x)) (fun x Hx => proj1 (C x Hx)) (t / 4) ltac:(lra)) as (r1 & Hr1 & Q1). destruct (real_band (fun x => snd (phi x)) (fun x Hx => proj2 (C x Hx)) (t / 4) ltac:(lra)) as (r2 & Hr2 & Q2).
  exists (Rmin r1 r2). split; [apply Rmin_pos; assumption|]. intros d Hd. assert (m1 := Rmin_l r1 r2). assert (m2 := Rmin_r r1 r2). destruct (Q1 d ltac:(lra)) as (F & G1 & E1). destruct (Q2 d ltac:(lra)) as (_ & G2 & E2).
  eexists. split; [apply (gaps_pint _ _ _ d (M + 1) ps ltac:(lra) p F) with (3 := G1) (4 := G2)|].
  - intros e He. fold b in He. rewrite clamp_id by lra. apply C_ext; cbn; ring.
  - intros e He. fold b in He. rewrite Out by lra. split; ring.
  - eapply Rle_lt_trans; [apply Cmod_2Rmax|]. cbn [fst snd Cminus Cplus Copp]. 
    match goal with |- sqrt 2 * Rmax ?x ?y < t => assert (X : Rmax x y <= t / 4) by (apply Rmax_lub; assumption); assert (X0 : 0 <= Rmax x y) by (eapply Rle_trans; [apply Rabs_pos|apply Rmax_l]); set (w := Rmax x y) in * end.
    assert (S2 : sqrt 2 <= 2). { rewrite <- (sqrt_square 2) at 2 by lra. apply sqrt_le_1_alt. lra. } apply Rle_lt_trans with (2 * w); [apply Rmult_le_compat_r; lra|lra].
Qed.
End Gen.
