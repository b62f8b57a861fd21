(** * Holomorphic functions without naming the derivative; functions given piecewise *)
From Coq Require Import Reals Lra.
From Coquelicot Require Import Coquelicot.
From Verif Require Import Base CBase CExp CSqrt LatInt_Proofs CAnal CHol CEll.
Local Open Scope C_scope.

Definition holo (U : C -> Prop) (f : C -> C) : Prop := exists f', hol U f f'.
Lemma holo_const U c : holo U (fun _ => c). Proof. eexists. apply hol_const. Qed.
Lemma holo_id U : holo U (fun z => z). Proof. eexists. apply hol_id. Qed.
Lemma holo_plus U f g : holo U f -> holo U g -> holo U (fun z => f z + g z). Proof. intros [f' F] [g' G]. eexists. apply hol_plus; eassumption. Qed.
Lemma holo_minus U f g : holo U f -> holo U g -> holo U (fun z => f z - g z). Proof. intros [f' F] [g' G]. eexists. apply hol_minus; eassumption. Qed.
Lemma holo_mult U f g : holo U f -> holo U g -> holo U (fun z => f z * g z). Proof. intros [f' F] [g' G]. eexists. apply hol_mult; eassumption. Qed.
Lemma holo_inv U (f : C -> C) : holo U f -> (forall w, U w -> f w <> 0) -> holo U (fun z => / f z). Proof. intros [f' F] N. eexists. apply hol_inv; eassumption. Qed.
Lemma holo_div U (f g : C -> C) : holo U f -> holo U g -> (forall w, U w -> g w <> 0) -> holo U (fun z => f z / g z). Proof. intros F G N. apply (holo_mult U f (fun z => / g z)); [exact F|apply holo_inv; assumption]. Qed.
Lemma holo_comp U V f g : holo V f -> holo U g -> (forall w, U w -> V (g w)) -> holo U (fun z => f (g z)). Proof. intros [f' F] [g' G] H. eexists. eapply hol_comp; eassumption. Qed.
Lemma holo_csqrt U g : holo U g -> (forall w, U w -> offcut (g w)) -> holo U (fun z => csqrt (g z)). Proof. intros G H. apply (holo_comp U offcut csqrt); [eexists; apply hol_csqrt|exact G|exact H]. Qed.
Lemma holo_Kf U g : holo U g -> (forall w, U w -> offK (g w)) -> holo U (fun z => Kf (g z)). Proof. intros G H. apply (holo_comp U offK Kf); [eexists; apply Kf_hol|exact G|exact H]. Qed.
Lemma holo_sub (U V : C -> Prop) f : (forall w, V w -> U w) -> holo U f -> holo V f. Proof. intros H [f' F]. exists f'. apply (hol_sub U); assumption. Qed.
Lemma holo_ext U f g : opn U -> (forall w, U w -> f w = g w) -> holo U f -> holo U g. Proof. intros O E [f' F]. exists f'. apply (hol_ext U f); assumption. Qed.
Lemma holo_ccat U f w : holo U f -> U w -> ccat f w. Proof. intros [f' F] H. eapply hol_ccat; eassumption. Qed.
(** a function which agrees with a holomorphic one near each point *)
Lemma holo_local (U : C -> Prop) f : (forall w, U w -> exists V g, opn V /\ V w /\ holo V g /\ forall v, V v -> f v = g v) -> holo U f.
Proof.
  intros H. exists (cD f). intros w Hw. destruct (H w Hw) as (V & g & O & Vw & [g' G] & E). assert (X : hol V f g') by (apply (hol_ext V g); [exact O|intros v Hv; symmetry; apply E, Hv|exact G]).
  apply (hol_ext' V f g' (cD f) O); [|exact X|exact Vw]. intros v Hv. symmetry. apply cD_eq, X, Hv.
Qed.
(** the identity theorem for two functions *)
Lemma identity2 (U : C -> Prop) f g p : opn U -> star U p -> U p -> holo U f -> holo U g -> accum (fun z => f z - g z) p -> forall q, U q -> f q = g q.
Proof. intros O S P [f' F] [g' G] A q Hq. apply Csub_0. apply (identity U (fun z => f z - g z) (fun z => f' z - g' z) p); [exact O|exact S|apply hol_minus; assumption|exact A|exact P|exact Hq]. Qed.
(** polar form in the upper half plane *)
Definition pol (r t : R) : C := ((r * cos t)%R, (r * sin t)%R).
Lemma pol_mul r t r' t' : pol r t * pol r' t' = pol (r * r') (t + t'). Proof. unfold pol. rewrite cos_plus, sin_plus. apply C_ext; cbn; ring. Qed.
Lemma pol_inv r t : (r <> 0)%R -> / pol r t = pol (/ r) (- t).
Proof.
  intros H. assert (E : pol r t * pol (/ r) (- t) = 1). { rewrite pol_mul. rewrite Rinv_r by exact H. replace (t + - t)%R with 0%R by ring. unfold pol. rewrite cos_0, sin_0. apply C_ext; cbn; ring. }
  assert (N : pol r t <> 0). { intros X. rewrite X in E. rewrite Cmult_0_l in E. apply RtoC_inj in E. lra. }
  replace (pol (/ r) (- t)) with (/ pol r t * (pol r t * pol (/ r) (- t))) by (field; exact N). rewrite E. ring.
Qed.
Lemma pol_upper (z : C) : (0 < snd z)%R -> exists r t, (0 < r)%R /\ (0 < t < PI)%R /\ z = pol r t.
Proof.
  intros H. assert (Hz : z <> 0) by (intros E; rewrite E in H; cbn in H; lra). assert (M := proj1 (Cmod_gt_0 z) Hz). exists (Cmod z), (acos (fst z / Cmod z)).
  assert (Q : (Cmod z * Cmod z = fst z * fst z + snd z * snd z)%R). { unfold Cmod. rewrite sqrt_sqrt; [cbn; ring|]. cbn. nra. }
  assert (B : (-1 < fst z / Cmod z < 1)%R). { split; apply Rmult_lt_reg_r with (Cmod z); try exact M; unfold Rdiv; rewrite Rmult_assoc, Rinv_l by lra; nra. }
  split; [exact M|]. assert (A := acos_bound_lt _ B). split; [exact A|]. unfold pol. assert (C1 := cos_acos (fst z / Cmod z) ltac:(lra)). assert (S1 := sin_gt_0 _ (proj1 A) (proj2 A)). rewrite C1.
  apply C_ext; cbn [fst snd]; [field; lra|]. assert (T := sin2_cos2 (acos (fst z / Cmod z))). unfold Rsqr in T. rewrite C1 in T. set (s := sin _) in *.
  assert (E : ((Cmod z * s) * (Cmod z * s) = snd z * snd z)%R). { replace (Cmod z * s * (Cmod z * s))%R with (Cmod z * Cmod z * (s * s))%R by ring. replace (s * s)%R with (1 - fst z / Cmod z * (fst z / Cmod z))%R by lra. transitivity (Cmod z * Cmod z - fst z * fst z)%R; [field; lra|lra]. }
  assert (0 < Cmod z * s)%R by (apply Rmult_lt_0_compat; assumption). nra.
Qed.
Lemma pol_csqrt r t : (0 < r)%R -> (- PI < t < PI)%R -> csqrt (pol r t) = pol (sqrt r) (t / 2).
Proof.
  intros Hr Ht. apply csqrt_unique.
  - rewrite pol_mul, sqrt_sqrt by lra. f_equal. field.
  - cbn. apply Rmult_lt_0_compat; [apply sqrt_lt_R0, Hr|apply cos_gt_0; lra].
Qed.
(** the angle grows against the real part *)
Lemma pol_order r t r' t' : (0 < r)%R -> (0 < r')%R -> (0 < t < PI)%R -> (0 < t' < PI)%R -> (0 < snd (pol r' t' * Cconj (pol r t))%C)%R -> (t < t')%R.
Proof.
  intros Hr Hr' Ht Ht' H. replace (Cconj (pol r t)) with (pol r (- t)) in H by (unfold pol; rewrite cos_neg, sin_neg; apply C_ext; cbn; ring). rewrite pol_mul in H. cbn in H. destruct (Rlt_dec t t') as [L|L]; [exact L|exfalso].
  assert (0 < r' * r)%R by (apply Rmult_lt_0_compat; assumption). assert (sin (t' + - t) <= 0)%R; [|nra]. replace (t' + - t)%R with (- (t - t'))%R by ring. rewrite sin_neg. assert (0 <= sin (t - t'))%R by (apply sin_ge_0; lra). lra.
Qed.
