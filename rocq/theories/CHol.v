(** * Holomorphic functions: closure properties, integrals with a parameter, derivatives of derivatives, coefficients of differential equations *)
From Coq Require Import Reals Lra Lia Classical.
From Coquelicot Require Import Coquelicot.
From Verif Require Import Base CBase CExp CSqrt Fourier_Filon LatInt_Spec LatInt_Proofs LatInt_Hilbert LatInt_Fubini CAnal.
Local Open Scope C_scope.

(** ** joint continuity in a complex and a real variable *)
Definition ccr (g : C -> R -> C) (m : C) (t : R) : Prop := forall e, (0 < e)%R -> exists d, (0 < d)%R /\ forall m' t', (Cmod (m' - m)%C < d)%R -> (Rabs (t' - t) < d)%R -> (Cmod (g m' t' - g m t)%C < e)%R.
Lemma ccat_eps f z : ccat f z <-> forall e, (0 < e)%R -> exists d, (0 < d)%R /\ forall w, (Cmod (w - z)%C < d)%R -> (Cmod (f w - f z)%C < e)%R.
Proof.
  split; intros H e He; destruct (H e He) as (d & Hd & B); exists d; (split; [exact Hd|]).
  - intros w Hw. specialize (B (w - z) Hw). now replace (z + (w - z)) with w in B by ring.
  - intros h Hh. apply B. now replace (z + h - z) with h by ring.
Qed.
Lemma ccr_1 f m t : ccat f m -> ccr (fun m _ => f m) m t.
Proof. intros H e He. destruct (proj1 (ccat_eps f m) H e He) as (d & Hd & B). exists d. split; [exact Hd|]. intros m' t' H1 _. now apply B. Qed.
Lemma ccr_2 F m t : ccont F t -> ccr (fun _ t => F t) m t.
Proof. intros H e He. destruct (proj1 (ccont_eps F t) H e He) as (d & Hd & B). exists d. split; [exact Hd|]. intros m' t' _ H2. now apply B. Qed.
Lemma ccr_const c m t : ccr (fun _ _ => c) m t. Proof. apply (ccr_2 (fun _ => c)), ccont_const. Qed.
Lemma ccr_m m t : ccr (fun m _ => m) m t.
Proof. apply (ccr_1 (fun m => m)). eapply cderive_ccat, is_cderive_id. Qed.
Lemma ccr_comp f g m t : ccat f (g m t) -> ccr g m t -> ccr (fun m t => f (g m t)) m t.
Proof.
  intros Hf Hg e He. destruct (proj1 (ccat_eps f _) Hf e He) as (d & Hd & B). destruct (Hg d Hd) as (d2 & Hd2 & B2). exists d2. split; [exact Hd2|]. intros m' t' H1 H2. apply B, B2; assumption.
Qed.
Lemma ccr_plus g k m t : ccr g m t -> ccr k m t -> ccr (fun m t => g m t + k m t) m t.
Proof.
  intros Hg Hk e He. destruct (Hg (e / 2)%R ltac:(lra)) as (d1 & Hd1 & B1). destruct (Hk (e / 2)%R ltac:(lra)) as (d2 & Hd2 & B2). exists (Rmin d1 d2). split; [apply Rmin_pos; assumption|].
  intros m' t' H1 H2. assert (L1 := Rmin_l d1 d2). assert (L2 := Rmin_r d1 d2). replace (g m' t' + k m' t' - (g m t + k m t)) with ((g m' t' - g m t) + (k m' t' - k m t)) by ring.
  eapply Rle_lt_trans; [apply Cmod_triangle|]. specialize (B1 m' t' ltac:(lra) ltac:(lra)). specialize (B2 m' t' ltac:(lra) ltac:(lra)). lra.
Qed.
Lemma ccr_mult g k m t : ccr g m t -> ccr k m t -> ccr (fun m t => g m t * k m t) m t.
Proof.
  intros Hg Hk e He. set (A := (Cmod (g m t) + 1)%R). set (B := (Cmod (k m t) + 1)%R). assert (PA := Cmod_ge_0 (g m t)). assert (PB := Cmod_ge_0 (k m t)). assert (HA : (0 < A)%R) by (unfold A; lra). assert (HB : (0 < B)%R) by (unfold B; lra).
  destruct (Hg (Rmin 1 (e / (2 * B)))%R) as (d1 & Hd1 & B1). { apply Rmin_pos; [lra|apply Rdiv_lt_0_compat; lra]. }
  destruct (Hk (e / (2 * A))%R) as (d2 & Hd2 & B2). { apply Rdiv_lt_0_compat; lra. }
  exists (Rmin d1 d2). split; [apply Rmin_pos; assumption|]. intros m' t' H1 H2. assert (L1 := Rmin_l d1 d2). assert (L2 := Rmin_r d1 d2).
  specialize (B1 m' t' ltac:(lra) ltac:(lra)). specialize (B2 m' t' ltac:(lra) ltac:(lra)). assert (M1 := Rmin_l 1 (e / (2 * B))). assert (M2 := Rmin_r 1 (e / (2 * B))).
  replace (g m' t' * k m' t' - g m t * k m t) with (g m' t' * (k m' t' - k m t) + (g m' t' - g m t) * k m t) by ring. eapply Rle_lt_trans; [apply Cmod_triangle|]. rewrite !Cmod_mult.
  assert (GA : (Cmod (g m' t') <= A)%R). { replace (g m' t') with ((g m' t' - g m t) + g m t) by ring. eapply Rle_trans; [apply Cmod_triangle|]. unfold A. lra. }
  assert (P1 : (Cmod (g m' t') * Cmod (k m' t' - k m t)%C <= A * (e / (2 * A)))%R) by (apply Rmult_le_compat; [apply Cmod_ge_0|apply Cmod_ge_0|exact GA|lra]).
  assert (P2 : (Cmod (g m' t' - g m t)%C * Cmod (k m t) < (e / (2 * B)) * B)%R). { apply Rle_lt_trans with ((e / (2 * B)) * Cmod (k m t))%R; [apply Rmult_le_compat_r; lra|]. apply Rmult_lt_compat_l; [apply Rdiv_lt_0_compat; lra|unfold B; lra]. }
  replace (A * (e / (2 * A)))%R with (e / 2)%R in P1 by (field; lra). replace (e / (2 * B) * B)%R with (e / 2)%R in P2 by (field; lra). lra.
Qed.
Lemma ccr_inv (g : C -> R -> C) m t : g m t <> 0 -> ccr g m t -> ccr (fun m t => / g m t) m t.
Proof. intros N H. apply (ccr_comp (fun z => / z)); [apply ccat_inv, N|exact H]. Qed.
Lemma ccr_opp g m t : ccr g m t -> ccr (fun m t => - g m t) m t.
Proof. intros H. intros e He. destruct (ccr_mult _ _ m t (ccr_const (- (1))%C m t) H e He) as (d & Hd & B). exists d. split; [exact Hd|]. intros m' t' H1 H2. specialize (B m' t' H1 H2). now replace (- g m' t' - - g m t) with (- (1) * g m' t' - - (1) * g m t) by ring. Qed.
Lemma ccr_minus g k m t : ccr g m t -> ccr k m t -> ccr (fun m t => g m t - k m t) m t.
Proof. intros H1 H2. apply (ccr_plus g (fun m t => - k m t)); [exact H1|apply ccr_opp, H2]. Qed.
Lemma ccr_slice g m t : ccr g m t -> ccont (g m) t.
Proof. intros H. apply ccont_eps. intros e He. destruct (H e He) as (d & Hd & B). exists d. split; [exact Hd|]. intros t' Ht. apply B; [|exact Ht]. replace (m - m) with (RtoC 0) by ring. now rewrite Cmod_0. Qed.
Lemma ccr_at g m t : ccr g m t -> ccat (fun m => g m t) m.
Proof. intros H. apply ccat_eps. intros e He. destruct (H e He) as (d & Hd & B). exists d. split; [exact Hd|]. intros m' Hm. apply B; [exact Hm|]. rewrite Rminus_eq_0, Rabs_R0. exact Hd. Qed.
(** continuity of functions of one complex variable *)
Lemma ccat_const c z : ccat (fun _ => c) z. Proof. apply (ccr_at (fun _ _ => c) z 0), ccr_const. Qed.
Lemma ccat_id z : ccat (fun z => z) z. Proof. eapply cderive_ccat, is_cderive_id. Qed.
Lemma ccat_plus f g z : ccat f z -> ccat g z -> ccat (fun z => f z + g z) z.
Proof. intros H1 H2. apply (ccr_at (fun z _ => f z + g z) z 0), ccr_plus; apply ccr_1; assumption. Qed.
Lemma ccat_minus f g z : ccat f z -> ccat g z -> ccat (fun z => f z - g z) z.
Proof. intros H1 H2. apply (ccr_at (fun z _ => f z - g z) z 0), ccr_minus; apply ccr_1; assumption. Qed.
Lemma ccat_mult f g z : ccat f z -> ccat g z -> ccat (fun z => f z * g z) z.
Proof. intros H1 H2. apply (ccr_at (fun z _ => f z * g z) z 0), ccr_mult; apply ccr_1; assumption. Qed.
Lemma ccat_comp f g z : ccat f (g z) -> ccat g z -> ccat (fun z => f (g z)) z.
Proof. intros H1 H2. apply (ccr_at (fun z _ => f (g z)) z 0), (ccr_comp f (fun z _ => g z)); [exact H1|apply ccr_1, H2]. Qed.
Lemma ccat_minv (f : C -> C) (z : C) : f z <> 0 -> ccat f z -> ccat (fun z => / f z) z.
Proof. intros N H. apply (ccat_comp (fun z => / z) f); [apply ccat_inv, N|exact H]. Qed.
Lemma ccat_opp f z : ccat f z -> ccat (fun z => - f z) z.
Proof. intros H. apply (ccr_at (fun z _ => - f z) z 0), ccr_opp, ccr_1, H. Qed.
Lemma ccat_ext f g z : (forall w, f w = g w) -> ccat f z -> ccat g z.
Proof. intros E H e He. destruct (H e He) as (d & Hd & B). exists d. split; [exact Hd|]. intros h Hh. rewrite <- !E. now apply B. Qed.

(** ** closure *)
Lemma hol_const U c : hol U (fun _ => c) (fun _ => RtoC 0). Proof. intros w _. split; [apply is_cderive_const|apply ccat_const]. Qed.
Lemma hol_id U : hol U (fun z => z) (fun _ => RtoC 1). Proof. intros w _. split; [apply is_cderive_id|apply ccat_const]. Qed.
Lemma hol_ccat U f f' w : hol U f f' -> U w -> ccat f w. Proof. intros H Hw. eapply cderive_ccat, H, Hw. Qed.
Lemma hol_plus U f f' g g' : hol U f f' -> hol U g g' -> hol U (fun z => f z + g z) (fun z => f' z + g' z).
Proof. intros Hf Hg w Hw. split; [apply is_cderive_add; [apply Hf|apply Hg]; exact Hw|apply ccat_plus; [apply Hf|apply Hg]; exact Hw]. Qed.
Lemma hol_minus U f f' g g' : hol U f f' -> hol U g g' -> hol U (fun z => f z - g z) (fun z => f' z - g' z).
Proof. intros Hf Hg w Hw. split; [apply is_cderive_sub; [apply Hf|apply Hg]; exact Hw|apply ccat_minus; [apply Hf|apply Hg]; exact Hw]. Qed.
Lemma hol_mult U f f' g g' : hol U f f' -> hol U g g' -> hol U (fun z => f z * g z) (fun z => f' z * g z + f z * g' z).
Proof.
  intros Hf Hg w Hw. split; [apply is_cderive_mul; [apply Hf|apply Hg]; exact Hw|].
  apply ccat_plus; apply ccat_mult; try (apply Hf, Hw); try (apply Hg, Hw); eapply hol_ccat; eassumption.
Qed.
Lemma hol_inv U (f f' : C -> C) : hol U f f' -> (forall w, U w -> f w <> 0) -> hol U (fun z => / f z) (fun z => - f' z / (f z * f z)).
Proof.
  intros Hf N w Hw. split; [apply is_cderive_inv; [apply Hf, Hw|apply N, Hw]|]. assert (Cf := hol_ccat _ _ _ _ Hf Hw).
  apply (ccat_mult (fun z => - f' z) (fun z => / (f z * f z))); [apply ccat_opp, Hf, Hw|]. apply (ccat_minv (fun z => f z * f z)); [apply Cmult_neq_0; apply N, Hw|apply ccat_mult; exact Cf].
Qed.
Lemma hol_comp U V f f' g g' : hol V f f' -> hol U g g' -> (forall w, U w -> V (g w)) -> hol U (fun z => f (g z)) (fun z => f' (g z) * g' z).
Proof.
  intros Hf Hg M w Hw. split; [apply is_cderive_comp; [apply Hg, Hw|apply Hf, M, Hw]|]. apply ccat_mult; [|apply Hg, Hw]. apply ccat_comp; [apply Hf, M, Hw|eapply hol_ccat; eassumption].
Qed.
Lemma hol_csqrt : hol offcut csqrt (fun z => / (2 * csqrt z)).
Proof.
  intros w Hw. split; [apply is_cderive_csqrt, Hw|]. assert (N : csqrt w <> 0) by (intros E; assert (P := csqrt_pos w Hw); rewrite E in P; cbn in P; lra).
  apply (ccat_minv (fun z => 2 * csqrt z)); [apply Cmult_neq_0; [intros X; apply (f_equal fst) in X; cbn in X; lra|exact N]|]. apply ccat_mult; [apply ccat_const|eapply cderive_ccat, is_cderive_csqrt, Hw].
Qed.
Lemma hol_sub (U V : C -> Prop) f f' : (forall w, V w -> U w) -> hol U f f' -> hol V f f'. Proof. intros S H w Hw. apply H, S, Hw. Qed.
Lemma hol_ext U (f g f' : C -> C) : opn U -> (forall w, U w -> f w = g w) -> hol U f f' -> hol U g f'.
Proof.
  intros O E H w Hw. split; [|apply H, Hw]. destruct (O w Hw) as (r & Hr & B). apply (is_cderive_ext_near f g w _ r Hr); [|apply H, Hw].
  intros h Hh. apply E, B. now replace (w + h - w) with h by ring.
Qed.
Lemma hol_ext' U (f f' g' : C -> C) : opn U -> (forall w, U w -> f' w = g' w) -> hol U f f' -> hol U f g'.
Proof.
  intros O E H w Hw. destruct (H w Hw) as [D K]. split; [rewrite <- (E w Hw); exact D|]. destruct (O w Hw) as (r & Hr & B). apply ccat_eps. intros e He. destruct (proj1 (ccat_eps _ _) K e He) as (d & Hd & Bd).
  exists (Rmin r d). split; [apply Rmin_pos; assumption|]. intros v Hv. assert (L1 := Rmin_l r d). assert (L2 := Rmin_r r d). rewrite <- (E w Hw), <- (E v (B v ltac:(lra))). apply Bd. lra.
Qed.
Lemma hol_unique U f f' g' : hol U f f' -> (forall w, U w -> is_cderive f w (g' w)) -> forall w, U w -> f' w = g' w.
Proof. intros H G w Hw. eapply is_cderive_unique; [apply H, Hw|apply G, Hw]. Qed.

(** ** compactness of an interval *)
Lemma unif (a b : R) (P : R -> R -> Prop) : (a <= b)%R -> (forall t d d', P t d -> (0 < d' <= d)%R -> P t d') ->
  (forall t, (a <= t <= b)%R -> exists d, (0 < d)%R /\ forall t', (Rabs (t' - t) < d)%R -> P t' d) -> exists d, (0 < d)%R /\ forall t, (a <= t <= b)%R -> P t d.
Proof.
  intros Hab Mon Loc. set (Z := fun s : R => (a <= s <= b)%R /\ exists d, (0 < d)%R /\ forall t, (a <= t <= s)%R -> P t d).
  assert (Zb : bound Z) by (exists b; intros s [Hs _]; lra).
  assert (Za : Z a). { split; [lra|]. destruct (Loc a ltac:(lra)) as (d & Hd & B). exists d. split; [exact Hd|]. intros t Ht. apply B. replace (t - a)%R with 0%R by lra. rewrite Rabs_R0. exact Hd. }
  destruct (completeness Z Zb (ex_intro _ _ Za)) as (m & U1 & U2). assert (M0 : (a <= m)%R) by (apply U1, Za). assert (M1 : (m <= b)%R) by (apply U2; intros s [Hs _]; lra).
  destruct (Loc m ltac:(lra)) as (d & Hd & B).
  assert (EX : exists s, Z s /\ (m - d < s)%R). { apply NNPP. intros N. assert (m <= m - d)%R; [|lra]. apply U2. intros s Hs. destruct (Rle_dec s (m - d)); [assumption|]. exfalso. apply N. exists s. split; [exact Hs|lra]. }
  destruct EX as (s & (Hs & ds & Hds & Bs) & Hsm).
  assert (G : forall s', (s' < m + d)%R -> forall t, (a <= t <= s')%R -> P t (Rmin ds d)).
  { intros s' Hs' t Ht. destruct (Rle_dec t s). - apply (Mon t ds); [apply Bs; lra|]. split; [apply Rmin_pos; assumption|apply Rmin_l]. - apply (Mon t d); [apply B; rewrite Rabs_lt_between; lra|]. split; [apply Rmin_pos; assumption|apply Rmin_r]. }
  assert (ME : m = b).
  { destruct (Req_EM_T m b) as [|N]; [assumption|exfalso]. set (h := Rmin (b - m) (d / 2)). assert (Hh : (0 < h)%R) by (apply Rmin_pos; lra). assert (h <= b - m)%R by apply Rmin_l. assert (h <= d / 2)%R by apply Rmin_r.
    assert (m + h <= m)%R; [|lra]. apply U1. split; [lra|]. exists (Rmin ds d). split; [apply Rmin_pos; assumption|]. apply G. lra. }
  exists (Rmin ds d). split; [apply Rmin_pos; assumption|]. apply G. lra.
Qed.

(** ** integrals with a complex parameter *)
Section Param.
Variables (U : C -> Prop) (g g1 : C -> R -> C) (a b : R).
Hypothesis (OU : opn U) (Hab : (a <= b)%R).
Hypothesis GD : forall m t, U m -> is_cderive (fun m => g m t) m (g1 m t).
Hypothesis GC : forall m t, U m -> ccont (g m) t.
Hypothesis G1 : forall m t, U m -> ccr g1 m t.
Lemma param_unif m : U m -> forall e, (0 < e)%R -> exists d, (0 < d)%R /\ forall t, (a <= t <= b)%R -> forall h, (Cmod h < d)%R -> (Cmod (g1 (m + h) t - g1 m t)%C <= e)%R.
Proof.
  intros Hm e He. apply (unif a b (fun t d => forall h, (Cmod h < d)%R -> (Cmod (g1 (m + h)%C t - g1 m t)%C <= e)%R) Hab).
  - intros t d d' P Hd h Hh. apply P. lra.
  - intros t _. destruct (G1 m t Hm (e / 2)%R ltac:(lra)) as (d & Hd & B). exists d. split; [exact Hd|]. intros t' Ht h Hh.
    assert (B1 := B (m + h) t'). replace (m + h - m) with h in B1 by ring. specialize (B1 Hh Ht). assert (B2 := B m t'). replace (m - m) with (RtoC 0) in B2 by ring. rewrite Cmod_0 in B2. specialize (B2 Hd Ht).
    replace (g1 (m + h) t' - g1 m t') with ((g1 (m + h) t' - g1 m t) - (g1 m t' - g1 m t)) by ring. eapply Rle_trans; [apply Cmod_triangle|]. rewrite Cmod_opp. lra.
Qed.
Lemma param_g_is m : U m -> is_CInt (g m) a b (CInt (g m) a b). Proof. intros Hm. apply CInt_ok. intros t _. now apply GC. Qed.
Lemma param_g1_is m : U m -> is_CInt (g1 m) a b (CInt (g1 m) a b). Proof. intros Hm. apply CInt_ok. intros t _. now apply ccr_slice, G1. Qed.
Lemma param_inc m h t e r : (forall v, (Cmod (v - m)%C < r)%R -> U v) -> (Cmod h < r)%R -> (forall h', (Cmod h' <= Cmod h)%R -> (Cmod (g1 (m + h') t - g1 m t)%C <= e)%R) ->
  (Cmod (g (m + h) t - g m t - g1 m t * h)%C <= 2 * e * Cmod h)%R.
Proof.
  intros B Hh He. assert (PU : forall s, (0 <= s <= 1)%R -> U (m + RtoC s * h)). { intros s Hs. apply B. replace (m + RtoC s * h - m) with (RtoC s * h) by ring. rewrite Cmod_mult, Cmod_R, Rabs_pos_eq by lra. apply Rle_lt_trans with (1 * Cmod h)%R; [|lra]. apply Rmult_le_compat_r; [apply Cmod_ge_0|lra]. }
  assert (LU : forall s, rcd (fun s => m + RtoC s * h) s h). { intros s. eapply rcd_eq; [apply rcd_plus; [apply rcd_const|apply rcd_mult; [apply rcd_id|apply rcd_const]]|cbv beta; ring]. }
  assert (I : is_CInt (fun s => (g1 (m + RtoC s * h) t - g1 m t) * h) 0 1 ((g (m + RtoC 1 * h) t - g1 m t * (RtoC 1 * h)) - (g (m + RtoC 0 * h) t - g1 m t * (RtoC 0 * h)))).
  { apply (rcd_ftc (fun s => g (m + RtoC s * h) t - g1 m t * (RtoC s * h)) (fun s => (g1 (m + RtoC s * h) t - g1 m t) * h)); rewrite Rmin_left, Rmax_right by lra; intros s Hs.
    - eapply rcd_eq; [apply rcd_minus; [apply (rcd_comp (fun v => g v t) (fun s => m + RtoC s * h)); [apply GD, PU, Hs|apply LU]|apply rcd_mult; [apply rcd_const|apply rcd_mult; [apply rcd_id|apply rcd_const]]]|]. cbv beta. ring.
    - apply ccont_mult; [|apply ccont_const]. apply ccont_minus; [|apply ccont_const]. apply ccont_eps. intros e' He'. destruct (proj1 (ccat_eps _ _) (ccr_at g1 _ t (G1 _ t (PU s Hs))) e' He') as (d & Hd & Bd).
      destruct (proj1 (ccont_eps _ _) (rcd_ccont _ _ _ (LU s)) d Hd) as (d2 & Hd2 & Bd2). exists d2. split; [exact Hd2|]. intros s' Hs'. apply Bd, Bd2, Hs'. }
  apply (CInt_bound _ 0 1 _ (e * Cmod h)) in I; [|lra|]. { replace (2 * e * Cmod h)%R with (2 * (e * Cmod h * (1 - 0)))%R by ring. refine (Rle_trans _ _ _ _ I). right. f_equal. replace (m + RtoC 1 * h) with (m + h) by ring. replace (m + RtoC 0 * h) with m by ring. ring. }
  intros s Hs. rewrite Cmod_mult. apply Rmult_le_compat_r; [apply Cmod_ge_0|]. apply He. rewrite Cmod_mult, Cmod_R, Rabs_pos_eq by lra. assert (P := Cmod_ge_0 h). nra.
Qed.
Lemma param_hol : hol U (fun m => CInt (g m) a b) (fun m => CInt (g1 m) a b).
Proof.
  intros m Hm. destruct (OU m Hm) as (r & Hr & B). set (L := (b - a + 1)%R). assert (HL : (0 < L)%R) by (unfold L; lra). split.
  - apply cderive_eps. intros e He. destruct (param_unif m Hm (e / (4 * L))%R) as (d & Hd & Bd); [apply Rdiv_lt_0_compat; lra|]. exists (Rmin r d). split; [apply Rmin_pos; assumption|]. intros h Hh. assert (L1 := Rmin_l r d). assert (L2 := Rmin_r r d).
    assert (Um : U (m + h)) by (apply B; replace (m + h - m) with h by ring; lra). assert (P := Cmod_ge_0 h).
    assert (I : is_CInt (fun t => g (m + h) t - g m t - h * g1 m t) a b (CInt (g (m + h)) a b - CInt (g m) a b - h * CInt (g1 m) a b)).
    { apply is_CInt_minus; [apply is_CInt_minus; apply param_g_is; assumption|]. apply is_CInt_scal, param_g1_is, Hm. }
    rewrite (Cmult_comm (CInt (g1 m) a b)). apply (CInt_bound _ a b _ (2 * (e / (4 * L)) * Cmod h)) in I; [|exact Hab|].
    + eapply Rle_trans; [exact I|]. replace (2 * (2 * (e / (4 * L)) * Cmod h * (b - a)))%R with (e * Cmod h * ((b - a) / L))%R by (field; lra). rewrite <- (Rmult_1_r (e * Cmod h)) at 2. apply Rmult_le_compat_l; [apply Rmult_le_pos; lra|].
      apply Rmult_le_reg_r with L; [exact HL|]. replace ((b - a) / L * L)%R with (b - a)%R by (field; lra). unfold L. lra.
    + intros t Ht. rewrite (Cmult_comm h). apply (param_inc m h t _ r B ltac:(lra)). intros h' Hh'. apply Bd; [exact Ht|lra].
  - apply ccat_eps. intros e He. destruct (param_unif m Hm (e / (4 * L))%R) as (d & Hd & Bd); [apply Rdiv_lt_0_compat; lra|]. exists (Rmin r d). split; [apply Rmin_pos; assumption|]. intros w Hw. assert (L1 := Rmin_l r d). assert (L2 := Rmin_r r d).
    assert (Uw : U w) by (apply B; lra). assert (I := is_CInt_minus _ _ _ _ _ _ (param_g1_is w Uw) (param_g1_is m Hm)). apply (CInt_bound _ a b _ (e / (4 * L))) in I; [|exact Hab|].
    + eapply Rle_lt_trans; [exact I|]. replace (2 * (e / (4 * L) * (b - a)))%R with (e / 2 * ((b - a) / L))%R by (field; lra). apply Rle_lt_trans with (e / 2 * 1)%R; [|lra]. apply Rmult_le_compat_l; [lra|].
      apply Rmult_le_reg_r with L; [exact HL|]. replace ((b - a) / L * L)%R with (b - a)%R by (field; lra). unfold L. lra.
    + intros t Ht. replace w with (m + (w - m)) by ring. apply Bd; [exact Ht|lra].
Qed.
End Param.

(** ** the derivative of a holomorphic function is holomorphic *)
Definition cD (f : C -> C) (w : C) : C := (Derive (fun t => fst (f (w + RtoC t))) 0, Derive (fun t => snd (f (w + RtoC t))) 0).
Lemma cD_eq f w l : is_cderive f w l -> cD f w = l.
Proof.
  intros H. assert (X : rcd (fun t => f (w + RtoC t)) 0 (l * 1)). { apply rcd_comp; [replace (w + RtoC 0) with w by ring; exact H|]. eapply rcd_eq; [apply rcd_plus; [apply rcd_const|apply rcd_id]|ring]. }
  rewrite Cmult_1_r in X. destruct X as [X1 X2]. apply is_derive_unique in X1. apply is_derive_unique in X2. unfold cD. apply C_ext; [exact X1|exact X2].
Qed.
Definition disc (c : C) (r : R) (w : C) : Prop := (Cmod (w - c)%C < r)%R.
Lemma disc_open c r : opn (disc c r).
Proof.
  intros w Hw. exists (r - Cmod (w - c)%C)%R. split; [unfold disc in Hw; lra|]. intros v Hv. unfold disc. replace (v - c) with ((v - w) + (w - c)) by ring. eapply Rle_lt_trans; [apply Cmod_triangle|lra].
Qed.
Section DD.
Variables (f f' : C -> C) (c : C) (r : R).
Hypothesis Hf : hol (disc c r) f f'.
Variable rho : R.
Hypothesis Hr : (0 < rho < r)%R.
Let E := circ rho.
Definition ck (n : nat) (u : C) (t : R) : C := f (c + E t) * (E t * Cpow (/ (E t - (u - c))) n).
Lemma ck_cont n u t : disc c rho u -> ccr (ck n) u t.
Proof.
  intros Hu. apply (ccr_mult (fun _ t => f (c + E t))); [apply (ccr_2 (fun t => f (c + E t))), (f_circ_cont f f' c r Hf); lra|]. apply (ccr_mult (fun _ t => E t)); [apply (ccr_2 E), circ_cont|].
  induction n as [|n IH]; cbn [Cpow]; [apply ccr_const|]. apply (ccr_mult (fun u t => / (E t - (u - c)))); [|exact IH]. apply (ccr_inv (fun u t => E t - (u - c))); [apply circ_off, Hu|].
  apply (ccr_minus (fun _ t => E t) (fun u _ => u - c)); [apply (ccr_2 E), circ_cont|]. apply (ccr_minus (fun u _ => u) (fun _ _ => c)); [apply ccr_m|apply ccr_const].
Qed.
Lemma ck_der n u t : disc c rho u -> is_cderive (fun u => ck n u t) u (RtoC (INR n) * ck (S n) u t).
Proof.
  intros Hu. assert (N : E t - (u - c) <> 0) by (apply circ_off, Hu).
  assert (D : is_cderive (fun u => / (E t - (u - c))) u (/ (E t - (u - c)) * / (E t - (u - c)))).
  { replace (/ (E t - (u - c)) * / (E t - (u - c))) with (- (0 - (1 - 0)) / ((E t - (u - c)) * (E t - (u - c)))) by (field; exact N). apply (is_cderive_inv (fun u => E t - (u - c))); [|exact N]. apply (is_cderive_sub (fun _ => E t)); [apply is_cderive_const|]. apply (is_cderive_sub (fun u => u) (fun _ => c)); [apply is_cderive_id|apply is_cderive_const]. }
  assert (P : is_cderive (fun u => Cpow (/ (E t - (u - c))) n) u (RtoC (INR n) * Cpow (/ (E t - (u - c))) (S n))).
  { induction n as [|n IH]; [cbn [Cpow INR]; rewrite Cmult_0_l; apply is_cderive_const|]. cbn [Cpow]. rewrite S_INR, RtoC_plus.
    replace ((RtoC (INR n) + 1) * (/ (E t - (u - c)) * (/ (E t - (u - c)) * Cpow (/ (E t - (u - c))) n))) with ((/ (E t - (u - c)) * / (E t - (u - c))) * Cpow (/ (E t - (u - c))) n + / (E t - (u - c)) * (RtoC (INR n) * Cpow (/ (E t - (u - c))) (S n))) by (cbn [Cpow]; ring).
    apply (is_cderive_mul (fun u => / (E t - (u - c))) (fun u => Cpow (/ (E t - (u - c))) n)); assumption. }
  unfold ck. replace (RtoC (INR n) * (f (c + E t) * (E t * Cpow (/ (E t - (u - c))) (S n)))) with ((f (c + E t) * E t) * (RtoC (INR n) * Cpow (/ (E t - (u - c))) (S n))) by ring.
  apply (is_cderive_ext (fun u => (f (c + E t) * E t) * Cpow (/ (E t - (u - c))) n)); [intros w; ring|]. apply is_cderive_scal, P.
Qed.
Lemma ck_hol n : hol (disc c rho) (fun u => CInt (ck n u) 0 (2 * PI)) (fun u => CInt (fun t => RtoC (INR n) * ck (S n) u t) 0 (2 * PI)).
Proof.
  apply (param_hol (disc c rho) (ck n) (fun u t => RtoC (INR n) * ck (S n) u t)); [apply disc_open|assert (H := two_pi_pos); lra|intros; now apply ck_der|intros; now apply ccr_slice, ck_cont|].
  intros u t Hu. apply (ccr_mult (fun _ _ => RtoC (INR n))); [apply ccr_const|now apply ck_cont].
Qed.
Lemma ck_f u : disc c rho u -> CInt (ck 1 u) 0 (2 * PI) = RtoC (2 * PI) * f u.
Proof. intros Hu. apply CInt_val. apply is_CInt_ext with (2 := cauchy f f' c r Hf rho u Hr Hu). intros t _. unfold ck, Cdiv. cbn [Cpow]. fold (E t). ring. Qed.
Lemma ck_f' u : disc c rho u -> CInt (ck 2 u) 0 (2 * PI) = RtoC (2 * PI) * f' u.
Proof.
  intros Hu. assert (X := hol_ext _ _ (fun u => RtoC (2 * PI) * f u) _ (disc_open c rho) ck_f (ck_hol 1)). destruct (X u Hu) as [D _]. assert (D2 : is_cderive (fun u => RtoC (2 * PI) * f u) u (RtoC (2 * PI) * f' u)) by (apply is_cderive_scal, Hf; unfold disc in *; lra).
  rewrite <- (is_cderive_unique _ _ _ _ D D2). symmetry. apply CInt_val. apply is_CInt_ext with (2 := CInt_ok (ck 2 u) 0 (2 * PI) ltac:(intros t _; apply ccr_slice, ck_cont, Hu)). intros t _. cbn [INR]. ring.
Qed.
Lemma f'_hol : hol (disc c rho) f' (fun u => / RtoC (2 * PI) * CInt (fun t => RtoC (INR 2) * ck 3 u t) 0 (2 * PI)).
Proof.
  assert (T := two_pi_pos). assert (NT : RtoC (2 * PI) <> 0) by (intros X; apply RtoC_inj in X; lra).
  apply (hol_ext _ (fun u => / RtoC (2 * PI) * CInt (ck 2 u) 0 (2 * PI))); [apply disc_open|intros w Hw; rewrite (ck_f' w Hw); field; exact NT|].
  intros w Hw. destruct (ck_hol 2 w Hw) as [D K]. split; [apply is_cderive_scal, D|apply ccat_mult; [apply ccat_const|exact K]].
Qed.
End DD.

Lemma hol_disc U f f' : opn U -> hol U f f' -> forall w, U w -> exists r, (0 < r)%R /\ hol (disc w r) f f' /\ forall v, disc w r v -> U v.
Proof. intros O H w Hw. destruct (O w Hw) as (r & Hr & B). exists r. split; [exact Hr|]. split; [|exact B]. intros v Hv. apply H, B, Hv. Qed.
Theorem hol_derive U f f' : opn U -> hol U f f' -> hol U f' (cD f').
Proof.
  intros O H w Hw. destruct (hol_disc U f f' O H w Hw) as (r & Hr & Hd & B). assert (X := f'_hol f f' w r Hd (r / 2) ltac:(lra)).
  assert (W : disc w (r / 2) w) by (unfold disc; replace (w - w) with (RtoC 0) by ring; rewrite Cmod_0; lra).
  apply (hol_ext' (disc w (r / 2)) _ _ (cD f') (disc_open _ _)) with (2 := X); [|exact W]. intros v Hv. symmetry. apply cD_eq, X, Hv.
Qed.
