(** * Complex analysis: Cauchy's formula and the identity theorem for functions with a continuous complex derivative *)
From Coq Require Import Reals Lra Lia Classical.
From Coquelicot Require Import Coquelicot.
From Verif Require Import Base CBase CExp CSqrt Fourier_Filon LatInt_Proofs LatInt_Hilbert LatInt_Fubini LatInt_Real.
Local Open Scope C_scope.

(** ** derivatives in the form of a remainder *)
Lemma cderive_eps (f : C -> C) (z l : C) : is_cderive f z l <-> forall e, (0 < e)%R -> exists d, (0 < d)%R /\ forall h : C, (Cmod h < d)%R -> (Cmod (f (z + h) - f z - l * h)%C <= e * Cmod h)%R.
Proof.
  split; intros H e He.
  - destruct (H e He) as (d & Hd & B). exists d. split; [exact Hd|]. intros h Hh. destruct (Ceq_dec h 0) as [-> | N].
    + rewrite Cplus_0_r. replace (f z - f z - l * 0) with (RtoC 0) by ring. rewrite Cmod_0. lra.
    + specialize (B h N Hh). replace (f (z + h) - f z - l * h) with (((f (z + h) - f z) / h - l) * h) by (field; exact N). rewrite Cmod_mult. apply Rmult_le_compat_r; [apply Cmod_ge_0|lra].
  - destruct (H (e / 2)%R ltac:(lra)) as (d & Hd & B). exists d. split; [exact Hd|]. intros h N Hh. specialize (B h Hh).
    assert (P := Cmod_gt_0 h). destruct P as [P _]. specialize (P N).
    replace ((f (z + h) - f z) / h - l) with ((f (z + h) - f z - l * h) / h) by (field; exact N). rewrite Cmod_div by exact N.
    apply Rmult_le_compat_r with (r := (/ Cmod h)%R) in B; [|left; apply Rinv_0_lt_compat, P]. rewrite Rmult_assoc, Rinv_r in B by lra. unfold Rdiv at 1. lra.
Qed.
(** continuity at a point of the plane *)
Definition ccat (f : C -> C) (z : C) : Prop := forall e, (0 < e)%R -> exists d, (0 < d)%R /\ forall h : C, (Cmod h < d)%R -> (Cmod (f (z + h) - f z)%C < e)%R.
Lemma ccat_alt f z : ctends0 (fun h => f (z + h) - f z) -> ccat f z.
Proof.
  intros H e He. destruct (H e He) as (d & Hd & B). exists d. split; [exact Hd|]. intros h Hh. destruct (Ceq_dec h 0) as [-> | N]; [|exact (B h N Hh)].
  rewrite Cplus_0_r. replace (f z - f z) with (RtoC 0) by ring. now rewrite Cmod_0.
Qed.
Lemma cderive_ccat f z l : is_cderive f z l -> ccat f z.
Proof. intros H. apply ccat_alt. exact (is_cderive_cont f z l H). Qed.

(** ** functions of a real variable *)
Definition rcd (F : R -> C) (t : R) (l : C) : Prop := is_derive (fun t => fst (F t)) t (fst l) /\ is_derive (fun t => snd (F t)) t (snd l).
Lemma Cmod_le2 (z : C) : (Cmod z <= Rabs (fst z) + Rabs (snd z))%R.
Proof.
  replace z with (RtoC (fst z) + Ci * RtoC (snd z)) at 1 by (apply C_ext; cbn; ring). eapply Rle_trans; [apply Cmod_triangle|]. rewrite Cmod_mult, !Cmod_R.
  replace (Cmod Ci) with 1%R; [lra|]. unfold Ci, Cmod; cbn. rewrite <- sqrt_1 at 1. f_equal. ring.
Qed.
Lemma Cmod_fst (z : C) : (Rabs (fst z) <= Cmod z)%R. Proof. eapply Rle_trans; [|apply Rmax_Cmod]. apply Rmax_l. Qed.
Lemma Cmod_snd (z : C) : (Rabs (snd z) <= Cmod z)%R. Proof. eapply Rle_trans; [|apply Rmax_Cmod]. apply Rmax_r. Qed.
Lemma is_derive_eps (f : R -> R) t l : is_derive f t l <-> forall e, (0 < e)%R -> exists d, (0 < d)%R /\ forall h, (Rabs h < d)%R -> (Rabs (f (t + h) - f t - l * h) <= e * Rabs h)%R.
Proof.
  split.
  - intros H e He. apply is_derive_Reals in H. destruct (H e He) as [d B]. exists d. split; [apply (cond_pos d)|]. intros h Hh. destruct (Req_EM_T h 0) as [-> | N].
    + rewrite Rplus_0_r. replace (f t - f t - l * 0)%R with 0%R by ring. rewrite Rabs_R0. lra.
    + specialize (B h N Hh). replace (f (t + h) - f t - l * h)%R with (((f (t + h) - f t) / h - l) * h)%R by (field; exact N). rewrite Rabs_mult. apply Rmult_le_compat_r; [apply Rabs_pos|lra].
  - intros H. apply is_derive_Reals. intros e He. destruct (H (e / 2)%R ltac:(lra)) as (d & Hd & B). exists (mkposreal d Hd). intros h N Hh. cbn in Hh. specialize (B h Hh). assert (P := Rabs_pos_lt h N).
    replace ((f (t + h) - f t) / h - l)%R with ((f (t + h) - f t - l * h) * / h)%R by (field; exact N). rewrite Rabs_mult, Rabs_inv.
    apply Rmult_le_compat_r with (r := (/ Rabs h)%R) in B; [|left; apply Rinv_0_lt_compat, P]. rewrite Rmult_assoc, Rinv_r in B by lra. lra.
Qed.
Lemma rcd_eps (F : R -> C) t l : rcd F t l <-> forall e, (0 < e)%R -> exists d, (0 < d)%R /\ forall h, (Rabs h < d)%R -> (Cmod (F (t + h)%R - F t - l * RtoC h)%C <= e * Rabs h)%R.
Proof.
  split.
  - intros [A B] e He. assert (A' := proj1 (is_derive_eps _ _ _) A (e / 2)%R ltac:(lra)). assert (B' := proj1 (is_derive_eps _ _ _) B (e / 2)%R ltac:(lra)).
    destruct A' as (d1 & D1 & A'), B' as (d2 & D2 & B'). exists (Rmin d1 d2). split; [apply Rmin_pos; assumption|]. intros h Hh.
    specialize (A' h ltac:(eapply Rlt_le_trans; [exact Hh|apply Rmin_l])). specialize (B' h ltac:(eapply Rlt_le_trans; [exact Hh|apply Rmin_r])).
    eapply Rle_trans; [apply Cmod_le2|]. cbn [fst snd Cminus Cplus Copp Cmult RtoC].
    replace (fst (F (t + h)%R) + - fst (F t) + - (fst l * h - snd l * 0))%R with (fst (F (t + h)%R) - fst (F t) - fst l * h)%R by ring.
    replace (snd (F (t + h)%R) + - snd (F t) + - (fst l * 0 + snd l * h))%R with (snd (F (t + h)%R) - snd (F t) - snd l * h)%R by ring. lra.
  - intros H. split; apply is_derive_eps; intros e He; destruct (H e He) as (d & Hd & B); exists d; (split; [exact Hd|]); intros h Hh; specialize (B h Hh); eapply Rle_trans; [|exact B| |exact B].
    + eapply Rle_trans; [|apply Cmod_fst]. cbn [fst snd Cminus Cplus Copp Cmult RtoC]. right. f_equal. ring.
    + eapply Rle_trans; [|apply Cmod_snd]. cbn [fst snd Cminus Cplus Copp Cmult RtoC]. right. f_equal. ring.
Qed.
Lemma rcd_ccont F t l : rcd F t l -> ccont F t.
Proof. intros [A B]. split; [apply (ex_derive_continuous (fun t => fst (F t)))|apply (ex_derive_continuous (fun t => snd (F t)))]; eexists; eassumption. Qed.
Lemma rcd_const c t : rcd (fun _ => c) t 0.
Proof. split; apply (is_derive_const (V := R_NormedModule)). Qed.
Lemma rcd_plus F G t a b : rcd F t a -> rcd G t b -> rcd (fun t => F t + G t) t (a + b).
Proof. intros [A B] [A' B']. split; cbn [fst snd Cplus]; now apply (is_derive_plus (V := R_NormedModule)). Qed.
Lemma rcd_minus F G t a b : rcd F t a -> rcd G t b -> rcd (fun t => F t - G t) t (a - b).
Proof. intros [A B] [A' B']. split; cbn [fst snd Cplus Cminus Copp]; now apply (is_derive_minus (V := R_NormedModule)). Qed.
Lemma rcd_mult F G t a b : rcd F t a -> rcd G t b -> rcd (fun t => F t * G t) t (a * G t + F t * b).
Proof.
  intros [A B] [A' B']. split; cbn [fst snd Cplus Cmult]; evar_last.
  - apply (is_derive_minus (V := R_NormedModule)); apply (is_derive_mult (fun t : R => _) (fun t : R => _)); try eassumption; intros; apply Rmult_comm.
  - unfold minus, plus, opp, mult; cbn. ring.
  - apply (is_derive_plus (V := R_NormedModule)); apply (is_derive_mult (fun t : R => _) (fun t : R => _)); try eassumption; intros; apply Rmult_comm.
  - unfold plus, mult; cbn. ring.
Qed.
Lemma rcd_id t : rcd (fun t => RtoC t) t 1.
Proof. split; cbn [fst snd RtoC]; [apply (is_derive_id (K := R_AbsRing))|apply (is_derive_const (V := R_NormedModule))]. Qed.
Lemma rcd_eq F t l l' : rcd F t l -> l = l' -> rcd F t l'. Proof. now intros H ->. Qed.
Lemma rcd_ext F G t l : (forall s, F s = G s) -> rcd F t l -> rcd G t l.
Proof. intros E [A B]. split; [revert A|revert B]; apply is_derive_ext; intros s; now rewrite E. Qed.
Lemma rcd_comp (f : C -> C) (F : R -> C) t l v : is_cderive f (F t) l -> rcd F t v -> rcd (fun t => f (F t)) t (l * v).
Proof.
  intros Hf HF. apply rcd_eps. intros e He. set (V := (Cmod v + 1)%R). assert (HV : (0 < V)%R) by (unfold V; assert (Q := Cmod_ge_0 v); lra). set (L := (Cmod l + 1)%R). assert (HL : (0 < L)%R) by (unfold L; assert (Q := Cmod_ge_0 l); lra).
  destruct (proj1 (cderive_eps _ _ _) Hf (e / (2 * V))%R) as (d1 & D1 & B1); [apply Rdiv_lt_0_compat; lra|].
  destruct (proj1 (rcd_eps _ _ _) HF (Rmin 1 (e / (2 * L)))%R) as (d2 & D2 & B2); [apply Rmin_pos; [lra|apply Rdiv_lt_0_compat; lra]|].
  exists (Rmin d2 (d1 / V)). split; [apply Rmin_pos; [exact D2|apply Rdiv_lt_0_compat; lra]|]. intros h Hh.
  assert (H2 : (Rabs h < d2)%R) by (eapply Rlt_le_trans; [exact Hh|apply Rmin_l]). assert (H1 : (Rabs h < d1 / V)%R) by (eapply Rlt_le_trans; [exact Hh|apply Rmin_r]).
  specialize (B2 h H2). set (k := F (t + h)%R - F t). assert (Ah := Rabs_pos h).
  assert (K2 : (Cmod (k - v * RtoC h)%C <= e / (2 * L) * Rabs h)%R). { eapply Rle_trans; [exact B2|]. apply Rmult_le_compat_r; [exact Ah|apply Rmin_r]. }
  assert (K1 : (Cmod (k - v * RtoC h)%C <= 1 * Rabs h)%R). { eapply Rle_trans; [exact B2|]. apply Rmult_le_compat_r; [exact Ah|apply Rmin_l]. }
  assert (K : (Cmod k <= V * Rabs h)%R). { replace k with (k - v * RtoC h + v * RtoC h) by ring. eapply Rle_trans; [apply Cmod_triangle|]. rewrite Cmod_mult, Cmod_R. unfold V. lra. }
  assert (Hk : (Cmod k < d1)%R). { eapply Rle_lt_trans; [exact K|]. apply Rmult_lt_compat_r with (r := V) in H1; [|exact HV]. unfold Rdiv in H1. rewrite Rmult_assoc, Rinv_l in H1 by lra. lra. }
  specialize (B1 k Hk). replace (F (t + h)%R) with (F t + k) by (unfold k; ring).
  replace (f (F t + k) - f (F t) - l * v * RtoC h) with ((f (F t + k) - f (F t) - l * k) + l * (k - v * RtoC h)) by ring.
  eapply Rle_trans; [apply Cmod_triangle|]. rewrite Cmod_mult. assert (Ql := Cmod_ge_0 l).
  assert (Q1 : (e / (2 * V) * Cmod k <= e / 2 * Rabs h)%R). { eapply Rle_trans; [apply Rmult_le_compat_l; [left; apply Rdiv_lt_0_compat; lra|exact K]|]. right. field. lra. }
  assert (Q2 : (Cmod l * Cmod (k - v * RtoC h)%C <= e / 2 * Rabs h)%R).
  { eapply Rle_trans; [apply Rmult_le_compat; [exact Ql|apply Cmod_ge_0|unfold L in *; apply Rle_trans with (Cmod l + 1)%R; [lra|apply Rle_refl]|exact K2]|]. right. unfold L. field. lra. }
  lra.
Qed.
Lemma rcd_ftc (F f : R -> C) a b : (forall t, (Rmin a b <= t <= Rmax a b)%R -> rcd F t (f t)) -> (forall t, (Rmin a b <= t <= Rmax a b)%R -> ccont f t) -> is_CInt f a b (F b - F a).
Proof.
  intros H K. split; cbn [fst snd Cminus Cplus Copp]; [apply (is_RInt_derive (V := R_CompleteNormedModule) (fun t => fst (F t)) (fun t => fst (f t)))|apply (is_RInt_derive (V := R_CompleteNormedModule) (fun t => snd (F t)) (fun t => snd (f t)))];
    intros t Ht; try apply (H t Ht); apply (K t Ht).
Qed.

(** ** functions of two real variables *)
Definition cc2 (g : R -> R -> C) (s t : R) : Prop := forall e, (0 < e)%R -> exists d, (0 < d)%R /\ forall s' t', (Rabs (s' - s) < d)%R -> (Rabs (t' - t) < d)%R -> (Cmod (g s' t' - g s t)%C < e)%R.
Lemma cc2_fst g s t : cc2 g s t -> continuity_2d_pt (fun s t => fst (g s t)) s t.
Proof. intros H [e He]. destruct (H e He) as (d & Hd & B). exists (mkposreal d Hd). intros u v Hu Hv. cbn in *. eapply Rle_lt_trans; [|apply (B u v Hu Hv)]. change (fst (g u v) - fst (g s t))%R with (fst (g u v - g s t)). apply Cmod_fst. Qed.
Lemma cc2_snd g s t : cc2 g s t -> continuity_2d_pt (fun s t => snd (g s t)) s t.
Proof. intros H [e He]. destruct (H e He) as (d & Hd & B). exists (mkposreal d Hd). intros u v Hu Hv. cbn in *. eapply Rle_lt_trans; [|apply (B u v Hu Hv)]. change (snd (g u v) - snd (g s t))%R with (snd (g u v - g s t)). apply Cmod_snd. Qed.
Lemma ccont_eps F t : ccont F t <-> forall e, (0 < e)%R -> exists d, (0 < d)%R /\ forall t', (Rabs (t' - t) < d)%R -> (Cmod (F t' - F t)%C < e)%R.
Proof.
  split.
  - intros [A B] e He. assert (X : forall g : R -> R, continuous g t -> exists d, (0 < d)%R /\ forall t', (Rabs (t' - t) < d)%R -> (Rabs (g t' - g t) < e / 2)%R).
    { intros g H. apply continuity_pt_filterlim in H. destruct (H (e / 2)%R ltac:(lra)) as (d & Hd & K). exists d. split; [exact Hd|]. intros t' Ht. destruct (Req_EM_T t' t) as [-> | N]; [rewrite Rminus_eq_0, Rabs_R0; lra|].
      apply (K t'). split; [split; [exact I|now apply not_eq_sym]|exact Ht]. }
    destruct (X _ A) as (d1 & D1 & X1), (X _ B) as (d2 & D2 & X2). exists (Rmin d1 d2). split; [apply Rmin_pos; assumption|]. intros t' Ht.
    specialize (X1 t' ltac:(eapply Rlt_le_trans; [exact Ht|apply Rmin_l])). specialize (X2 t' ltac:(eapply Rlt_le_trans; [exact Ht|apply Rmin_r])). eapply Rle_lt_trans; [apply Cmod_le2|]. cbn [fst snd Cminus Cplus Copp]. unfold Rminus in *. lra.
  - intros H. split; apply continuity_pt_filterlim; intros e He; destruct (H e He) as (d & Hd & B); exists d; (split; [exact Hd|]); intros t' [_ Ht]; eapply Rle_lt_trans; [|apply (B t' Ht)| |apply (B t' Ht)].
    + change (dist R_met (fst (F t')) (fst (F t))) with (Rabs (fst (F t' - F t))). apply Cmod_fst.
    + change (dist R_met (snd (F t')) (snd (F t))) with (Rabs (snd (F t' - F t))). apply Cmod_snd.
Qed.
Lemma cc2_1 F s t : ccont F s -> cc2 (fun s _ => F s) s t.
Proof. intros H e He. destruct (proj1 (ccont_eps _ _) H e He) as (d & Hd & B). exists d. split; [exact Hd|]. intros s' t' A _. exact (B s' A). Qed.
Lemma cc2_2 F s t : ccont F t -> cc2 (fun _ t => F t) s t.
Proof. intros H e He. destruct (proj1 (ccont_eps _ _) H e He) as (d & Hd & B). exists d. split; [exact Hd|]. intros s' t' _ A. exact (B t' A). Qed.
Lemma cc2_const c s t : cc2 (fun _ _ => c) s t. Proof. apply (cc2_1 (fun _ => c)), ccont_const. Qed.
Lemma cc2_comp f g s t : ccat f (g s t) -> cc2 g s t -> cc2 (fun s t => f (g s t)) s t.
Proof.
  intros Hf Hg e He. destruct (Hf e He) as (d & Hd & B). destruct (Hg d Hd) as (d' & Hd' & B'). exists d'. split; [exact Hd'|]. intros s' t' A A'.
  specialize (B (g s' t' - g s t) (B' s' t' A A')). replace (g s t + (g s' t' - g s t)) with (g s' t') in B by ring. exact B.
Qed.
Lemma cc2_plus g k s t : cc2 g s t -> cc2 k s t -> cc2 (fun s t => g s t + k s t) s t.
Proof.
  intros H K e He. destruct (H (e / 2)%R ltac:(lra)) as (d & Hd & B), (K (e / 2)%R ltac:(lra)) as (d' & Hd' & B'). exists (Rmin d d'). split; [apply Rmin_pos; assumption|]. intros s' t' A A'.
  specialize (B s' t' ltac:(eapply Rlt_le_trans; [exact A|apply Rmin_l]) ltac:(eapply Rlt_le_trans; [exact A'|apply Rmin_l])). specialize (B' s' t' ltac:(eapply Rlt_le_trans; [exact A|apply Rmin_r]) ltac:(eapply Rlt_le_trans; [exact A'|apply Rmin_r])).
  replace (g s' t' + k s' t' - (g s t + k s t)) with ((g s' t' - g s t) + (k s' t' - k s t)) by ring. eapply Rle_lt_trans; [apply Cmod_triangle|]. lra.
Qed.
Lemma cc2_mult g k s t : cc2 g s t -> cc2 k s t -> cc2 (fun s t => g s t * k s t) s t.
Proof.
  intros H K e He. set (G := (Cmod (g s t) + 1)%R). set (M := (Cmod (k s t) + 1)%R). assert (HG : (0 < G)%R) by (unfold G; assert (Q := Cmod_ge_0 (g s t)); lra). assert (HM : (0 < M)%R) by (unfold M; assert (Q := Cmod_ge_0 (k s t)); lra).
  destruct (H (e / (2 * M))%R ltac:(apply Rdiv_lt_0_compat; lra)) as (d & Hd & B), (K (Rmin 1 (e / (2 * G)))%R) as (d' & Hd' & B'); [apply Rmin_pos; [lra|apply Rdiv_lt_0_compat; lra]|].
  exists (Rmin d d'). split; [apply Rmin_pos; assumption|]. intros s' t' A A'.
  specialize (B s' t' ltac:(eapply Rlt_le_trans; [exact A|apply Rmin_l]) ltac:(eapply Rlt_le_trans; [exact A'|apply Rmin_l])). specialize (B' s' t' ltac:(eapply Rlt_le_trans; [exact A|apply Rmin_r]) ltac:(eapply Rlt_le_trans; [exact A'|apply Rmin_r])).
  assert (B1 : (Cmod (k s' t' - k s t)%C < 1)%R) by (eapply Rlt_le_trans; [exact B'|apply Rmin_l]). assert (B2 : (Cmod (k s' t' - k s t)%C < e / (2 * G))%R) by (eapply Rlt_le_trans; [exact B'|apply Rmin_r]).
  assert (Bk : (Cmod (k s' t') <= M)%R). { replace (k s' t') with (k s' t' - k s t + k s t) by ring. eapply Rle_trans; [apply Cmod_triangle|]. unfold M. lra. }
  replace (g s' t' * k s' t' - g s t * k s t) with ((g s' t' - g s t) * k s' t' + g s t * (k s' t' - k s t)) by ring.
  eapply Rle_lt_trans; [apply Cmod_triangle|]. rewrite !Cmod_mult. assert (P1 := Cmod_ge_0 (g s' t' - g s t)). assert (P2 := Cmod_ge_0 (k s' t' - k s t)). assert (P3 := Cmod_ge_0 (g s t)). assert (P4 := Cmod_ge_0 (k s' t')).
  assert (Q1 : (Cmod (g s' t' - g s t)%C * Cmod (k s' t') <= e / (2 * M) * M)%R) by (apply Rmult_le_compat; lra).
  assert (Q2 : (Cmod (g s t) * Cmod (k s' t' - k s t)%C < G * (e / (2 * G)))%R). { apply Rle_lt_trans with (G * Cmod (k s' t' - k s t)%C)%R; [apply Rmult_le_compat_r; [exact P2|unfold G; lra]|apply Rmult_lt_compat_l; [exact HG|exact B2]]. }
  replace (e / (2 * M) * M)%R with (e / 2)%R in Q1 by (field; lra). replace (G * (e / (2 * G)))%R with (e / 2)%R in Q2 by (field; lra). lra.
Qed.
Lemma ccat_inv (z : C) : z <> 0 -> ccat (fun z => / z) z.
Proof. intros H. eapply cderive_ccat. apply is_cderive_inv; [apply is_cderive_id|exact H]. Qed.
Lemma cc2_inv (g : R -> R -> C) s t : g s t <> 0 -> cc2 g s t -> cc2 (fun s t => / g s t) s t.
Proof. intros N H. apply (cc2_comp (fun z => / z)); [apply ccat_inv, N|exact H]. Qed.
Lemma cc2_slice g s t : cc2 g s t -> ccont (g s) t.
Proof. intros H. apply ccont_eps. intros e He. destruct (H e He) as (d & Hd & B). exists d. split; [exact Hd|]. intros t' Ht. apply B; [rewrite Rminus_eq_0, Rabs_R0; exact Hd|exact Ht]. Qed.

(** ** an integral depending on a parameter *)
Lemma cparam (g g1 : R -> R -> C) (T eps : R) : (0 < eps)%R -> (0 <= T)%R ->
  (forall s t, (- eps < s < 1 + eps)%R -> rcd (fun s => g s t) s (g1 s t)) ->
  (forall s t, (- eps < s < 1 + eps)%R -> ccont (g s) t) ->
  (forall s t, (0 <= s <= 1)%R -> cc2 g1 s t) ->
  (forall s, (0 <= s <= 1)%R -> is_CInt (g1 s) 0 T 0) -> CInt (g 1%R) 0 T = CInt (g 0%R) 0 T.
Proof.
  intros He HT Hd Hc H2 H0.
  assert (X : forall (p : C -> R) , (p = fst \/ p = snd) -> RInt (fun t => p (g 1%R t)) 0 T = RInt (fun t => p (g 0%R t)) 0 T).
  { intros p Hp. assert (D : forall s, (0 <= s <= 1)%R -> is_derive (fun s => RInt (fun t => p (g s t)) 0 T) s 0%R).
    { intros s Hs.
      assert (DD : forall u t, (- eps < u < 1 + eps)%R -> is_derive (fun u => p (g u t)) u (p (g1 u t))). { intros u t Hu. destruct (Hd u t Hu) as [A B]. destruct Hp as [-> | ->]; assumption. }
      assert (Z : RInt (fun t => Derive (fun u => p (g u t)) s) 0 T = 0%R).
      { apply (is_RInt_unique (V := R_CompleteNormedModule)). apply (is_RInt_ext (V := R_NormedModule) (fun t => p (g1 s t))).
        - intros t Ht. symmetry. apply is_derive_unique, DD. lra.
        - destruct (H0 s Hs) as [A B]. destruct Hp as [-> | ->]; assumption. }
      assert (Q : (0 < Rmin (s + eps) (1 + eps - s))%R) by (apply Rmin_pos; lra). assert (Q1 := Rmin_l (s + eps) (1 + eps - s)). assert (Q2 := Rmin_r (s + eps) (1 + eps - s)).
      assert (LOC : locally s (fun u => (- eps < u < 1 + eps)%R)).
      { exists (mkposreal _ Q). intros y Hy. unfold ball in Hy; cbn in Hy. unfold AbsRing_ball, abs, minus, plus, opp in Hy; cbn in Hy. apply Rabs_def2 in Hy. lra. }
      evar_last; [|exact Z]. apply (is_derive_RInt_param (fun s t => p (g s t))).
      - revert LOC. apply filter_imp. intros u Hu t _. eexists. apply DD, Hu.
      - intros t _. assert (K : continuity_2d_pt (fun u v => p (g1 u v)) s t) by (destruct Hp as [-> | ->]; [apply cc2_fst|apply cc2_snd]; apply H2; assumption).
        revert K. apply continuity_2d_pt_ext_loc. exists (mkposreal _ Q). intros u v Hu _. cbn in Hu. apply Rabs_def2 in Hu. symmetry. apply is_derive_unique, DD. lra.
      - revert LOC. apply filter_imp. intros u Hu. apply (ex_RInt_continuous (V := R_CompleteNormedModule)). intros t _. destruct (Hc u t Hu) as [A B]. destruct Hp as [-> | ->]; assumption. }
    symmetry. apply (eq_is_derive (V := R_NormedModule) (fun s => RInt (fun t => p (g s t)) 0 T)); [|lra]. intros t Ht. apply D, Ht. }
  apply C_ext; cbn [fst snd CInt]; apply X; auto.
Qed.

(** ** Cauchy's integral formula on a circle *)
Definition circ (rho t : R) : C := RtoC rho * cexp (Ci * RtoC t).
Lemma Cmod_circ rho t : (0 <= rho)%R -> Cmod (circ rho t) = rho.
Proof. intros H. unfold circ. rewrite Cmod_mult, Cmod_R, Cmod_cexp, Rabs_pos_eq by exact H. cbn [fst snd Cmult Ci RtoC]. replace (0 * t - 1 * 0)%R with 0%R by ring. rewrite exp_0. ring. Qed.
Lemma circ_rcd rho t : rcd (circ rho) t (Ci * circ rho t).
Proof.
  unfold circ, cexp, Ci. split; cbn [fst snd Cmult RtoC]; auto_derive; trivial.
  all: replace (0 * t + - (1 * 0))%R with 0%R by ring; replace (0 * 0 + 1 * t)%R with t by ring; replace (0 * t - 1 * 0)%R with 0%R by ring; ring.
Qed.
Lemma circ_cont rho t : ccont (circ rho) t. Proof. exact (rcd_ccont _ _ _ (circ_rcd rho t)). Qed.
Lemma circ_period rho : circ rho (2 * PI) = circ rho 0.
Proof. unfold circ, cexp. cbn [fst snd Cmult Ci RtoC]. f_equal. replace (0 * (2 * PI) - 1 * 0)%R with (0 * 0 - 1 * 0)%R by ring. replace (0 * 0 + 1 * (2 * PI))%R with (2 * PI)%R by ring. replace (0 * 0 + 1 * 0)%R with 0%R by ring. now rewrite cos_2PI, sin_2PI, cos_0, sin_0. Qed.
Lemma circ_off rho t q : (Cmod q < rho)%R -> circ rho t - q <> 0.
Proof. intros H E. assert (X := Cmod_ge_0 q). assert (K : circ rho t = q) by (replace q with (circ rho t - (circ rho t - q)) by ring; rewrite E; ring). assert (L := Cmod_circ rho t ltac:(lra)). rewrite K in L. lra. Qed.
Lemma ftc_period (F f : R -> C) : (forall t, rcd F t (f t)) -> (forall t, ccont f t) -> F (2 * PI)%R = F 0%R -> is_CInt f 0 (2 * PI) 0.
Proof. intros H K E. eapply is_CInt_eq; [apply (rcd_ftc F f); intros t _; [apply H|apply K]|]. rewrite E. ring. Qed.
Lemma two_pi_pos : (0 < 2 * PI)%R. Proof. assert (H := PI_RGT_0). lra. Qed.
(** the winding number *)
Lemma circ_winding rho q : (Cmod q < rho)%R -> is_CInt (fun t => circ rho t / (circ rho t - q)) 0 (2 * PI) (RtoC (2 * PI)).
Proof.
  intros Hq. assert (P0 := Cmod_ge_0 q). assert (Hr : (0 < rho)%R) by lra.
  set (eps := ((rho - Cmod q) / (Cmod q + 1))%R). assert (He : (0 < eps)%R) by (apply Rdiv_lt_0_compat; lra).
  assert (BQ : forall s, (- eps < s < 1 + eps)%R -> (Cmod (RtoC s * q)%C < rho)%R).
  { intros s Hs. rewrite Cmod_mult, Cmod_R. assert (Rabs s < 1 + eps)%R by (apply Rabs_def1; lra). destruct (Req_EM_T (Cmod q) 0) as [Z|Z]; [rewrite Z; lra|].
    apply Rlt_le_trans with ((1 + eps) * Cmod q)%R; [apply Rmult_lt_compat_r; lra|]. rewrite Rmult_plus_distr_r, Rmult_1_l.
    assert (eps * Cmod q <= rho - Cmod q)%R; [|lra]. unfold eps. unfold Rdiv. rewrite Rmult_assoc. rewrite <- (Rmult_1_r (rho - Cmod q)) at 2. apply Rmult_le_compat_l; [lra|]. apply Rmult_le_reg_l with (Cmod q + 1)%R; [lra|]. rewrite <- Rmult_assoc, Rinv_r by lra. lra. }
  assert (NZ : forall s t, (- eps < s < 1 + eps)%R -> circ rho t - RtoC s * q <> 0) by (intros s t Hs; apply circ_off, BQ, Hs).
  set (g := fun s t => circ rho t * / (circ rho t - RtoC s * q)). set (g1 := fun s t => circ rho t * (q * (/ (circ rho t - RtoC s * q) * / (circ rho t - RtoC s * q)))).
  assert (CD : forall s t, (- eps < s < 1 + eps)%R -> cc2 (fun s t => / (circ rho t - RtoC s * q)) s t).
  { intros s t Hs. apply cc2_inv; [apply NZ, Hs|]. apply cc2_plus; [apply (cc2_2 (circ rho)), circ_cont|]. apply (cc2_comp Copp (fun s _ => RtoC s * q)); [eapply cderive_ccat; apply (is_cderive_opp (fun w => w)), is_cderive_id|]. apply (cc2_1 (fun s => RtoC s * q)). apply ccont_mult; [apply ccont_R, continuous_id|apply ccont_const]. }
  assert (DI : forall s t, (- eps < s < 1 + eps)%R -> rcd (fun s => / (circ rho t - RtoC s * q)) s (q * (/ (circ rho t - RtoC s * q) * / (circ rho t - RtoC s * q)))).
  { intros s t Hs. eapply rcd_eq; [apply (rcd_comp (fun z => / z) (fun s => circ rho t - RtoC s * q)); [apply is_cderive_inv; [apply is_cderive_id|apply NZ, Hs]|apply rcd_minus; [apply rcd_const|apply rcd_mult; [apply rcd_id|apply rcd_const]]]|]. cbv beta. field. apply NZ, Hs. }
  assert (X : CInt (g 1%R) 0 (2 * PI) = CInt (g 0%R) 0 (2 * PI)).
  { apply (cparam g g1 (2 * PI) eps He); [assert (H := two_pi_pos); lra| | | |].
    - intros s t Hs. eapply rcd_eq; [apply rcd_mult; [apply rcd_const|apply DI, Hs]|]. unfold g1. ring.
    - intros s t Hs. apply (cc2_slice g). apply cc2_mult; [apply (cc2_2 (circ rho)), circ_cont|apply CD, Hs].
    - intros s t Hs. apply cc2_mult; [apply (cc2_2 (circ rho)), circ_cont|]. apply cc2_mult; [apply cc2_const|]. apply cc2_mult; apply CD; lra.
    - intros s Hs. assert (Hs' : (- eps < s < 1 + eps)%R) by lra.
      apply (ftc_period (fun t => Ci * q * / (circ rho t - RtoC s * q)) (g1 s)).
      + intros t. eapply rcd_eq; [apply rcd_mult; [apply rcd_const|apply (rcd_comp (fun z => / z) (fun t => circ rho t - RtoC s * q)); [apply is_cderive_inv; [apply is_cderive_id|apply NZ, Hs']|apply rcd_minus; [apply circ_rcd|apply rcd_const]]]|].
        unfold g1. replace (0 * / (circ rho t - RtoC s * q)) with (RtoC 0) by ring. transitivity (- (Ci * Ci) * (circ rho t * (q * (/ (circ rho t - RtoC s * q) * / (circ rho t - RtoC s * q))))); [field; apply NZ, Hs'|]. replace (- (Ci * Ci)) with (RtoC 1) by (apply C_ext; cbn; ring). ring.
      + intros t. apply (cc2_slice g1). apply cc2_mult; [apply (cc2_2 (circ rho)), circ_cont|]. apply cc2_mult; [apply cc2_const|]. apply cc2_mult; apply CD, Hs'.
      + now rewrite circ_period. }
  assert (G0 : is_CInt (g 0%R) 0 (2 * PI) (RtoC (2 * PI))).
  { apply (is_CInt_ext (fun _ => 1)). - intros t _. unfold g. assert (N := NZ 0%R t ltac:(lra)). field. exact N || (replace (circ rho t - 0 * q) with (circ rho t) in * by ring; auto). - eapply is_CInt_eq; [apply is_CInt_const|]. rewrite Rminus_0_r. ring. }
  assert (G1 : is_CInt (g 1%R) 0 (2 * PI) (CInt (g 1%R) 0 (2 * PI))).
  { apply CInt_ok. intros t _. apply (cc2_slice g). apply cc2_mult; [apply (cc2_2 (circ rho)), circ_cont|apply CD; lra]. }
  rewrite X in G1. rewrite (CInt_val _ _ _ _ G0) in G1. apply is_CInt_ext with (2 := G1). intros t _. unfold g, Cdiv. now rewrite Cmult_1_l.
Qed.
Definition holo_disc (f f' : C -> C) (c : C) (r : R) : Prop := forall w, (Cmod (w - c)%C < r)%R -> is_cderive f w (f' w) /\ ccat f' w.
Section Cauchy.
Variables (f f' : C -> C) (c : C) (r : R).
Hypothesis Hf : holo_disc f f' c r.
Lemma f_rcd (F : R -> C) t v : (Cmod (F t - c)%C < r)%R -> rcd F t v -> rcd (fun t => f (F t)) t (f' (F t) * v).
Proof. intros A B. apply rcd_comp; [apply Hf, A|exact B]. Qed.
Lemma f_circ_cont rho t : (0 <= rho < r)%R -> ccont (fun t => f (c + circ rho t)) t.
Proof.
  intros H. eapply rcd_ccont. apply f_rcd; [|apply rcd_plus; [apply rcd_const|apply circ_rcd]]. replace (c + circ rho t - c) with (circ rho t) by ring. rewrite Cmod_circ; lra.
Qed.
Lemma cauchy rho u : (0 < rho < r)%R -> (Cmod (u - c)%C < rho)%R -> is_CInt (fun t => f (c + circ rho t) * (circ rho t / (circ rho t - (u - c)))) 0 (2 * PI) (RtoC (2 * PI) * f u).
Proof.
  intros Hr Hu. set (q := u - c) in *. assert (Pq := Cmod_ge_0 q). set (eps := ((r - rho) / (4 * rho))%R). assert (He : (0 < eps)%R) by (apply Rdiv_lt_0_compat; lra).
  set (P := fun s t => u + RtoC s * (circ rho t - q)).
  assert (BP : forall s t, (- eps < s < 1 + eps)%R -> (Cmod (P s t - c)%C < r)%R).
  { intros s t Hs. unfold P. replace (u + RtoC s * (circ rho t - q) - c) with (RtoC (1 - s) * q + RtoC s * circ rho t) by (unfold q; rewrite RtoC_minus; ring).
    eapply Rle_lt_trans; [apply Cmod_triangle|]. rewrite !Cmod_mult, !Cmod_R, Cmod_circ by lra.
    assert (A1 : (Rabs (1 - s) + Rabs s <= 1 + 2 * eps)%R) by (unfold Rabs; repeat destruct Rcase_abs; lra). assert (A2 := Rabs_pos (1 - s)). assert (A3 := Rabs_pos s).
    apply Rle_lt_trans with ((1 + 2 * eps) * rho)%R. { apply Rle_trans with ((Rabs (1 - s) + Rabs s) * rho)%R; [|apply Rmult_le_compat_r; lra]. rewrite Rmult_plus_distr_r. apply Rplus_le_compat_r. apply Rmult_le_compat_l; lra. }
    unfold eps. replace ((1 + 2 * ((r - rho) / (4 * rho))) * rho)%R with (rho + (r - rho) / 2)%R by (field; lra). lra. }
  assert (NZ : forall t, circ rho t - q <> 0) by (intros t; apply circ_off, Hu).
  assert (PC : forall s t, cc2 P s t).
  { intros s t. unfold P. apply cc2_plus; [apply cc2_const|]. apply cc2_mult; [apply (cc2_1 (fun s => RtoC s)), ccont_R, continuous_id|]. apply (cc2_2 (fun t => circ rho t - q)). apply ccont_minus; [apply circ_cont|apply ccont_const]. }
  set (g := fun s t => f (P s t) * (circ rho t / (circ rho t - q))). set (g1 := fun s t => f' (P s t) * circ rho t).
  assert (NC : forall t, ccont (fun t => circ rho t / (circ rho t - q)) t).
  { intros t. apply ccont_mult; [apply circ_cont|]. apply ccont_inv; [apply ccont_minus; [apply circ_cont|apply ccont_const]|apply NZ]. }
  assert (GC : forall s t, (- eps < s < 1 + eps)%R -> ccont (g s) t).
  { intros s t Hs. apply (cc2_slice g). apply cc2_mult; [apply cc2_comp; [eapply cderive_ccat, Hf, BP, Hs|apply PC]|]. apply (cc2_2 (fun t => circ rho t / (circ rho t - q))), NC. }
  assert (G1C : forall s t, (- eps < s < 1 + eps)%R -> cc2 g1 s t).
  { intros s t Hs. apply cc2_mult; [apply cc2_comp; [apply Hf, BP, Hs|apply PC]|apply (cc2_2 (circ rho)), circ_cont]. }
  assert (X : CInt (g 1%R) 0 (2 * PI) = CInt (g 0%R) 0 (2 * PI)).
  { apply (cparam g g1 (2 * PI) eps He); [assert (H := two_pi_pos); lra| |exact GC| |].
    - intros s t Hs. eapply rcd_eq; [apply rcd_mult; [apply (f_rcd (fun s => P s t)); [apply BP, Hs|apply rcd_plus; [apply rcd_const|apply rcd_mult; [apply rcd_id|apply rcd_const]]]|apply rcd_const]|]. cbv beta. unfold g1. field. apply NZ.
    - intros s t Hs. apply G1C. lra.
    - intros s Hs. destruct (Req_EM_T s 0) as [-> | Ns].
      + apply (ftc_period (fun t => (- Ci * f' u) * circ rho t) (g1 0%R)).
        * intros t. eapply rcd_eq; [apply rcd_mult; [apply rcd_const|apply circ_rcd]|]. unfold g1, P. replace (u + 0 * (circ rho t - q)) with u by ring. transitivity (- (Ci * Ci) * (f' u * circ rho t)); [ring|]. replace (- (Ci * Ci)) with (RtoC 1) by (apply C_ext; cbn; ring). ring.
        * intros t. apply (cc2_slice g1), G1C. lra.
        * now rewrite circ_period.
      + assert (N : RtoC s <> 0) by (intros E; apply RtoC_inj in E; auto). assert (NI : Ci <> 0) by (intros E; apply (f_equal snd) in E; cbn in E; lra).
        apply (ftc_period (fun t => / (Ci * RtoC s) * f (P s t)) (g1 s)).
        * intros t. eapply rcd_eq; [apply rcd_mult; [apply rcd_const|apply (f_rcd (fun t => P s t)); [apply BP; lra|apply rcd_plus; [apply rcd_const|apply rcd_mult; [apply rcd_const|apply rcd_minus; [apply circ_rcd|apply rcd_const]]]]]|]. cbv beta. unfold g1. field. split; assumption.
        * intros t. apply (cc2_slice g1), G1C. lra.
        * unfold P. now rewrite circ_period. }
  assert (G0 : is_CInt (g 0%R) 0 (2 * PI) (RtoC (2 * PI) * f u)).
  { eapply is_CInt_eq; [apply (is_CInt_ext (fun t => f u * (circ rho t / (circ rho t - q)))); [|apply is_CInt_scal, (circ_winding rho q Hu)]|ring]. intros t _. unfold g, P. replace (u + 0 * (circ rho t - q)) with u by ring. reflexivity. }
  assert (G1 : is_CInt (g 1%R) 0 (2 * PI) (CInt (g 1%R) 0 (2 * PI))) by (apply CInt_ok; intros t _; apply GC; lra).
  rewrite X, (CInt_val _ _ _ _ G0) in G1. apply is_CInt_ext with (2 := G1). intros t _. unfold g, P. replace (u + 1 * (circ rho t - q)) with (c + circ rho t) by (unfold q; ring). reflexivity.
Qed.
Lemma circ_bound rho : (0 <= rho < r)%R -> exists M, (0 < M)%R /\ forall t, (0 <= t <= 2 * PI)%R -> (Cmod (f (c + circ rho t)%C) <= M)%R.
Proof.
  intros H. assert (T := two_pi_pos).
  destruct (cont_bounded (fun t => fst (f (c + circ rho t))) 0 (2 * PI)) as (M1 & P1 & B1); [lra|intros; apply (f_circ_cont rho _ H)|].
  destruct (cont_bounded (fun t => snd (f (c + circ rho t))) 0 (2 * PI)) as (M2 & P2 & B2); [lra|intros; apply (f_circ_cont rho _ H)|].
  exists (M1 + M2 + 1)%R. split; [lra|]. intros t Ht. eapply Rle_trans; [apply Cmod_le2|]. specialize (B1 t Ht). specialize (B2 t Ht). lra.
Qed.
End Cauchy.

(** ** zeros accumulating at the centre *)
Section Zeros.
Variables (f f' : C -> C) (c : C) (r : R).
Hypothesis Hf : holo_disc f f' c r.
Hypothesis Hz : forall d, (0 < d)%R -> exists w, (0 < Cmod (w - c)%C < d)%R /\ f w = 0.
Variable rho : R.
Hypothesis Hr : (0 < rho < r)%R.
Let E := circ rho.
Lemma E_neq0 t : E t <> 0.
Proof. intros H. assert (K := Cmod_circ rho t ltac:(lra)). unfold E in H. rewrite H, Cmod_0 in K. lra. Qed.
Definition coef (n : nat) : C := CInt (fun t => f (c + E t) * Cpow (/ E t) n) 0 (2 * PI).
Definition rest (n : nat) (q : C) : C := CInt (fun t => f (c + E t) * (Cpow (/ E t) n * (E t / (E t - q)))) 0 (2 * PI).
Lemma Epow_cont n t : ccont (fun t => Cpow (/ E t) n) t.
Proof. induction n as [|n IH]; cbn [Cpow]; [apply ccont_const|]. apply ccont_mult; [apply ccont_inv; [apply circ_cont|apply E_neq0]|exact IH]. Qed.
Lemma coef_is n : is_CInt (fun t => f (c + E t) * Cpow (/ E t) n) 0 (2 * PI) (coef n).
Proof. apply CInt_ok. intros t _. apply ccont_mult; [apply (f_circ_cont f f' c r Hf); lra|apply Epow_cont]. Qed.
Lemma rest_is n q : (Cmod q < rho)%R -> is_CInt (fun t => f (c + E t) * (Cpow (/ E t) n * (E t / (E t - q)))) 0 (2 * PI) (rest n q).
Proof.
  intros Hq. apply CInt_ok. intros t _. apply ccont_mult; [apply (f_circ_cont f f' c r Hf); lra|]. apply ccont_mult; [apply Epow_cont|]. apply ccont_mult; [apply circ_cont|]. apply ccont_inv; [apply ccont_minus; [apply circ_cont|apply ccont_const]|apply circ_off, Hq].
Qed.
Lemma rest_S n q : (Cmod q < rho)%R -> rest n q = coef n + q * rest (S n) q.
Proof.
  intros Hq. apply (is_CInt_unique (fun t => f (c + E t) * (Cpow (/ E t) n * (E t / (E t - q)))) 0 (2 * PI)); [apply rest_is, Hq|].
  apply is_CInt_ext with (2 := is_CInt_plus _ _ _ _ _ _ (coef_is n) (is_CInt_scal q _ _ _ _ (rest_is (S n) q Hq))).
  intros t _. cbv beta. cbn [Cpow]. assert (N1 := E_neq0 t). assert (N2 := circ_off rho t q Hq). fold (E t) in N2. field. split; assumption.
Qed.
Lemma rest_0 u : (Cmod (u - c)%C < rho)%R -> rest 0 (u - c) = RtoC (2 * PI) * f u.
Proof.
  intros Hq. apply (is_CInt_unique (fun t => f (c + E t) * (Cpow (/ E t) 0 * (E t / (E t - (u - c))))) 0 (2 * PI)); [apply rest_is, Hq|].
  apply is_CInt_ext with (2 := cauchy f f' c r Hf rho u Hr Hq). intros t _. cbn [Cpow]. unfold E. ring.
Qed.
Lemma rest_bound : exists B, (0 < B)%R /\ forall n q, (Cmod q <= rho / 2)%R -> (Cmod (rest n q) <= B * (/ rho) ^ n)%R.
Proof.
  destruct (circ_bound f f' c r Hf rho ltac:(lra)) as (M & HM & B). assert (T := two_pi_pos). exists (2 * (M * 2 * (2 * PI)))%R. split; [nra|]. intros n q Hq. assert (P := Cmod_ge_0 q).
  replace (2 * (M * 2 * (2 * PI)) * (/ rho) ^ n)%R with (2 * (M * ((/ rho) ^ n * 2) * (2 * PI - 0)))%R by ring. apply (CInt_bound _ 0 (2 * PI) _ _ ltac:(lra)) with (2 := rest_is n q ltac:(lra)).
  intros t Ht. assert (N1 := E_neq0 t). assert (N2 := circ_off rho t q ltac:(lra)). fold (E t) in N2. unfold Cdiv. rewrite !Cmod_mult, Cmod_Cpow, Cmod_inv, Cmod_inv by assumption.
  assert (ME : Cmod (E t) = rho) by (apply Cmod_circ; lra). rewrite ME. apply Rmult_le_compat; [apply Cmod_ge_0| |apply B, Ht|].
  - apply Rmult_le_pos; [apply pow_le; left; apply Rinv_0_lt_compat; lra|]. apply Rmult_le_pos; [lra|]. left. apply Rinv_0_lt_compat. now apply Cmod_gt_0.
  - apply Rmult_le_compat_l; [apply pow_le; left; apply Rinv_0_lt_compat; lra|].
    assert (L : (rho / 2 <= Cmod (E t - q)%C)%R). { assert (X := Cmod_triangle (E t - q) q). replace (E t - q + q) with (E t) in X by ring. lra. }
    apply Rle_trans with (rho * / (rho / 2))%R; [apply Rmult_le_compat_l; [lra|apply Rinv_le_contravar; lra]|]. right. field. lra.
Qed.
Lemma coef_zero n : coef n = 0.
Proof.
  destruct rest_bound as (B & HB & RB).
  induction n as [n IH] using (well_founded_induction Wf_nat.lt_wf).
  assert (EX : forall q, (Cmod q < rho)%R -> forall k, (k <= n)%nat -> rest 0 q = Cpow q k * rest k q).
  { intros q Hq k. induction k as [|k IHk]; intros Hk; [cbn [Cpow]; ring|]. rewrite IHk by lia. rewrite (rest_S k q Hq), (IH k ltac:(lia)). cbn [Cpow]. ring. }
  destruct (Ceq_dec (coef n) 0) as [|N]; [assumption|exfalso]. assert (PN := proj1 (Cmod_gt_0 _) N).
  set (BB := (B * (/ rho) ^ (S n))%R). assert (HBB : (0 < BB)%R) by (apply Rmult_lt_0_compat; [exact HB|apply pow_lt, Rinv_0_lt_compat; lra]).
  destruct (Hz (Rmin (rho / 2) (Cmod (coef n) / BB))) as (w & Hw & Fw). { apply Rmin_pos; [lra|apply Rdiv_lt_0_compat; assumption]. }
  set (q := w - c) in *. assert (Q1 : (Cmod q < rho / 2)%R) by (eapply Rlt_le_trans; [apply Hw|apply Rmin_l]). assert (Q2 : (Cmod q < Cmod (coef n) / BB)%R) by (eapply Rlt_le_trans; [apply Hw|apply Rmin_r]).
  assert (Hq : (Cmod q < rho)%R) by lra. assert (R0 := rest_0 w Hq). fold q in R0. rewrite Fw, Cmult_0_r, (EX q Hq n ltac:(lia)), (rest_S n q Hq) in R0.
  assert (NQ : q <> 0) by (apply Cmod_gt_0; lra). assert (NP : forall k, Cpow q k <> 0) by (induction k as [|k IHk]; cbn [Cpow]; [intros X; apply (f_equal fst) in X; cbn in X; lra|apply Cmult_neq_0; assumption]).
  assert (EQ : coef n + q * rest (S n) q = 0). { replace (coef n + q * rest (S n) q) with (/ Cpow q n * (Cpow q n * (coef n + q * rest (S n) q))) by (field; apply NP). rewrite R0. ring. }
  assert (CM : (Cmod (coef n) <= Cmod q * BB)%R). { replace (coef n) with (- (q * rest (S n) q)) by (replace (coef n) with (coef n + q * rest (S n) q - q * rest (S n) q) by ring; rewrite EQ; ring). rewrite Cmod_opp, Cmod_mult. apply Rmult_le_compat_l; [apply Cmod_ge_0|apply RB; lra]. }
  apply Rmult_lt_compat_r with (r := BB) in Q2; [|exact HBB]. unfold Rdiv in Q2. rewrite Rmult_assoc, Rinv_l in Q2 by lra. lra.
Qed.
Lemma zeros_half u : (Cmod (u - c)%C <= rho / 2)%R -> f u = 0.
Proof.
  intros Hu. set (q := u - c) in *. assert (Hq : (Cmod q < rho)%R) by (unfold q in *; lra). destruct rest_bound as (B & HB & RB).
  assert (EX : forall k, rest 0 q = Cpow q k * rest k q). { intros k. induction k as [|k IHk]; [cbn [Cpow]; ring|]. rewrite IHk, (rest_S k q Hq), coef_zero. cbn [Cpow]. ring. }
  assert (R0 := rest_0 u Hq). fold q in R0. assert (T := two_pi_pos). assert (NT : RtoC (2 * PI) <> 0) by (intros X; apply RtoC_inj in X; lra).
  destruct (Ceq_dec (f u) 0) as [|N]; [assumption|exfalso]. assert (PN := proj1 (Cmod_gt_0 _) N).
  assert (P : forall k, (Cmod (RtoC (2 * PI) * f u)%C <= (1 / 2) ^ k * B)%R).
  { intros k. rewrite <- R0, (EX k), Cmod_mult, Cmod_Cpow. apply Rle_trans with ((rho / 2) ^ k * (B * (/ rho) ^ k))%R.
    - apply Rmult_le_compat; [apply pow_le, Cmod_ge_0|apply Cmod_ge_0|apply pow_incr; split; [apply Cmod_ge_0|exact Hu]|apply RB, Hu].
    - right. replace ((1 / 2) ^ k)%R with ((rho / 2) ^ k * (/ rho) ^ k)%R; [ring|]. rewrite <- Rpow_mult_distr. f_equal. field. lra. }
  destruct (pow_to_0 (1 / 2) B ltac:(lra) ltac:(lra) (Cmod (RtoC (2 * PI) * f u)%C)) as (k & Hk). { rewrite Cmod_mult. apply Rmult_lt_0_compat; [apply Cmod_gt_0; exact NT|exact PN]. }
  specialize (P k). lra.
Qed.
End Zeros.

(** ** the identity theorem *)
Definition opn (U : C -> Prop) : Prop := forall w, U w -> exists r, (0 < r)%R /\ forall v, (Cmod (v - w)%C < r)%R -> U v.
Definition star (U : C -> Prop) (p : C) : Prop := forall q s, U q -> (0 <= s <= 1)%R -> U (p + RtoC s * (q - p)).
Definition hol (U : C -> Prop) (f f' : C -> C) : Prop := forall w, U w -> is_cderive f w (f' w) /\ ccat f' w.
Definition accum (f : C -> C) (p : C) : Prop := forall d, (0 < d)%R -> exists w, (0 < Cmod (w - p)%C < d)%R /\ f w = 0.
Lemma accum_disc U f f' p : opn U -> hol U f f' -> U p -> accum f p -> exists d, (0 < d)%R /\ forall w, (Cmod (w - p)%C < d)%R -> f w = 0.
Proof.
  intros O H P A. destruct (O p P) as (r & Hr & B). exists (r / 4)%R. split; [lra|]. intros w Hw. apply (zeros_half f f' p r) with (rho := (r / 2)%R); [intros v Hv; apply H, B, Hv|exact A|lra|lra].
Qed.
Theorem identity U f f' p : opn U -> star U p -> hol U f f' -> accum f p -> U p -> forall q, U q -> f q = 0.
Proof.
  intros O S H A P q Q. destruct (Ceq_dec q p) as [E|E].
  { destruct (accum_disc U f f' p O H P A) as (d & Hd & B). rewrite E. apply B. replace (p - p) with (RtoC 0) by ring. now rewrite Cmod_0. }
  assert (NE : q - p <> 0) by (intros X; apply E; replace q with (q - p + p) by ring; rewrite X; ring). assert (L := proj1 (Cmod_gt_0 _) NE).
  set (ga := fun s : R => p + RtoC s * (q - p)). assert (GU : forall s, (0 <= s <= 1)%R -> U (ga s)) by (intros s Hs; apply S; assumption).
  assert (GD : forall s t, Cmod (ga s - ga t)%C = (Rabs (s - t) * Cmod (q - p)%C)%R). { intros s t. unfold ga. replace (p + RtoC s * (q - p) - (p + RtoC t * (q - p))) with (RtoC (s - t) * (q - p)) by (rewrite RtoC_minus; ring). now rewrite Cmod_mult, Cmod_R. }
  set (Z := fun s : R => (0 <= s <= 1)%R /\ forall t, (0 <= t <= s)%R -> f (ga t) = 0).
  assert (Zb : bound Z) by (exists 1%R; intros s [Hs _]; lra).
  destruct (accum_disc U f f' p O H P A) as (d0 & Hd0 & B0).
  assert (G0 : ga 0%R = p) by (unfold ga; ring).
  set (s0 := Rmin 1 (d0 / 2 / Cmod (q - p)%C)). assert (H0 : (0 < s0 <= 1)%R) by (unfold s0; split; [apply Rmin_pos; [lra|apply Rdiv_lt_0_compat; lra]|apply Rmin_l]).
  assert (Z0 : Z s0).
  { split; [lra|]. intros t Ht. apply B0. rewrite <- G0, GD, Rminus_0_r, Rabs_pos_eq by lra. apply Rle_lt_trans with (d0 / 2)%R; [|lra]. apply Rle_trans with (d0 / 2 / Cmod (q - p)%C * Cmod (q - p)%C)%R; [|right; field; lra].
    apply Rmult_le_compat_r; [lra|]. apply Rle_trans with s0; [lra|apply Rmin_r]. }
  destruct (completeness Z Zb (ex_intro _ _ Z0)) as (m & U1 & U2). assert (M0 : (s0 <= m)%R) by (apply U1, Z0). assert (M1 : (m <= 1)%R) by (apply U2; intros s [Hs _]; lra).
  assert (BELOW : forall t, (0 <= t < m)%R -> f (ga t) = 0).
  { intros t Ht. apply NNPP. intros N. assert (m <= t)%R; [|lra]. apply U2. intros s [Hs Zs]. destruct (Rle_dec s t); [assumption|]. exfalso. apply N, Zs. lra. }
  destruct (accum_disc U f f' (ga m) O H (GU m ltac:(lra))) as (d & Hd & B).
  { intros d Hd. set (h := Rmin (m / 2) (d / 2 / Cmod (q - p)%C)). assert (Hh : (0 < h)%R) by (apply Rmin_pos; [lra|apply Rdiv_lt_0_compat; lra]). assert (h <= m / 2)%R by apply Rmin_l.
    exists (ga (m - h)%R). rewrite GD. replace (m - h - m)%R with (- h)%R by ring. rewrite Rabs_Ropp, Rabs_pos_eq by lra. split; [split; [apply Rmult_lt_0_compat; lra|]|apply BELOW; lra].
    apply Rle_lt_trans with (d / 2)%R; [|lra]. apply Rle_trans with (d / 2 / Cmod (q - p)%C * Cmod (q - p)%C)%R; [|right; field; lra]. apply Rmult_le_compat_r; [lra|apply Rmin_r]. }
  assert (ME : m = 1%R).
  { destruct (Req_EM_T m 1) as [|N]; [assumption|exfalso]. set (h := Rmin (1 - m) (d / 2 / Cmod (q - p)%C)). assert (Hh : (0 < h)%R) by (apply Rmin_pos; [lra|apply Rdiv_lt_0_compat; lra]). assert (h <= 1 - m)%R by apply Rmin_l.
    assert (m + h <= m)%R; [|lra]. apply U1. split; [lra|]. intros t Ht. destruct (Rlt_dec t m); [apply BELOW; lra|]. apply B. rewrite GD, Rabs_pos_eq by lra.
    apply Rle_lt_trans with (d / 2)%R; [|lra]. apply Rle_trans with (d / 2 / Cmod (q - p)%C * Cmod (q - p)%C)%R; [|right; field; lra]. apply Rmult_le_compat_r; [lra|]. apply Rle_trans with h; [lra|apply Rmin_r]. }
  replace q with (ga m) by (rewrite ME; unfold ga; ring). apply B. rewrite GD, Rminus_eq_0, Rabs_R0. lra.
Qed.
