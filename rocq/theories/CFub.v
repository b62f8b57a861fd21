(** * Integrals of continuous functions of several variables: continuity in the parameters, exchange of the order *)
From Coq Require Import Reals Lra.
From Coquelicot Require Import Coquelicot.
From Verif Require Import Base CBase CExp Fourier_Filon LatInt_Proofs CAnal CHol.
Local Open Scope C_scope.

(** ** continuity on a space given by a distance *)
Definition pcat {T : Type} (dist : T -> T -> R) (f : T -> C) (p : T) : Prop :=
  forall e, (0 < e)%R -> exists d, (0 < d)%R /\ forall p', (dist p' p < d)%R -> (Cmod (f p' - f p)%C < e)%R.
Definition dR (x y : R) : R := Rabs (x - y).
Definition dC (x y : C) : R := Cmod (x - y).
Definition dprod {S T : Type} (dS : S -> S -> R) (dT : T -> T -> R) (p q : S * T) : R := Rmax (dS (fst p) (fst q)) (dT (snd p) (snd q)).
Section PC.
Context {T : Type} (dist : T -> T -> R).
Lemma pc_const c p : pcat dist (fun _ => c) p.
Proof. intros e He. exists 1%R. split; [lra|]. intros p' _. replace (c - c) with (RtoC 0) by ring. now rewrite Cmod_0. Qed.
Lemma pc_comp f g p : ccat f (g p) -> pcat dist g p -> pcat dist (fun p => f (g p)) p.
Proof. intros Hf Hg e He. destruct (proj1 (ccat_eps f _) Hf e He) as (d & Hd & B). destruct (Hg d Hd) as (d2 & Hd2 & B2). exists d2. split; [exact Hd2|]. intros p' H. apply B, B2, H. Qed.
Lemma pc_real F (q : T -> R) p : ccont F (q p) -> (forall e, (0 < e)%R -> exists d, (0 < d)%R /\ forall p', (dist p' p < d)%R -> (Rabs (q p' - q p) < e)%R) -> pcat dist (fun p => F (q p)) p.
Proof. intros Hf Hg e He. destruct (proj1 (ccont_eps F _) Hf e He) as (d & Hd & B). destruct (Hg d Hd) as (d2 & Hd2 & B2). exists d2. split; [exact Hd2|]. intros p' H. apply B, B2, H. Qed.
Lemma pc_plus g k p : pcat dist g p -> pcat dist k p -> pcat dist (fun p => g p + k p) p.
Proof.
  intros Hg Hk e He. destruct (Hg (e / 2)%R ltac:(lra)) as (d1 & Hd1 & B1). destruct (Hk (e / 2)%R ltac:(lra)) as (d2 & Hd2 & B2). exists (Rmin d1 d2). split; [apply Rmin_pos; assumption|].
  intros p' H1. assert (L1 := Rmin_l d1 d2). assert (L2 := Rmin_r d1 d2). replace (g p' + k p' - (g p + k p)) with ((g p' - g p) + (k p' - k p)) by ring.
  eapply Rle_lt_trans; [apply Cmod_triangle|]. specialize (B1 p' ltac:(lra)). specialize (B2 p' ltac:(lra)). lra.
Qed.
Lemma pc_mult g k p : pcat dist g p -> pcat dist k p -> pcat dist (fun p => g p * k p) p.
Proof.
  intros Hg Hk e He. set (A := (Cmod (g p) + 1)%R). set (B := (Cmod (k p) + 1)%R). assert (PA := Cmod_ge_0 (g p)). assert (PB := Cmod_ge_0 (k p)). assert (HA : (0 < A)%R) by (unfold A; lra). assert (HB : (0 < B)%R) by (unfold B; lra).
  destruct (Hg (Rmin 1 (e / (2 * B)))%R) as (d1 & Hd1 & B1). { apply Rmin_pos; [lra|apply Rdiv_lt_0_compat; lra]. }
  destruct (Hk (e / (2 * A))%R) as (d2 & Hd2 & B2). { apply Rdiv_lt_0_compat; lra. }
  exists (Rmin d1 d2). split; [apply Rmin_pos; assumption|]. intros p' H1. assert (L1 := Rmin_l d1 d2). assert (L2 := Rmin_r d1 d2).
  specialize (B1 p' ltac:(lra)). specialize (B2 p' ltac:(lra)). assert (M1 := Rmin_l 1 (e / (2 * B))). assert (M2 := Rmin_r 1 (e / (2 * B))).
  replace (g p' * k p' - g p * k p) with (g p' * (k p' - k p) + (g p' - g p) * k p) by ring. eapply Rle_lt_trans; [apply Cmod_triangle|]. rewrite !Cmod_mult.
  assert (GA : (Cmod (g p') <= A)%R). { replace (g p') with ((g p' - g p) + g p) by ring. eapply Rle_trans; [apply Cmod_triangle|]. unfold A. lra. }
  assert (P1 : (Cmod (g p') * Cmod (k p' - k p)%C <= A * (e / (2 * A)))%R) by (apply Rmult_le_compat; [apply Cmod_ge_0|apply Cmod_ge_0|exact GA|lra]).
  assert (P2 : (Cmod (g p' - g p)%C * Cmod (k p) < (e / (2 * B)) * B)%R). { apply Rle_lt_trans with ((e / (2 * B)) * Cmod (k p))%R; [apply Rmult_le_compat_r; lra|]. apply Rmult_lt_compat_l; [apply Rdiv_lt_0_compat; lra|unfold B; lra]. }
  replace (A * (e / (2 * A)))%R with (e / 2)%R in P1 by (field; lra). replace (e / (2 * B) * B)%R with (e / 2)%R in P2 by (field; lra). lra.
Qed.
Lemma pc_inv (g : T -> C) p : g p <> 0 -> pcat dist g p -> pcat dist (fun p => / g p) p.
Proof. intros N H. apply (pc_comp (fun z => / z)); [apply ccat_inv, N|exact H]. Qed.
Lemma pc_minus g k p : pcat dist g p -> pcat dist k p -> pcat dist (fun p => g p - k p) p.
Proof.
  intros H1 H2. apply (pc_plus g (fun p => - k p)); [exact H1|]. apply (pc_comp (fun z => - z)); [apply (ccat_opp (fun z => z)), ccat_id|exact H2].
Qed.
Lemma pc_ext f g p : (forall q, f q = g q) -> pcat dist f p -> pcat dist g p.
Proof. intros E H e He. destruct (H e He) as (d & Hd & B). exists d. split; [exact Hd|]. intros p' Hp. rewrite <- !E. apply B, Hp. Qed.
(** an integral is continuous in its parameters *)
Hypothesis d0 : forall p, dist p p = 0%R.
Lemma pc_slice (g : T * R -> C) p t : pcat (dprod dist dR) g (p, t) -> ccont (fun t => g (p, t)) t.
Proof.
  intros H. apply ccont_eps. intros e He. destruct (H e He) as (d & Hd & B). exists d. split; [exact Hd|]. intros t' Ht. apply (B (p, t')). unfold dprod. cbn [fst snd]. rewrite d0. apply Rmax_lub_lt; [exact Hd|exact Ht].
Qed.
Lemma pc_int (g : T * R -> C) a b p : (a <= b)%R -> (forall t, (a <= t <= b)%R -> pcat (dprod dist dR) g (p, t)) -> (forall p' t, ccont (fun t => g (p', t)) t) -> pcat dist (fun p => CInt (fun t => g (p, t)) a b) p.
Proof.
  intros Hab G1 GC e He. set (e' := (e / (4 * (b - a + 1)))%R). assert (He' : (0 < e')%R) by (apply Rdiv_lt_0_compat; lra).
  destruct (unif a b (fun t d => forall p', (dist p' p < d)%R -> (Cmod (g (p', t) - g (p, t))%C <= e')%R) Hab) as (d & Hd & B).
  - intros t d d' H Hd p' Hp. apply H. lra.
  - intros t Ht. destruct (G1 t Ht (e' / 2)%R ltac:(lra)) as (d & Hd & B). exists d. split; [exact Hd|]. intros t' Ht' p' Hp.
    assert (X1 := B (p', t') ltac:(unfold dprod; cbn [fst snd]; apply Rmax_lub_lt; [exact Hp|exact Ht'])). assert (X2 := B (p, t') ltac:(unfold dprod; cbn [fst snd]; rewrite d0; apply Rmax_lub_lt; [exact Hd|exact Ht'])).
    replace (g (p', t') - g (p, t')) with ((g (p', t') - g (p, t)) + - (g (p, t') - g (p, t))) by ring. eapply Rle_trans; [apply Cmod_triangle|]. rewrite Cmod_opp. lra.
  - exists d. split; [exact Hd|]. intros p' Hp. assert (I1 : is_CInt (fun t => g (p', t)) a b (CInt (fun t => g (p', t)) a b)) by (apply CInt_ok; intros t _; apply GC). assert (I2 : is_CInt (fun t => g (p, t)) a b (CInt (fun t => g (p, t)) a b)) by (apply CInt_ok; intros t _; apply GC).
    assert (I := is_CInt_minus _ _ _ _ _ _ I1 I2). apply (CInt_bound _ a b _ e' Hab) in I; [|intros t Ht; apply B; assumption]. eapply Rle_lt_trans; [exact I|].
    unfold e'. apply Rmult_lt_reg_r with (4 * (b - a + 1))%R; [lra|]. replace (2 * (e / (4 * (b - a + 1)) * (b - a)) * (4 * (b - a + 1)))%R with (2 * e * (b - a))%R by (field; lra). nra.
Qed.
End PC.
Lemma pc_of_ccont F t : ccont F t -> pcat dR F t.
Proof. intros H e He. destruct (proj1 (ccont_eps F t) H e He) as (d & Hd & B). exists d. split; assumption. Qed.
Lemma ccont_of_pc F t : pcat dR F t -> ccont F t.
Proof. intros H. apply ccont_eps. exact H. Qed.
Lemma cc2_of_pc g s t : pcat (dprod dR dR) (fun p => g (fst p) (snd p)) (s, t) -> cc2 g s t.
Proof. intros H e He. destruct (H e He) as (d & Hd & B). exists d. split; [exact Hd|]. intros s' t' H1 H2. apply (B (s', t')). apply Rmax_lub_lt; assumption. Qed.
Lemma pc_of_cc2 g s t : cc2 g s t -> pcat (dprod dR dR) (fun p => g (fst p) (snd p)) (s, t).
Proof. intros H e He. destruct (H e He) as (d & Hd & B). exists d. split; [exact Hd|]. intros [s' t'] H1. apply B; (eapply Rle_lt_trans; [|exact H1]); [apply Rmax_l|apply Rmax_r]. Qed.
Lemma ccr_of_pc g m t : pcat (dprod dC dR) (fun p => g (fst p) (snd p)) (m, t) -> ccr g m t.
Proof. intros H e He. destruct (H e He) as (d & Hd & B). exists d. split; [exact Hd|]. intros s' t' H1 H2. apply (B (s', t')). apply Rmax_lub_lt; assumption. Qed.
Lemma dR0 x : dR x x = 0%R. Proof. unfold dR. now rewrite Rminus_eq_0, Rabs_R0. Qed.
Lemma dC0 x : dC x x = 0%R. Proof. unfold dC. replace (x - x) with (RtoC 0) by ring. apply Cmod_0. Qed.
Lemma dprod0 {S T} (dS : S -> S -> R) (dT : T -> T -> R) : (forall x, dS x x = 0%R) -> (forall x, dT x x = 0%R) -> forall p, dprod dS dT p p = 0%R.
Proof. intros A B p. unfold dprod. rewrite A, B. apply Rmax_left. lra. Qed.
(** ** exchange of the order of integration *)
Section Fub.
Variable g : R -> R -> C.
Hypothesis G : forall s t, cc2 g s t.
Lemma fub_1 s v : ccont (fun u => g u v) s.
Proof. apply ccont_eps. intros e He. destruct (G s v e He) as (d & Hd & B). exists d. split; [exact Hd|]. intros t' Ht. apply B; [exact Ht|]. rewrite Rminus_eq_0, Rabs_R0. exact Hd. Qed.
Lemma fub_swap s t : cc2 (fun s t => g t s) s t.
Proof. intros e He. destruct (G t s e He) as (d & Hd & B). exists d. split; [exact Hd|]. intros s' t' H1 H2. apply B; assumption. Qed.
Lemma fub_cont a b v : (a <= b)%R -> ccont (fun v => CInt (fun u => g u v) a b) v.
Proof.
  intros Hab. apply ccont_of_pc. apply (pc_int dR dR0 (fun p => g (snd p) (fst p)) a b v Hab).
  - intros t _. apply (pc_of_cc2 (fun s t => g t s)), fub_swap.
  - intros p' t. apply fub_1.
Qed.
Lemma rcd_int (f : R -> C) a x : (forall t, ccont f t) -> rcd (fun x => CInt f a x) x (f x).
Proof.
  intros H. split; cbn [fst snd CInt].
  - apply (is_derive_RInt (V := R_CompleteNormedModule) (fun t => fst (f t)) (fun x => RInt (fun t => fst (f t)) a x) a x); [|apply H]. apply filter_forall. intros y. apply (RInt_correct (V := R_CompleteNormedModule)). apply (ex_RInt_continuous (V := R_CompleteNormedModule)). intros z _. apply H.
  - apply (is_derive_RInt (V := R_CompleteNormedModule) (fun t => snd (f t)) (fun x => RInt (fun t => snd (f t)) a x) a x); [|apply H]. apply filter_forall. intros y. apply (RInt_correct (V := R_CompleteNormedModule)). apply (ex_RInt_continuous (V := R_CompleteNormedModule)). intros z _. apply H.
Qed.
Variables a b c d : R.
Hypothesis Hcd : (c <= d)%R.
Lemma fub_outer x : rcd (fun x => CInt (fun v => CInt (fun u => g u v) a x) c d) x (CInt (fun v => g x v) c d).
Proof.
  assert (V : forall y v, ccont (fun v => CInt (fun u => g u v) a y) v).
  { intros y v. destruct (Rle_dec a y) as [L|L]; [apply fub_cont, L|]. apply ccont_ext with (fun v => - CInt (fun u => g u v) y a).
    - intros t. symmetry. apply CInt_val. apply is_CInt_swap. apply CInt_ok. intros; apply fub_1.
    - apply (ccont_ext (fun v => RtoC 0 - CInt (fun u => g u v) y a)); [intros; ring|]. apply ccont_minus; [apply ccont_const|apply fub_cont; lra]. }
  assert (D : forall y v, rcd (fun y => CInt (fun u => g u v) a y) y (g y v)) by (intros; apply (rcd_int (fun u => g u v)); intros; apply fub_1).
  assert (D1 : forall y v, is_derive (fun y => RInt (fun u => fst (g u v)) a y) y (fst (g y v))) by (intros y v; exact (proj1 (D y v))).
  assert (D2 : forall y v, is_derive (fun y => RInt (fun u => snd (g u v)) a y) y (snd (g y v))) by (intros y v; exact (proj2 (D y v))).
  split; cbn [CInt fst snd].
  - evar_last; [apply (is_derive_RInt_param (fun x v => RInt (fun u => fst (g u v)) a x) c d x)|].
    + apply filter_forall. intros y t _. exists (fst (g y t)). apply D1.
    + intros t _. apply (continuity_2d_pt_ext (fun u v => fst (g u v))); [|apply cc2_fst, G]. intros u v. symmetry. apply is_derive_unique, D1.
    + apply filter_forall. intros y. apply (ex_RInt_continuous (V := R_CompleteNormedModule)). intros t _. exact (proj1 (V y t)).
    + apply RInt_ext. intros t _. apply is_derive_unique, D1.
  - evar_last; [apply (is_derive_RInt_param (fun x v => RInt (fun u => snd (g u v)) a x) c d x)|].
    + apply filter_forall. intros y t _. exists (snd (g y t)). apply D2.
    + intros t _. apply (continuity_2d_pt_ext (fun u v => snd (g u v))); [|apply cc2_snd, G]. intros u v. symmetry. apply is_derive_unique, D2.
    + apply filter_forall. intros y. apply (ex_RInt_continuous (V := R_CompleteNormedModule)). intros t _. exact (proj2 (V y t)).
    + apply RInt_ext. intros t _. apply is_derive_unique, D2.
Qed.
Theorem fub : is_CInt (fun u => CInt (fun v => g u v) c d) a b (CInt (fun v => CInt (fun u => g u v) a b) c d).
Proof.
  eapply is_CInt_eq; [apply (rcd_ftc (fun x => CInt (fun v => CInt (fun u => g u v) a x) c d))|].
  - intros t _. apply fub_outer.
  - intros t _. apply (ccont_of_pc). apply (pc_int dR dR0 (fun p => g (fst p) (snd p)) c d t Hcd); [intros; apply pc_of_cc2, G|]. intros p' t'. apply (cc2_slice g p' t'), G.
  - replace (CInt (fun v => CInt (fun u => g u v) a a) c d) with (RtoC 0); [ring|]. symmetry. apply CInt_val. eapply is_CInt_eq; [apply is_CInt_ext with (2 := is_CInt_const 0 c d); intros v _|ring].
    symmetry. apply C_ext; cbn [fst snd CInt RtoC]; apply (RInt_point (V := R_CompleteNormedModule)).
Qed.
End Fub.
(** ** functions of three real variables *)
Lemma pc_fst {S T} (dS : S -> S -> R) (dT : T -> T -> R) f p : pcat dS f (fst p) -> pcat (dprod dS dT) (fun p => f (fst p)) p.
Proof. intros H e He. destruct (H e He) as (d & Hd & B). exists d. split; [exact Hd|]. intros p' Hp. apply B. eapply Rle_lt_trans; [apply Rmax_l|exact Hp]. Qed.
Lemma pc_snd {S T} (dS : S -> S -> R) (dT : T -> T -> R) f p : pcat dT f (snd p) -> pcat (dprod dS dT) (fun p => f (snd p)) p.
Proof. intros H e He. destruct (H e He) as (d & Hd & B). exists d. split; [exact Hd|]. intros p' Hp. apply B. eapply Rle_lt_trans; [apply Rmax_r|exact Hp]. Qed.
Lemma pc_id t : pcat dR RtoC t. Proof. apply pc_of_ccont. apply (rcd_ccont _ _ _ (rcd_id t)). Qed.
Lemma pc_idC t : pcat dC (fun z => z) t. Proof. intros e He. exists e. split; [exact He|]. intros p' H. exact H. Qed.
Lemma pc_F {T} (dist : T -> T -> R) F (q : T -> R) p : ccont F (q p) -> pcat dist (fun p => RtoC (q p)) p -> pcat dist (fun p => F (q p)) p.
Proof. intros H Q. apply (pc_real dist F q); [exact H|]. intros e He. destruct (Q e He) as (d & Hd & B). exists d. split; [exact Hd|]. intros p' Hp. rewrite <- Cmod_R, RtoC_minus. apply B, Hp. Qed.
Lemma CInt_ex f g a b : (forall x, f x = g x) -> CInt f a b = CInt g a b.
Proof. intros H. apply C_ext; cbn [CInt fst snd]; apply RInt_ext; intros x _; now rewrite H. Qed.
Definition d3 := dprod (dprod dR dR) dR.
Lemma d20 : forall p, dprod dR dR p p = 0%R. Proof. apply dprod0; apply dR0. Qed.
Definition cc3 (g : R -> R -> R -> C) : Prop := forall p, pcat d3 (fun p => g (fst (fst p)) (snd (fst p)) (snd p)) p.
Section Fub3.
Variable g : R -> R -> R -> C.
Hypothesis G : cc3 g.
Variables a b : R.
Hypothesis Hab : (a <= b)%R.
Lemma f3_slice x y t : ccont (g x y) t. Proof. apply (pc_slice (dprod dR dR) d20 _ (x, y) t (G (x, y, t))). Qed.
Lemma f3_is x y : is_CInt (g x y) a b (CInt (g x y) a b). Proof. apply CInt_ok. intros t _. apply f3_slice. Qed.
Lemma f3_cc2 x y : cc2 (fun x y => CInt (g x y) a b) x y.
Proof.
  apply (cc2_of_pc (fun x y => CInt (g x y) a b)). apply (pc_int (dprod dR dR) d20 (fun p => g (fst (fst p)) (snd (fst p)) (snd p)) a b (x, y) Hab).
  - intros t _. apply (G (x, y, t)).
  - intros [x' y'] t. apply f3_slice.
Qed.
Lemma f3_is2 x : is_CInt (fun y => CInt (g x y) a b) a b (CInt (fun y => CInt (g x y) a b) a b).
Proof. apply CInt_ok. intros t _. apply (cc2_slice (fun x y => CInt (g x y) a b)), f3_cc2. Qed.
Lemma f3_is3 : is_CInt (fun x => CInt (fun y => CInt (g x y) a b) a b) a b (CInt (fun x => CInt (fun y => CInt (g x y) a b) a b) a b).
Proof.
  apply CInt_ok. intros t _. apply ccont_of_pc. apply (pc_int dR dR0 (fun p => CInt (g (fst p) (snd p)) a b) a b t Hab).
  - intros s _. apply (pc_of_cc2 (fun x y => CInt (g x y) a b)), f3_cc2.
  - intros p' s. exact (cc2_slice (fun x y => CInt (g x y) a b) p' s (f3_cc2 p' s)).
Qed.
Lemma f3_xt y x t : cc2 (fun x t => g x y t) x t.
Proof.
  intros e He. destruct (G (x, y, t) e He) as (d & Hd & B). exists d. split; [exact Hd|]. intros x' t' H1 H2. apply (B (x', y, t')). unfold d3, dprod. cbn [fst snd]. rewrite dR0. repeat apply Rmax_lub_lt; assumption.
Qed.
Theorem fub3 : CInt (fun x => CInt (fun y => CInt (fun t => g x y t) a b) a b) a b = CInt (fun y => CInt (fun t => CInt (fun x => g x y t) a b) a b) a b.
Proof.
  etransitivity; [exact (CInt_val _ _ _ _ (fub (fun x y => CInt (g x y) a b) f3_cc2 a b a b Hab))|]. apply CInt_ex. intros y.
  apply CInt_val. apply (fub (fun x t => g x y t) (f3_xt y) a b a b Hab).
Qed.
End Fub3.
