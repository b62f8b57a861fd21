(** * Exchange of integrals and periodic functions *)
From Coq Require Import Reals Lra Lia.
From Coquelicot Require Import Coquelicot.
From Verif Require Import Base CBase CExp Fourier_Filon LatInt_Proofs LatInt_Hilbert.
Local Open Scope R_scope.

Definition lip2 (L : R) (g : R -> R -> R) : Prop := forall u v u' v', Rabs (g u v - g u' v') <= L * (Rabs (u - u') + Rabs (v - v')).
Lemma lip_cont L (f : R -> R) x : (forall u u', Rabs (f u - f u') <= L * Rabs (u - u')) -> continuous f x.
Proof.
  intros H. assert (HL : 0 <= L). { specialize (H 1 0). rewrite Rminus_0_r, Rabs_R1 in H. assert (Q := Rabs_pos (f 1 - f 0)). lra. }
  apply continuity_pt_filterlim. intros e He. exists (e / (L + 1)). split; [apply Rdiv_lt_0_compat; lra|].
  intros y [_ Hy]. unfold dist in *; cbn in *. unfold R_dist in *. apply Rle_lt_trans with (1 := H y x).
  assert (A := Rabs_pos (y - x)). apply Rmult_lt_compat_r with (r := L + 1) in Hy; [|lra]. unfold Rdiv in Hy. rewrite Rmult_assoc, Rinv_l in Hy by lra. nra.
Qed.
Section Fub.
Variables (L : R) (g : R -> R -> R).
Hypothesis HL : lip2 L g.
Lemma L_pos : 0 <= L.
Proof. assert (H := HL 1 0 0 0). rewrite !Rminus_0_r, Rabs_R1, Rabs_R0 in H. assert (Q := Rabs_pos (g 1 0 - g 0 0)). lra. Qed.
Lemma g_lip1 v u u' : Rabs (g u v - g u' v) <= L * Rabs (u - u').
Proof. assert (H := HL u v u' v). rewrite (Rminus_eq_0 v), Rabs_R0, Rplus_0_r in H. exact H. Qed.
Lemma g_lip2 u v v' : Rabs (g u v - g u v') <= L * Rabs (v - v').
Proof. assert (H := HL u v u v'). rewrite (Rminus_eq_0 u), Rabs_R0, Rplus_0_l in H. exact H. Qed.
Lemma g_ex1 v a b : ex_RInt (fun u => g u v) a b.
Proof. apply (ex_RInt_continuous (V := R_CompleteNormedModule)). intros x _. apply (lip_cont L). intros. apply g_lip1. Qed.
Lemma g_ex2 u a b : ex_RInt (fun v => g u v) a b.
Proof. apply (ex_RInt_continuous (V := R_CompleteNormedModule)). intros x _. apply (lip_cont L). intros. apply g_lip2. Qed.
Lemma RInt_bound (f : R -> R) a b l M : is_RInt f a b l -> (forall x, Rmin a b <= x <= Rmax a b -> Rabs (f x) <= M) -> Rabs l <= M * Rabs (b - a).
Proof.
  intros H B. destruct (Rle_dec a b) as [Hab|Hab].
  - rewrite (Rabs_pos_eq (b - a)) by lra. rewrite Rmult_comm. apply (norm_RInt_le_const (V := R_NormedModule) f a b l M Hab); [|exact H].
    intros x Hx. apply B. rewrite Rmin_left, Rmax_right by lra. exact Hx.
  - rewrite (Rabs_left (b - a)) by lra. replace (M * - (b - a)) with ((a - b) * M) by ring. rewrite <- Rabs_Ropp.
    apply (norm_RInt_le_const (V := R_NormedModule) f b a (- l) M); [lra| |apply (is_RInt_swap (V := R_NormedModule)), H].
    intros x Hx. apply B. rewrite Rmin_right, Rmax_left by lra. exact Hx.
Qed.
Definition inner2 (c d u : R) : R := RInt (fun v => g u v) c d.
Definition inner1 (a x v : R) : R := RInt (fun u => g u v) a x.
Lemma inner2_lip c d u u' : Rabs (inner2 c d u - inner2 c d u') <= L * Rabs (d - c) * Rabs (u - u').
Proof.
  replace (L * Rabs (d - c) * Rabs (u - u')) with (L * Rabs (u - u') * Rabs (d - c)) by ring. apply (RInt_bound (fun v => g u v - g u' v) c d).
  - apply (is_RInt_minus (V := R_NormedModule)); apply (RInt_correct (V := R_CompleteNormedModule)), g_ex2.
  - intros v _. apply g_lip1.
Qed.
Lemma inner1_lip a x v v' : Rabs (inner1 a x v - inner1 a x v') <= L * Rabs (x - a) * Rabs (v - v').
Proof.
  replace (L * Rabs (x - a) * Rabs (v - v')) with (L * Rabs (v - v') * Rabs (x - a)) by ring. apply (RInt_bound (fun u => g u v - g u v') a x).
  - apply (is_RInt_minus (V := R_NormedModule)); apply (RInt_correct (V := R_CompleteNormedModule)), g_ex1.
  - intros u _. apply g_lip2.
Qed.
Lemma inner1_ex a x c d : ex_RInt (inner1 a x) c d.
Proof. apply (ex_RInt_continuous (V := R_CompleteNormedModule)). intros v _. apply (lip_cont (L * Rabs (x - a))). intros. apply inner1_lip. Qed.
Variables (a b c d : R).
Definition outer (x : R) : R := RInt (inner1 a x) c d.
Lemma outer_derive x : is_derive outer x (inner2 c d x).
Proof.
  apply is_derive_Reals. intros e He. assert (P := L_pos). set (w := Rabs (d - c)). assert (W : 0 <= w) by apply Rabs_pos.
  assert (Q : 0 < e / (L * w + 1)) by (apply Rdiv_lt_0_compat; nra).
  exists (mkposreal _ Q). intros h Hh Bh. cbn in Bh.
  assert (E : is_RInt (fun v => inner1 a (x + h) v - inner1 a x v - h * g x v) c d (outer (x + h) - outer x - h * inner2 c d x)).
  { apply (is_RInt_minus (V := R_NormedModule)); [apply (is_RInt_minus (V := R_NormedModule))|apply (is_RInt_scal (V := R_NormedModule))]; apply (RInt_correct (V := R_CompleteNormedModule)); [apply inner1_ex|apply inner1_ex|apply g_ex2]. }
  assert (B : Rabs (outer (x + h) - outer x - h * inner2 c d x) <= L * Rabs h * Rabs h * w).
  { apply (RInt_bound _ c d _ _ E). intros v _.
    assert (I : is_RInt (fun u => g u v - g x v) x (x + h) (inner1 a (x + h) v - inner1 a x v - h * g x v)).
    { apply (is_RInt_minus (V := R_NormedModule)).
      - assert (A1 : is_RInt (fun u => g u v) a x (inner1 a x v)) by (apply (RInt_correct (V := R_CompleteNormedModule)), g_ex1).
        assert (A2 : is_RInt (fun u => g u v) a (x + h) (inner1 a (x + h) v)) by (apply (RInt_correct (V := R_CompleteNormedModule)), g_ex1).
        apply (is_RInt_swap (V := R_NormedModule)) in A1. assert (A := is_RInt_Chasles (V := R_NormedModule) _ _ _ _ _ _ A1 A2). evar_last; [exact A|]. unfold plus, opp; cbn. ring.
      - evar_last; [apply (is_RInt_const (V := R_NormedModule))|]. unfold scal; cbn. unfold mult; cbn. ring. }
    apply (RInt_bound _ _ _ _ (L * Rabs h)) in I. { replace (x + h - x) with h in I by ring. exact I. }
    intros u Hu. apply Rle_trans with (1 := g_lip1 v u x). apply Rmult_le_compat_l; [exact P|].
    revert Hu. unfold Rmin, Rmax. repeat destruct Rle_dec; intros; unfold Rabs; repeat destruct Rcase_abs; lra. }
  replace ((outer (x + h) - outer x) / h - inner2 c d x) with ((outer (x + h) - outer x - h * inner2 c d x) / h) by (field; exact Hh).
  unfold Rdiv. rewrite Rabs_mult, Rabs_inv. assert (Ah := Rabs_pos_lt h Hh).
  apply Rle_lt_trans with (L * Rabs h * Rabs h * w * / Rabs h); [apply Rmult_le_compat_r; [left; apply Rinv_0_lt_compat, Ah|exact B]|].
  replace (L * Rabs h * Rabs h * w * / Rabs h) with (L * w * Rabs h) by (field; lra).
  apply Rmult_lt_compat_r with (r := L * w + 1) in Bh; [|nra]. unfold Rdiv in Bh. rewrite Rmult_assoc, Rinv_l in Bh by nra. nra.
Qed.
Lemma fubini : is_RInt (inner2 c d) a b (RInt (inner1 a b) c d).
Proof.
  assert (H : is_RInt (inner2 c d) a b (minus (outer b) (outer a))).
  { apply (is_RInt_derive (V := R_CompleteNormedModule) outer); intros x _; [apply outer_derive|]. apply (lip_cont (L * Rabs (d - c))). intros. apply inner2_lip. }
  evar_last; [exact H|]. change (outer b + - outer a = outer b)%R. cut (outer a = 0%R); [intros ->; ring|]. unfold outer.
  apply (is_RInt_unique (V := R_CompleteNormedModule)). apply (is_RInt_ext (fun _ => 0)). { intros v _. unfold inner1. symmetry. apply (RInt_point (V := R_CompleteNormedModule)). }
  evar_last; [apply (is_RInt_const (V := R_NormedModule))|]. unfold scal; cbn. unfold mult; cbn. ring.
Qed.
End Fub.

(** ** complex valued functions *)
Local Open Scope C_scope.
Definition clip2 (L : R) (g : R -> R -> C) : Prop := forall u v u' v', (Cmod (g u v - g u' v')%C <= L * (Rabs (u - u') + Rabs (v - v')))%R.
Lemma clip2_fst L g : clip2 L g -> lip2 L (fun u v => fst (g u v)).
Proof. intros H u v u' v'. eapply Rle_trans; [|apply (H u v u' v')]. change (fst (g u v) - fst (g u' v'))%R with (fst (g u v - g u' v')). eapply Rle_trans; [|apply Rmax_Cmod]. apply Rmax_l. Qed.
Lemma clip2_snd L g : clip2 L g -> lip2 L (fun u v => snd (g u v)).
Proof. intros H u v u' v'. eapply Rle_trans; [|apply (H u v u' v')]. change (snd (g u v) - snd (g u' v'))%R with (snd (g u v - g u' v')). eapply Rle_trans; [|apply Rmax_Cmod]. apply Rmax_r. Qed.
Lemma clip2_cont1 L g v x : clip2 L g -> ccont (fun u => g u v) x.
Proof. intros H. split; apply (lip_cont L); intros u u'; [apply (g_lip1 L _ (clip2_fst L g H))|apply (g_lip1 L _ (clip2_snd L g H))]. Qed.
Lemma clip2_cont2 L g u x : clip2 L g -> ccont (fun v => g u v) x.
Proof. intros H. split; apply (lip_cont L); intros v v'; [apply (g_lip2 L _ (clip2_fst L g H))|apply (g_lip2 L _ (clip2_snd L g H))]. Qed.
Lemma cfubini L g a b c d : clip2 L g -> is_CInt (fun u => CInt (fun v => g u v) c d) a b (CInt (fun v => CInt (fun u => g u v) a b) c d).
Proof. intros H. split; [apply (fubini L _ (clip2_fst L g H))|apply (fubini L _ (clip2_snd L g H))]. Qed.
Lemma cfubini_cont L g c d x : clip2 L g -> ccont (fun u => CInt (fun v => g u v) c d) x.
Proof. intros H. split; apply (lip_cont (L * Rabs (d - c))); intros u u'; [apply (inner2_lip L _ (clip2_fst L g H))|apply (inner2_lip L _ (clip2_snd L g H))]. Qed.

(** ** periodic functions *)
Lemma periodic_shift (f : R -> C) (T s : R) l : (forall x, ccont f x) -> (forall x, f (x + T)%R = f x) -> is_CInt f 0 T l -> is_CInt f s (s + T) l.
Proof.
  intros Hc Hp Hl. assert (A : is_CInt f s 0 (CInt f s 0)) by (apply CInt_ok; intros; apply Hc).
  assert (B : is_CInt f T (s + T) (- CInt f s 0)).
  { apply is_CInt_swap in A. apply (is_CInt_shift _ _ _ _ T) in A. rewrite Rplus_0_l in A. apply is_CInt_ext with (2 := A). intros x _. rewrite <- (Hp (x - T)%R). f_equal. ring. }
  eapply is_CInt_eq; [apply is_CInt_chasles with (1 := A); apply is_CInt_chasles with (1 := Hl); exact B|]. ring.
Qed.
Lemma periodic_any (f : R -> C) (T s s' : R) l : (forall x, ccont f x) -> (forall x, f (x + T)%R = f x) -> is_CInt f s (s + T) l -> is_CInt f s' (s' + T) l.
Proof.
  intros Hc Hp Hl. assert (H0 : is_CInt f 0 T (CInt f 0 T)) by (apply CInt_ok; intros; apply Hc).
  assert (H1 := periodic_shift f T s _ Hc Hp H0). rewrite (is_CInt_unique _ _ _ _ _ Hl H1). now apply periodic_shift.
Qed.
Lemma is_CInt_double (f : R -> C) a b l : is_CInt f (2 * a) (2 * b) l -> is_CInt (fun q => 2 * f (2 * q)%R) a b l.
Proof.
  intros [A B].
  assert (X : forall g m, is_RInt (V := R_NormedModule) g (2 * a) (2 * b) m -> is_RInt (V := R_NormedModule) (fun q => 2 * g (2 * q))%R a b m).
  { intros g m H. rewrite <- (Rplus_0_r (2 * a)), <- (Rplus_0_r (2 * b)) in H. apply (is_RInt_comp_lin (V := R_NormedModule)) in H.
    apply (is_RInt_ext (V := R_NormedModule)) with (2 := H). intros x _. unfold scal; cbn. unfold mult; cbn. now rewrite Rplus_0_r. }
  split; [apply X in A; revert A|apply X in B; revert B]; apply (is_RInt_ext (V := R_NormedModule)); intros x _; cbn [fst snd Cmult RtoC]; match goal with |- ?p = ?q => change (@eq R p q) end; ring.
Qed.
