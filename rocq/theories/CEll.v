(** * The complete elliptic integral of the first kind as a holomorphic function of its parameter *)
From Coq Require Import Reals Lra Lia Classical.
From Coquelicot Require Import Coquelicot.
From Verif Require Import Base CBase CExp CSqrt Fourier_Filon LatInt_Spec LatInt_Proofs LatInt_Hilbert LatInt_Fubini LatInt_Square LatInt_Legendre CAnal CHol.
Local Open Scope C_scope.

(** numerals for ring *)
Lemma C2e : RtoC 2 = 1 + 1. Proof. rewrite <- RtoC_plus. f_equal. Qed.
Lemma C3e : RtoC 3 = 1 + 1 + 1. Proof. rewrite <- !RtoC_plus. f_equal; ring. Qed.
Lemma C4e : RtoC 4 = (1 + 1) * (1 + 1). Proof. rewrite <- !RtoC_plus, <- RtoC_mult. f_equal; ring. Qed.
Lemma C8e : RtoC 8 = (1 + 1) * (1 + 1) * (1 + 1). Proof. rewrite <- !RtoC_plus, <- !RtoC_mult. f_equal; ring. Qed.
Lemma C16e : RtoC 16 = (1 + 1) * (1 + 1) * ((1 + 1) * (1 + 1)). Proof. rewrite <- !RtoC_plus, <- !RtoC_mult. f_equal; ring. Qed.
Lemma Csub_0 (a b : C) : a - b = 0 -> a = b. Proof. intros H. replace a with (a - b + b) by ring. rewrite H. ring. Qed.
Lemma C11 : (1 + 1 : C) <> 0. Proof. rewrite <- C2e. apply C2_neq0. Qed.
Ltac cnum := rewrite ?(RtoC_div 1 2), ?(RtoC_div 1 4), ?(RtoC_div 3 2), ?(RtoC_div 1 8), ?(RtoC_div 1 16) by lra; rewrite ?C2e, ?C3e, ?C4e, ?C8e, ?C16e.
Ltac cfield := cnum; field; repeat split; try apply C11; try (intros X; apply (f_equal fst) in X; cbn in X; lra).
Ltac cring := cnum; ring.

Definition offK (m : C) : Prop := snd m <> 0%R \/ (fst m < 1)%R.
Definition Kf (m : C) : C := CInt (fun t => 1 / csqrt (1 - m * RtoC (sin t * sin t))) 0 (PI / 2).
Lemma Kf_is m : offK m -> legendre_K m (Kf m). Proof. apply K_ex. Qed.
Lemma Kf_eq m k : legendre_K m k -> k = Kf m. Proof. intros H. symmetry. apply CInt_val, H. Qed.
Lemma half_open_re (x : R) : opn (fun z => (fst z < x)%R).
Proof. intros w Hw. exists (x - fst w)%R. split; [lra|]. intros v Hv. assert (L := Cmod_fst (v - w)). cbn in L. apply Rabs_le_between in L. lra. Qed.
Lemma half_open_re' (x : R) : opn (fun z => (x < fst z)%R).
Proof. intros w Hw. exists (fst w - x)%R. split; [lra|]. intros v Hv. assert (L := Cmod_fst (v - w)). cbn in L. apply Rabs_le_between in L. lra. Qed.
Lemma off_real_open : opn (fun z => snd z <> 0%R).
Proof. intros w Hw. exists (Rabs (snd w)). split; [now apply Rabs_pos_lt|]. intros v Hv. assert (L := Cmod_snd (v - w)). cbn in L. intros E. rewrite E in L. replace (0 + - snd w)%R with (- snd w)%R in L by ring. rewrite Rabs_Ropp in L. lra. Qed.
Lemma opn_or (U V : C -> Prop) : opn U -> opn V -> opn (fun z => U z \/ V z).
Proof. intros A B w [H|H]; [destruct (A w H) as (r & Hr & K)|destruct (B w H) as (r & Hr & K)]; exists r; (split; [exact Hr|]); intros v Hv; [left|right]; apply K, Hv. Qed.
Lemma opn_and (U V : C -> Prop) : opn U -> opn V -> opn (fun z => U z /\ V z).
Proof.
  intros A B w [H1 H2]. destruct (A w H1) as (r1 & Hr1 & K1). destruct (B w H2) as (r2 & Hr2 & K2). exists (Rmin r1 r2). split; [apply Rmin_pos; assumption|].
  intros v Hv. assert (L1 := Rmin_l r1 r2). assert (L2 := Rmin_r r1 r2). split; [apply K1|apply K2]; lra.
Qed.
Lemma offK_open : opn offK. Proof. apply opn_or; [apply off_real_open|apply half_open_re]. Qed.
Lemma offcut_open : opn offcut. Proof. apply opn_or; [apply off_real_open|apply half_open_re']. Qed.
Lemma upper_open : opn (fun z => (0 < snd z)%R).
Proof. intros w Hw. exists (snd w). split; [exact Hw|]. intros v Hv. assert (L := Cmod_snd (v - w)). cbn in L. apply Rabs_le_between in L. lra. Qed.
Lemma lower_open : opn (fun z => (snd z < 0)%R).
Proof. intros w Hw. exists (- snd w)%R. split; [lra|]. intros v Hv. assert (L := Cmod_snd (v - w)). cbn in L. apply Rabs_le_between in L. lra. Qed.
Lemma offK_star : star offK 0.
Proof.
  intros q s Hq Hs. replace (0 + RtoC s * (q - 0)) with (RtoC s * q) by ring. unfold offK in *. cbn. rewrite !Rmult_0_l. rewrite Rminus_0_r, Rplus_0_r.
  destruct (Req_EM_T s 0) as [-> | N]; [right; lra|]. destruct Hq as [H|H]; [left; now apply Rmult_integral_contrapositive_currified|].
  destruct (Req_EM_T (snd q) 0) as [E|E]; [|left; now apply Rmult_integral_contrapositive_currified]. right. destruct (Rle_dec (fst q) 0); nra.
Qed.
Lemma sin2_range t : (0 <= sin t * sin t <= 1)%R. Proof. destruct (SIN_bound t). nra. Qed.
Lemma S_off m t : offK m -> offcut (1 - m * RtoC (sin t * sin t)). Proof. intros H. apply offcut_param; [exact H|apply sin2_range]. Qed.

(** ** the integrals of sin^2p (1 - m sin^2)^(-q/2) *)
Definition ssq (m : C) (t : R) : C := csqrt (1 - m * RtoC (sin t * sin t)).
Definition kf (p q : nat) (m : C) (t : R) : C := Cpow (RtoC (sin t * sin t)) p * Cpow (/ ssq m t) q.
Definition KI (p q : nat) (m : C) : C := CInt (kf p q m) 0 (PI / 2).
Lemma ssq_neq0 m t : offK m -> ssq m t <> 0.
Proof. intros H E. assert (P := csqrt_pos _ (S_off m t H)). unfold ssq in E. rewrite E in P. cbn in P. lra. Qed.
Lemma sin2_cont t : ccont (fun t => RtoC (sin t * sin t)) t.
Proof. apply (ccont_R (fun t => (sin t * sin t)%R)). apply (continuous_mult (K := R_AbsRing)); apply continuity_pt_filterlim, continuity_sin. Qed.
Lemma pow_cont (f : R -> C) n t : ccont f t -> ccont (fun t => Cpow (f t) n) t.
Proof. intros H. induction n as [|n IH]; cbn [Cpow]; [apply ccont_const|now apply ccont_mult]. Qed.
Lemma ccr_pow g n m t : ccr g m t -> ccr (fun m t => Cpow (g m t) n) m t.
Proof. intros H. induction n as [|n IH]; cbn [Cpow]; [apply ccr_const|now apply ccr_mult]. Qed.
Lemma ssq_ccr m t : offK m -> ccr ssq m t.
Proof.
  intros H. apply (ccr_comp csqrt (fun m t => 1 - m * RtoC (sin t * sin t))); [eapply hol_ccat; [apply hol_csqrt|apply S_off, H]|].
  apply (ccr_minus (fun _ _ => 1)); [apply ccr_const|]. apply (ccr_mult (fun m _ => m)); [apply ccr_m|apply (ccr_2 (fun t => RtoC (sin t * sin t))), sin2_cont].
Qed.
Lemma kf_ccr p q m t : offK m -> ccr (kf p q) m t.
Proof.
  intros H. apply (ccr_mult (fun _ t => Cpow (RtoC (sin t * sin t)) p)); [apply (ccr_2 (fun t => Cpow (RtoC (sin t * sin t)) p)), pow_cont, sin2_cont|].
  apply ccr_pow, ccr_inv; [apply ssq_neq0, H|apply ssq_ccr, H].
Qed.
Lemma is_cderive_pow f n z a : is_cderive f z a -> is_cderive (fun z => Cpow (f z) (S n)) z (RtoC (INR (S n)) * Cpow (f z) n * a).
Proof.
  intros H. induction n as [|n IH].
  - cbn [Cpow INR]. replace (1 * 1 * a) with (a * 1 + f z * 0) by ring. apply (is_cderive_mul f (fun _ => 1)); [exact H|apply is_cderive_const].
  - replace (RtoC (INR (S (S n))) * Cpow (f z) (S n) * a) with (a * Cpow (f z) (S n) + f z * (RtoC (INR (S n)) * Cpow (f z) n * a)) by (rewrite (S_INR (S n)), RtoC_plus; cbn [Cpow]; ring).
    apply (is_cderive_mul f (fun z => Cpow (f z) (S n))); assumption.
Qed.
Lemma ssq_inv_der m t : offK m -> is_cderive (fun m => / ssq m t) m (RtoC (1 / 2) * RtoC (sin t * sin t) * Cpow (/ ssq m t) 3).
Proof.
  intros H. assert (N := ssq_neq0 m t H). assert (T : (2 : C) <> 0) by (apply C2_neq0).
  replace (RtoC (1 / 2) * RtoC (sin t * sin t) * Cpow (/ ssq m t) 3) with (- (/ (2 * ssq m t) * (0 - RtoC (sin t * sin t))) / (ssq m t * ssq m t)).
  2:{ cbn [Cpow]. rewrite RtoC_div by lra. field. split; assumption. }
  apply (is_cderive_inv (fun m => ssq m t)); [|exact N]. apply (is_cderive_comp csqrt (fun m => 1 - m * RtoC (sin t * sin t))); [|apply is_cderive_csqrt, S_off, H].
  apply (is_cderive_sub (fun _ => 1)); [apply is_cderive_const|]. apply (is_cderive_ext (fun m => RtoC (sin t * sin t) * m)); [intros; ring|]. assert (X := is_cderive_scal (fun m => m) (RtoC (sin t * sin t)) m 1 (is_cderive_id m)). rewrite Cmult_1_r in X. exact X.
Qed.
Lemma kf_der p q m t : offK m -> is_cderive (fun m => kf p (S q) m t) m (RtoC (INR (S q) / 2) * kf (S p) (S (S (S q))) m t).
Proof.
  intros H. unfold kf. replace (RtoC (INR (S q) / 2) * (Cpow (RtoC (sin t * sin t)) (S p) * Cpow (/ ssq m t) (S (S (S q))))) with (Cpow (RtoC (sin t * sin t)) p * (RtoC (INR (S q)) * Cpow (/ ssq m t) q * (RtoC (1 / 2) * RtoC (sin t * sin t) * Cpow (/ ssq m t) 3))).
  2:{ replace (INR (S q) / 2)%R with (INR (S q) * (1 / 2))%R by field. rewrite (RtoC_mult (INR (S q))). cbn [Cpow]. ring. }
  apply is_cderive_scal. apply (is_cderive_pow (fun m => / ssq m t)), ssq_inv_der, H.
Qed.
Lemma PI2_pos : (0 <= PI / 2)%R. Proof. assert (H := PI_RGT_0). lra. Qed.
Lemma kf_is p q m : offK m -> is_CInt (kf p q m) 0 (PI / 2) (KI p q m).
Proof. intros H. apply CInt_ok. intros t _. now apply ccr_slice, kf_ccr. Qed.
Lemma KI_hol p q : hol offK (KI p (S q)) (fun m => RtoC (INR (S q) / 2) * KI (S p) (S (S (S q))) m).
Proof.
  apply (hol_ext' offK _ (fun m => CInt (fun t => RtoC (INR (S q) / 2) * kf (S p) (S (S (S q))) m t) 0 (PI / 2)) _ offK_open).
  - intros m H. apply CInt_val. apply is_CInt_scal, kf_is, H.
  - apply (param_hol offK (kf p (S q)) (fun m t => RtoC (INR (S q) / 2) * kf (S p) (S (S (S q))) m t)); [apply offK_open|apply PI2_pos|intros; now apply kf_der|intros; now apply ccr_slice, kf_ccr|].
    intros m t H. apply (ccr_mult (fun _ _ => RtoC (INR (S q) / 2))); [apply ccr_const|now apply kf_ccr].
Qed.
Lemma Kf_KI m : offK m -> Kf m = KI 0 1 m.
Proof. intros H. apply CInt_val. apply is_CInt_ext with (2 := kf_is 0 1 m H). intros t _. unfold kf, ssq. cbn [Cpow]. unfold Cdiv. ring. Qed.
Definition K1 (m : C) : C := RtoC (1 / 2) * KI 1 3 m.
Definition K2 (m : C) : C := RtoC (1 / 2) * (RtoC (3 / 2) * KI 2 5 m).
Lemma Kf_hol : hol offK Kf K1.
Proof. apply (hol_ext _ (KI 0 1) _ _ offK_open); [intros m H; symmetry; now apply Kf_KI|]. exact (KI_hol 0 0). Qed.
Lemma K1_hol : hol offK K1 K2.
Proof.
  intros m H. destruct (KI_hol 1 2 m H) as [D K]. cbn [INR] in D, K. replace ((1 + 1 + 1) / 2)%R with (3 / 2)%R in D, K by field. split; [apply is_cderive_scal, D|apply ccat_mult; [apply ccat_const|exact K]].
Qed.
(** ** Legendre's differential equation *)
Lemma ssq_sqr m t : ssq m t * ssq m t = 1 - m * RtoC (sin t * sin t). Proof. apply csqrt_sqr. Qed.
Lemma sin_rcd t : rcd (fun t => RtoC (sin t)) t (RtoC (cos t)).
Proof. split; cbn [fst snd RtoC]; [apply is_derive_Reals, derivable_pt_lim_sin|apply (is_derive_const (0 : R))]. Qed.
Lemma cos_rcd t : rcd (fun t => RtoC (cos t)) t (RtoC (- sin t)).
Proof. split; cbn [fst snd RtoC]; [apply is_derive_Reals, derivable_pt_lim_cos|apply (is_derive_const (0 : R))]. Qed.
Lemma sin2_rcd t : rcd (fun t => RtoC (sin t * sin t)) t (2 * RtoC (sin t) * RtoC (cos t)).
Proof. apply (rcd_ext (fun t => RtoC (sin t) * RtoC (sin t))); [intros; now rewrite RtoC_mult|]. eapply rcd_eq; [apply rcd_mult; apply sin_rcd|cbv beta; cring]. Qed.
Lemma cos2_sin2 t : RtoC (cos t) * RtoC (cos t) = 1 - RtoC (sin t) * RtoC (sin t).
Proof. rewrite <- !RtoC_mult, <- RtoC_minus. f_equal. assert (H := sin2_cos2 t). unfold Rsqr in H. lra. Qed.
Lemma legendre_ode m : offK m -> m * (1 - m) * K2 m + (1 - 2 * m) * K1 m - RtoC (1 / 4) * Kf m = 0.
Proof.
  intros H. rewrite (Kf_KI m H). unfold K1, K2.
  set (I := fun t => m * (1 - m) * (RtoC (1 / 2) * (RtoC (3 / 2) * kf 2 5 m t)) + (1 - 2 * m) * (RtoC (1 / 2) * kf 1 3 m t) - RtoC (1 / 4) * kf 0 1 m t).
  assert (A : is_CInt I 0 (PI / 2) (m * (1 - m) * (RtoC (1 / 2) * (RtoC (3 / 2) * KI 2 5 m)) + (1 - 2 * m) * (RtoC (1 / 2) * KI 1 3 m) - RtoC (1 / 4) * KI 0 1 m)).
  { unfold I. apply is_CInt_minus; [apply is_CInt_plus|]; repeat apply is_CInt_scal; apply kf_is, H. }
  set (F := fun t => - RtoC (1 / 4) * (RtoC (sin t) * RtoC (cos t)) * (/ ssq m t * (/ ssq m t * / ssq m t))).
  assert (B : is_CInt I 0 (PI / 2) (F (PI / 2)%R - F 0%R)).
  { apply rcd_ftc.
    - intros t _. assert (N := ssq_neq0 m t H).
      assert (DS : rcd (fun t => / ssq m t) t (RtoC (1 / 2) * m * (2 * RtoC (sin t) * RtoC (cos t)) * (/ ssq m t * (/ ssq m t * / ssq m t)))).
      { eapply rcd_eq; [apply (rcd_comp (fun z => / csqrt z) (fun t => 1 - m * RtoC (sin t * sin t)) t (- / (2 * ssq m t) / (ssq m t * ssq m t)))|].
        - apply (is_cderive_inv csqrt); [apply is_cderive_csqrt, S_off, H|exact N].
        - apply rcd_minus; [apply rcd_const|apply rcd_mult; [apply rcd_const|apply sin2_rcd]].
        - cbv beta. cfield. exact N. }
      eapply rcd_eq; [apply rcd_mult; [apply rcd_mult; [apply rcd_const|apply rcd_mult; [apply sin_rcd|apply cos_rcd]]|apply rcd_mult; [exact DS|apply rcd_mult; exact DS]]|].
      cbv beta. unfold I, kf. cbn [Cpow]. rewrite RtoC_opp. set (u := / ssq m t). assert (U1 : u * u * (1 - m * RtoC (sin t * sin t)) = 1) by (rewrite <- ssq_sqr; unfold u; field; exact N). rewrite RtoC_mult in *.
      set (S := RtoC (sin t)) in *. set (CC := RtoC (cos t)). assert (Q : CC * CC = 1 - S * S) by apply cos2_sin2. clearbody u S CC. cnum.
      apply Csub_0. transitivity ((- (CC * CC - (1 - S * S)) * (u * (u * u) + 3 * m * (S * S) * (u * (u * (u * (u * u))))) + (1 - u * u * (1 - m * (S * S))) * (u + 3 * m * (S * S) * (u * (u * u)))) / 4); [cfield|]. rewrite Q, U1. cfield.
    - intros t _. unfold I. assert (KC : forall p q, ccont (kf p q m) t) by (intros; apply ccr_slice, kf_ccr, H). apply ccont_minus; [apply ccont_plus|]; [|(apply ccont_mult; [apply ccont_const|apply ccont_mult; [apply ccont_const|exact (KC 1%nat 3%nat)]])|apply ccont_mult; [apply ccont_const|exact (KC O 1%nat)]].
      apply ccont_mult; [apply ccont_const|apply ccont_mult; [apply ccont_const|apply ccont_mult; [apply ccont_const|exact (KC 2%nat 5%nat)]]]. }
  rewrite (is_CInt_unique _ _ _ _ _ A B). unfold F. rewrite cos_PI2, sin_0. ring.
Qed.

(** ** quotients of principal roots *)
Lemma csqrt_im z : offcut z -> (2 * fst (csqrt z) * snd (csqrt z))%R = snd z.
Proof. intros H. assert (E := csqrt_sqr z). apply (f_equal snd) in E. cbn [fst snd Cmult] in E. lra. Qed.
Lemma offcut_neq0 z : offcut z -> z <> 0. Proof. intros [H|H] E; rewrite E in H; cbn in H; lra. Qed.
Lemma offcut_csqrt z : offcut z -> csqrt z <> 0. Proof. intros H. apply csqrt_neq0, offcut_neq0, H. Qed.
Lemma fst_div (a b : C) : (0 < fst b)%R -> fst (a / b)%C = ((fst a * fst b + snd a * snd b) / (fst b * (fst b * 1) + snd b * (snd b * 1)))%R.
Proof. destruct a as [a1 a2], b as [b1 b2]. cbn. intros H. field. nra. Qed.
Lemma csqrt_dir a b : offcut a -> offcut b -> (0 <= snd a * snd b)%R -> (0 <= snd (csqrt a) * snd (csqrt b))%R.
Proof.
  intros A B H. assert (P := csqrt_pos a A). assert (Q := csqrt_pos b B). assert (X := csqrt_im a A). assert (Y := csqrt_im b B). rewrite <- X, <- Y in H.
  replace (2 * fst (csqrt a) * snd (csqrt a) * (2 * fst (csqrt b) * snd (csqrt b)))%R with ((4 * fst (csqrt a) * fst (csqrt b)) * (snd (csqrt a) * snd (csqrt b)))%R in H by ring.
  assert (0 < 4 * fst (csqrt a) * fst (csqrt b))%R by (apply Rmult_lt_0_compat; lra). nra.
Qed.
Lemma csqrt_div a b : offcut a -> offcut b -> (0 <= snd a * snd b)%R -> csqrt (a / b) = csqrt a / csqrt b.
Proof.
  intros A B H. assert (P := csqrt_pos a A). assert (Q := csqrt_pos b B). assert (D := csqrt_dir a b A B H). assert (NB := offcut_csqrt b B).
  apply csqrt_unique; [replace (csqrt a / csqrt b * (csqrt a / csqrt b)) with ((csqrt a * csqrt a) / (csqrt b * csqrt b)) by (field; exact NB); now rewrite !csqrt_sqr|].
  assert (N : (0 < fst (csqrt b) * (fst (csqrt b) * 1) + snd (csqrt b) * (snd (csqrt b) * 1))%R) by nra.
  assert (E := fst_div (csqrt a) (csqrt b) Q).
  rewrite E. apply Rdiv_lt_0_compat; [nra|exact N].
Qed.
Lemma offcut_div a b : offcut a -> offcut b -> (0 <= snd a * snd b)%R -> offcut (a / b).
Proof.
  intros A B H. assert (E := csqrt_div a b A B H). assert (P := csqrt_pos a A). assert (Q := csqrt_pos b B). assert (D := csqrt_dir a b A B H).
  assert (N : (0 < fst (csqrt b) * (fst (csqrt b) * 1) + snd (csqrt b) * (snd (csqrt b) * 1))%R) by nra.
  assert (E2 := fst_div (csqrt a) (csqrt b) Q).
  assert (PP : (0 < fst (csqrt (a / b)%C))%R) by (rewrite E, E2; apply Rdiv_lt_0_compat; [nra|exact N]).
  destruct (Req_EM_T (snd (a / b)%C) 0) as [S|S]; [|left; exact S]. right. assert (X := csqrt_sqr (a / b)). assert (X1 := f_equal fst X). assert (X2 := f_equal snd X). cbn [fst snd Cmult] in X1, X2. rewrite S in X2. rewrite <- X1. assert (snd (csqrt (a / b)%C) = 0)%R by nra. nra.
Qed.
Lemma offcut_1 : offcut 1. Proof. right. cbn. lra. Qed.
Lemma csqrt_1 : csqrt 1 = 1. Proof. change (csqrt (RtoC 1) = RtoC 1). rewrite csqrt_R, sqrt_1 by lra. reflexivity. Qed.
Lemma csqrt_inv z : offcut z -> csqrt (/ z) = / csqrt z.
Proof. intros H. replace (/ z) with (1 / z) by (unfold Cdiv; ring). rewrite csqrt_div; [rewrite csqrt_1; unfold Cdiv; ring|apply offcut_1|exact H|cbn; lra]. Qed.
Lemma offcut_inv z : offcut z -> offcut (/ z).
Proof. intros H. replace (/ z) with (1 / z) by (unfold Cdiv; ring). apply offcut_div; [apply offcut_1|exact H|cbn; lra]. Qed.
Lemma offK_1m m : offK m <-> offcut (1 - m).
Proof. unfold offK, offcut. cbn. split; intros [H|H]; [left|right|left|right]; lra. Qed.
(** ** first transformations of the integral *)
Lemma Kf_pos m : offK m -> (0 < fst (Kf m))%R.
Proof.
  intros H. destruct (Kf_is m H) as [I _]. assert (HP := PI_RGT_0).
  assert (CT : forall t, continuous (fun t => fst (1 / csqrt (1 - m * RtoC (sin t * sin t)))%C) t) by (intros t; apply (K_integrand_cont m t H)).
  destruct (continuity_ab_min (fun t => fst (1 / csqrt (1 - m * RtoC (sin t * sin t)))%C) 0 (PI / 2) ltac:(lra)) as (t0 & Ht & Hb); [intros t _; apply continuity_pt_filterlim, CT|].
  set (c := fst (1 / csqrt (1 - m * RtoC (sin t0 * sin t0)))%C) in *. assert (C0 : (0 < c)%R).
  { unfold c. assert (P := csqrt_pos _ (S_off m t0 H)). set (w := csqrt _) in *. rewrite (fst_div 1 w P). clearbody w. destruct w as [w1 w2]. cbn in *. apply Rdiv_lt_0_compat; nra. }
  assert (L : ((PI / 2 - 0) * c <= fst (Kf m))%R).
  { apply (is_RInt_le (fun _ => c) (fun t => fst (1 / csqrt (1 - m * RtoC (sin t * sin t)))%C) 0 (PI / 2)); [lra|exact (is_RInt_const 0 (PI / 2) c)|exact I|]. intros t Ht'. apply Ht. lra. }
  assert (0 < (PI / 2 - 0) * c)%R by (apply Rmult_lt_0_compat; lra). lra.
Qed.
Lemma Kf_neq0 m : offK m -> Kf m <> 0. Proof. intros H E. assert (P := Kf_pos m H). rewrite E in P. cbn in P. lra. Qed.
Lemma Kf_conj m : offK m -> Kf (Cconj m) = Cconj (Kf m).
Proof.
  intros H. destruct (legendre_elliptic m H) as (k & E1 & E2 & _). unfold ellipk_legendre in E1, E2.
  assert (Q : forall a b : C, Ok a = Ok b -> a = b) by (intros a b X; congruence). apply Q in E1. apply Q in E2. unfold Kf. rewrite E1. exact E2.
Qed.
Lemma K_cosform m : offK m -> is_CInt (fun t => 1 / csqrt (1 - m * RtoC (cos t * cos t))) 0 (PI / 2) (Kf m).
Proof.
  intros H. assert (X := is_CInt_shift _ _ _ _ (PI / 2) (is_CInt_opp_var _ _ _ _ (Kf_is m H))). replace (- (PI / 2) + PI / 2)%R with 0%R in X by field. replace (- 0 + PI / 2)%R with (PI / 2)%R in X by ring.
  apply is_CInt_ext with (2 := X). intros t _. cbv beta. replace (- (t - PI / 2))%R with (PI / 2 - t)%R by ring. now rewrite sin_shift.
Qed.
Lemma imag_modulus m : offK m -> Kf m = / csqrt (1 - m) * Kf (- m / (1 - m)).
Proof.
  intros H. assert (O := proj1 (offK_1m m) H). assert (N := offcut_neq0 _ O). assert (NS := offcut_csqrt _ O).
  assert (H2 : offK (- m / (1 - m))). { apply offK_1m. replace (1 - - m / (1 - m)) with (/ (1 - m)) by (field; exact N). apply offcut_inv, O. }
  apply (is_CInt_unique (fun t => 1 / csqrt (1 - m * RtoC (cos t * cos t))) 0 (PI / 2)); [apply K_cosform, H|].
  apply is_CInt_ext with (2 := is_CInt_scal (/ csqrt (1 - m)) _ _ _ _ (Kf_is _ H2)). intros t _. cbv beta.
  assert (CS : RtoC (sin t * sin t) = 1 - RtoC (cos t * cos t)) by (rewrite <- RtoC_minus; f_equal; assert (X := sin2_cos2 t); unfold Rsqr in X; lra).
  assert (O2 : offcut (1 - m * RtoC (cos t * cos t))) by (apply offcut_param; [exact H|destruct (COS_bound t); nra]).
  replace (1 - - m / (1 - m) * RtoC (sin t * sin t)) with ((1 - m * RtoC (cos t * cos t)) / (1 - m)) by (rewrite CS; field; exact N).
  rewrite csqrt_div; [|exact O2|exact O|]. { assert (N2 := offcut_csqrt _ O2). field. split; assumption. }
  cbn. replace ((1 - 0 * 0)%R) with 1%R by ring. ring_simplify. assert (0 <= cos t ^ 2)%R by apply pow2_ge_0. assert (0 <= snd m ^ 2)%R by apply pow2_ge_0. nra.
Qed.
(** ** the reciprocal-modulus transformation *)
Lemma const_star (U : C -> Prop) f p : star U p -> (forall w, U w -> is_cderive f w 0) -> forall q, U q -> f q = f p.
Proof.
  intros S D q Q. assert (I : is_CInt (fun _ => RtoC 0) 0 1 (f (p + RtoC 1 * (q - p)) - f (p + RtoC 0 * (q - p)))).
  { apply (rcd_ftc (fun s => f (p + RtoC s * (q - p)))); rewrite Rmin_left, Rmax_right by lra; intros s Hs; [|apply ccont_const].
    eapply rcd_eq; [apply (rcd_comp f (fun s => p + RtoC s * (q - p))); [apply D, S; assumption|apply rcd_plus; [apply rcd_const|apply rcd_mult; [apply rcd_id|apply rcd_const]]]|]. cbv beta. ring. }
  assert (Z := is_CInt_unique _ _ _ _ _ I (is_CInt_const 0 0 1)). replace (p + RtoC 1 * (q - p)) with q in Z by ring. replace (p + RtoC 0 * (q - p)) with p in Z by ring. apply Csub_0. rewrite Z. ring.
Qed.
Definition offK2 (m : C) : Prop := snd m <> 0%R \/ (0 < fst m < 1)%R.
Lemma offK2_K m : offK2 m -> offK m. Proof. intros [H|H]; [left; exact H|right; lra]. Qed.
Lemma offK2_1m m : offK2 m -> offK2 (1 - m). Proof. unfold offK2. cbn. intros [H|H]; [left|right]; lra. Qed.
Lemma offK2_star : star offK2 (RtoC (1 / 2)).
Proof.
  intros q s Hq Hs. unfold offK2 in *. cbn. destruct (Req_EM_T s 0) as [-> | N]; [right; lra|].
  destruct (Req_EM_T (snd q) 0) as [E|E]; [right|left; replace (0 + (s * (snd q + - 0) + 0 * (fst q + - (1 / 2))))%R with (s * snd q)%R by ring; now apply Rmult_integral_contrapositive_currified].
  destruct Hq as [H|H]; [contradiction|]. rewrite E. split; nra.
Qed.
Definition Jf (m : C) : C := Kf (1 - m).
Lemma J_der m : offK2 m -> is_cderive Jf m (- K1 (1 - m)).
Proof.
  intros H. replace (- K1 (1 - m)) with (K1 (1 - m) * (0 - 1)) by ring. apply (is_cderive_comp Kf (fun m => 1 - m)); [apply (is_cderive_sub (fun _ => 1)); [apply is_cderive_const|apply is_cderive_id]|]. apply Kf_hol, offK2_K, offK2_1m, H.
Qed.
Lemma J1_der m : offK2 m -> is_cderive (fun m => - K1 (1 - m)) m (K2 (1 - m)).
Proof.
  intros H. replace (K2 (1 - m)) with (- (K2 (1 - m) * (0 - 1))) by ring. apply is_cderive_opp. apply (is_cderive_comp K1 (fun m => 1 - m)); [apply (is_cderive_sub (fun _ => 1)); [apply is_cderive_const|apply is_cderive_id]|]. apply K1_hol, offK2_K, offK2_1m, H.
Qed.
Definition Wr (m : C) : C := m * (1 - m) * (Kf m * (- K1 (1 - m)) - K1 m * Jf m).
Lemma Wr_const m : offK2 m -> Wr m = Wr (RtoC (1 / 2)).
Proof.
  apply (const_star offK2 Wr (RtoC (1 / 2)) offK2_star). intros w H. assert (O1 := legendre_ode w (offK2_K w H)). assert (O2 := legendre_ode (1 - w) (offK2_K _ (offK2_1m w H))). fold (Jf w) in O2.
  assert (D : is_cderive Wr w (((1 * (1 - w) + w * (0 - 1)) * (Kf w * (- K1 (1 - w)) - K1 w * Jf w) + w * (1 - w) * ((K1 w * (- K1 (1 - w)) + Kf w * K2 (1 - w)) - (K2 w * Jf w + K1 w * (- K1 (1 - w))))))).
  { apply (is_cderive_mul (fun w => w * (1 - w)) (fun w => Kf w * (- K1 (1 - w)) - K1 w * Jf w)).
    - apply (is_cderive_mul (fun w => w) (fun w => 1 - w)); [apply is_cderive_id|apply (is_cderive_sub (fun _ => 1)); [apply is_cderive_const|apply is_cderive_id]].
    - apply (is_cderive_sub (fun w => Kf w * (- K1 (1 - w))) (fun w => K1 w * Jf w)).
      + apply (is_cderive_mul Kf (fun w => - K1 (1 - w))); [apply Kf_hol, offK2_K, H|apply J1_der, H].
      + apply (is_cderive_mul K1 Jf); [apply K1_hol, offK2_K, H|apply J_der, H]. }
  replace (RtoC 0) with ((1 * (1 - w) + w * (0 - 1)) * (Kf w * (- K1 (1 - w)) - K1 w * Jf w) + w * (1 - w) * ((K1 w * (- K1 (1 - w)) + Kf w * K2 (1 - w)) - (K2 w * Jf w + K1 w * (- K1 (1 - w))))); [exact D|].
  transitivity (Kf w * ((1 - w) * (1 - (1 - w)) * K2 (1 - w) + (1 - 2 * (1 - w)) * K1 (1 - w) - RtoC (1 / 4) * Jf w) - Jf w * (w * (1 - w) * K2 w + (1 - 2 * w) * K1 w - RtoC (1 / 4) * Kf w)); [cring|]. rewrite O1. rewrite O2. ring.
Qed.
Definition rho (m : C) : C := Kf m / Jf m.
Lemma J_neq0 m : offK2 m -> Jf m <> 0. Proof. intros H. apply Kf_neq0, offK2_K, offK2_1m, H. Qed.
Lemma offK2_neq m : offK2 m -> m <> 0 /\ 1 - m <> 0.
Proof. intros [H|H]; split; intros E; [rewrite E in H; cbn in H; lra| |rewrite E in H; cbn in H; lra|]; assert (X := f_equal fst E); assert (Y := f_equal snd E); cbn in X, Y; lra. Qed.
Lemma rho_der m : offK2 m -> is_cderive rho m (- Wr (RtoC (1 / 2)) / (m * (1 - m) * (Jf m * Jf m))).
Proof.
  intros H. assert (N := J_neq0 m H). destruct (offK2_neq m H) as [N1 N2]. rewrite <- (Wr_const m H).
  replace (- Wr m / (m * (1 - m) * (Jf m * Jf m))) with (K1 m * / Jf m + Kf m * (- (- K1 (1 - m)) / (Jf m * Jf m))) by (unfold Wr; field; repeat split; assumption).
  apply (is_cderive_mul Kf (fun m => / Jf m)); [apply Kf_hol, offK2_K, H|]. apply (is_cderive_inv Jf); [apply J_der, H|exact N].
Qed.
Lemma J_recip (m : C) : snd m <> 0%R -> Jf m = csqrt (/ m) * Jf (/ m).
Proof.
  intros H. assert (O : offcut m) by (left; exact H). assert (N := offcut_neq0 m O). unfold Jf. rewrite csqrt_inv by exact O. rewrite (imag_modulus (1 - m)) by (left; cbn; lra).
  replace (1 - (1 - m)) with m by ring. f_equal. f_equal. field. exact N.
Qed.
Lemma inv_im (m : C) : snd m <> 0%R -> snd (/ m) <> 0%R.
Proof. intros H. cbn. intros E. apply Rmult_integral in E. destruct E as [E|E]; [lra|]. assert (P : (fst m * (fst m * 1) + snd m * (snd m * 1) <> 0)%R) by nra. now apply Rinv_neq_0_compat in P. Qed.
Lemma rho_const (m : C) : (0 < snd m)%R -> forall p : C, (0 < snd p)%R -> rho m - rho (/ m) = rho p - rho (/ p).
Proof.
  intros Hm p Hp. apply (const_star (fun z => (0 < snd z)%R) (fun m => rho m - rho (/ m)) p); [| |exact Hm].
  { intros q s Hq Hs. cbn. nra. }
  intros w Hw. assert (Hn : snd w <> 0%R) by lra. assert (Hi := inv_im w Hn). assert (W : w <> 0) by (apply offcut_neq0; left; exact Hn). assert (D2 : offK2 (/ w)) by (left; exact Hi). destruct (offK2_neq _ D2) as [M1 M2].
  assert (JJ := J_recip w Hn). assert (SS := csqrt_sqr (/ w)). assert (NJ := J_neq0 _ D2). destruct (offK2_neq w (or_introl Hn)) as [_ M3].
  assert (J2 : Jf w * Jf w = / w * (Jf (/ w) * Jf (/ w))) by (rewrite JJ; transitivity (csqrt (/ w) * csqrt (/ w) * (Jf (/ w) * Jf (/ w))); [ring|now rewrite SS]).
  replace (RtoC 0) with (- Wr (RtoC (1 / 2)) / (w * (1 - w) * (Jf w * Jf w)) - - Wr (RtoC (1 / 2)) / (/ w * (1 - / w) * (Jf (/ w) * Jf (/ w))) * (- (1) / (w * w))).
  2:{ rewrite J2. field. repeat split; try assumption. intros E. apply M3. apply Csub_0 in E. change (w = RtoC 1) in E. rewrite E. ring. }
  apply is_cderive_sub; [apply rho_der; left; exact Hn|]. apply (is_cderive_comp rho (fun w => / w)); [apply (is_cderive_inv (fun w => w)); [apply is_cderive_id|exact W]|apply rho_der, D2].
Qed.
Definition om : C := ((1 / 2)%R, (sqrt 3 / 2)%R).
Lemma s3 : (sqrt 3 * sqrt 3 = 3)%R. Proof. apply sqrt_sqrt. lra. Qed.
Lemma s3p : (0 < sqrt 3)%R. Proof. apply sqrt_lt_R0. lra. Qed.
Theorem reciprocal_modulus (m : C) : (0 < snd m)%R -> Kf m = csqrt (/ m) * Kf (/ m) + Ci * Kf (1 - m).
Proof.
  intros Hm. assert (T3 := s3). assert (P3 := s3p). assert (Ho : (0 < snd om)%R) by (cbn; lra). assert (E := rho_const m Hm om Ho).
  assert (I1 : / om = Cconj om). { apply C_ext; cbn; field_simplify_eq; nra. }
  assert (I2 : 1 - om = Cconj om). { apply C_ext; cbn; field. }
  assert (I3 : 1 - Cconj om = om). { apply C_ext; cbn; field. }
  assert (Oo : offK om) by (left; lra).
  assert (R1 : csqrt (Cconj om) = ((sqrt 3 / 2)%R, (- (1 / 2))%R)). { apply csqrt_unique; [apply C_ext; cbn; nra|cbn; lra]. }
  assert (J := J_recip om ltac:(lra)). unfold Jf in J. rewrite I1, I2, I3, R1, (Kf_conj om Oo) in J.
  assert (NK := Kf_neq0 om Oo). assert (NC : Cconj (Kf om) <> 0) by (rewrite <- Kf_conj by exact Oo; apply Kf_neq0; left; cbn; lra).
  assert (V : rho om - rho (/ om) = Ci).
  { unfold rho, Jf. rewrite I1, I2, I3, (Kf_conj om Oo). set (k := Kf om) in *. set (u := (((sqrt 3 / 2)%R, (- (1 / 2))%R) : C)) in *.
    assert (NU : u <> 0) by (intros X; apply (f_equal snd) in X; cbn in X; lra). assert (K2' : k / Cconj k = / u) by (rewrite J; field; split; assumption). rewrite K2'. rewrite J. replace (u * k / k) with u by (field; exact NK).
    apply C_ext; cbn; field_simplify_eq; nra. }
  rewrite V in E. assert (H2 : offK2 m) by (left; lra). assert (Hi := inv_im m ltac:(lra)). assert (NJ := J_neq0 m H2). assert (NJ2 := J_neq0 (/ m) (or_introl Hi)).
  fold (Jf m). rewrite <- E. unfold rho. rewrite (J_recip m) by lra. assert (NS : csqrt (/ m) <> 0) by (apply csqrt_neq0, offcut_neq0; left; exact Hi). field. split; assumption.
Qed.
