(** * Riemann-Lebesgue and the pointwise convergence of Fourier series of smooth functions with a jump *)
From Coq Require Import Reals Lia Lra Psatz.
From Coquelicot Require Import Coquelicot.
From Verif Require Import Base CBase.
Local Open Scope R_scope.

Section RL.
  Variables (q : R -> R) (phi : nat -> R).
  Hypothesis Hq : forall s, 0 <= s <= 1 -> continuous q s.
  Let w (N : nat) (s : R) : R := sin (2 * PI * INR N * s + phi N).
  Lemma w_cont N s : continuous (w N) s.
  Proof. apply (ex_derive_continuous (V := R_NormedModule)). unfold w. auto_derive. exact I. Qed.
  Lemma qw_ex N a b : 0 <= a <= 1 -> 0 <= b <= 1 -> ex_RInt (fun s => q s * w N s) a b.
  Proof.
    intros Ha Hb. apply (ex_RInt_continuous (V := R_CompleteNormedModule)). intros s Hs. apply (continuous_mult (K := R_AbsRing)); [apply Hq|apply w_cont].
    revert Hs. apply Rmin_case; apply Rmax_case; lra.
  Qed.
  Lemma w_period N k : (0 < N)%nat -> is_RInt (w N) (INR k / INR N) (INR (S k) / INR N) 0.
  Proof.
    intros HN. assert (P := PI_RGT_0). assert (N0 := lt_0_INR N HN). set (F := fun s => - cos (2 * PI * INR N * s + phi N) / (2 * PI * INR N)).
    replace 0 with (minus (F (INR (S k) / INR N)) (F (INR k / INR N))).
    - apply (is_RInt_derive (V := R_CompleteNormedModule)).
      + intros s _. unfold F, w. auto_derive; [exact I|]. field. lra.
      + intros s _. apply w_cont.
    - unfold minus, plus, opp; cbn -[INR]. unfold F. rewrite S_INR. replace (2 * PI * INR N * ((INR k + 1) / INR N) + phi N) with (2 * PI * INR N * (INR k / INR N) + phi N + 2 * INR 1 * PI) by (cbn; field; lra).
      rewrite cos_period. field. lra.
  Qed.
  Lemma rl_step N eps delta k : (0 < N)%nat -> (forall x y, 0 <= x <= 1 -> 0 <= y <= 1 -> Rabs (x - y) < delta -> Rabs (q x - q y) <= eps) -> / INR N < delta -> (S k <= N)%nat ->
    Rabs (RInt (fun s => q s * w N s) (INR k / INR N) (INR (S k) / INR N)) <= eps / INR N.
  Proof.
    intros HN U D Hk. assert (N0 := lt_0_INR N HN). assert (K0 := pos_INR k). assert (KN : INR (S k) <= INR N) by (apply le_INR; exact Hk). rewrite S_INR in KN.
    set (a := INR k / INR N). assert (B : INR (S k) / INR N = a + / INR N) by (rewrite S_INR; unfold a; field; lra). rewrite B. assert (I0 := Rinv_0_lt_compat _ N0).
    assert (A0 : 0 <= a) by (apply Rdiv_le_0_compat; lra). assert (A1 : a + / INR N <= 1). { rewrite <- B, S_INR. apply Rle_div_l; lra. }
    assert (E : ex_RInt (fun s => q s * w N s) a (a + / INR N)) by (apply qw_ex; lra). assert (W := w_period N k HN). fold a in W. rewrite B in W.
    assert (J := is_RInt_minus (V := R_NormedModule) _ _ _ _ _ _ (RInt_correct (V := R_CompleteNormedModule) _ _ _ E) (is_RInt_scal (V := R_NormedModule) _ _ _ (q a) _ W)).
    replace (RInt (fun s => q s * w N s) a (a + / INR N)) with (minus (RInt (fun s => q s * w N s) a (a + / INR N)) (scal (q a) 0)).
    2:{ unfold minus, plus, opp, scal; cbn. unfold mult; cbn. ring. }
    replace (eps / INR N) with (scal (a + / INR N - a) eps) by (unfold scal; cbn; unfold mult; cbn; field; lra).
    refine (norm_RInt_le (V := R_NormedModule) _ _ a (a + / INR N) _ _ _ _ J (is_RInt_const (V := R_NormedModule) a (a + / INR N) eps)); [lra|].
    intros s Hs. unfold norm, minus, plus, opp, scal; cbn -[Rabs]. unfold abs; cbn -[Rabs]. unfold mult; cbn -[Rabs]. replace (q s * w N s + - (q a * w N s)) with ((q s - q a) * w N s) by ring. rewrite Rabs_mult.
    assert (H1 : Rabs (q s - q a) <= eps). { apply U; [lra|lra|]. rewrite Rabs_pos_eq; lra. }
    assert (H2 : Rabs (w N s) <= 1). { apply Rabs_le. unfold w. apply SIN_bound. }
    assert (H3 := Rabs_pos (q s - q a)). assert (H4 := Rabs_pos (w N s)). nra.
  Qed.
  Lemma rl_sum N eps delta k : (0 < N)%nat -> (forall x y, 0 <= x <= 1 -> 0 <= y <= 1 -> Rabs (x - y) < delta -> Rabs (q x - q y) <= eps) -> / INR N < delta -> (k <= N)%nat ->
    Rabs (RInt (fun s => q s * w N s) 0 (INR k / INR N)) <= eps * INR k / INR N.
  Proof.
    intros HN U D. assert (N0 := lt_0_INR N HN). induction k as [|k IH]; intros Hk.
    - replace (INR 0 / INR N) with 0 by (cbn; field; lra). rewrite RInt_point. unfold zero; cbn -[Rabs]. rewrite Rabs_R0. right. field. lra.
    - assert (K0 := pos_INR k). assert (KN : INR (S k) <= INR N) by (apply le_INR; exact Hk). assert (SK := S_INR k).
      assert (X1 : 0 <= INR k / INR N <= 1) by (split; [apply Rdiv_le_0_compat|apply Rle_div_l]; lra). assert (X2 : 0 <= INR (S k) / INR N <= 1) by (split; [apply Rdiv_le_0_compat|apply Rle_div_l]; lra).
      rewrite <- (RInt_Chasles (V := R_CompleteNormedModule) _ 0 (INR k / INR N) (INR (S k) / INR N)) by (apply qw_ex; lra). match goal with |- Rabs (plus ?x ?y) <= _ => change (Rabs (x + y) <= eps * INR (S k) / INR N) end.
      eapply Rle_trans; [apply Rabs_triang|]. assert (I1 := IH ltac:(lia)). assert (I2 := rl_step N eps delta k HN U D Hk). rewrite SK. replace (eps * (INR k + 1) / INR N) with (eps * INR k / INR N + eps / INR N) by (field; lra). rewrite SK in I2. lra.
  Qed.
  Theorem riemann_lebesgue : is_lim_seq (fun N => RInt (fun s => q s * sin (2 * PI * INR N * s + phi N)) 0 1) 0.
  Proof.
    apply is_lim_seq_spec. intros eps. assert (E2 : 0 < eps / 2) by (destruct eps; cbn; lra). destruct (unifcont_1d q 0 1 Hq (mkposreal _ E2)) as [delta U].
    assert (U' : forall x y, 0 <= x <= 1 -> 0 <= y <= 1 -> Rabs (x - y) < delta -> Rabs (q x - q y) <= eps / 2).
    { intros x y Hx Hy B. apply Rnot_lt_le. intros C. apply (U x y Hx Hy). { unfold ball; cbn. unfold AbsRing_ball, abs, minus, plus, opp; cbn. rewrite Rabs_minus_sym in B. exact B. }
      unfold ball; cbn. unfold AbsRing_ball, abs, minus, plus, opp; cbn -[Rabs]. intros D. rewrite Rabs_minus_sym in C. unfold Rminus in C. lra. }
    destruct (archimed_cor1 delta (cond_pos delta)) as (N0 & A & B). exists N0. intros n Hn. assert (Nn : (0 < n)%nat) by lia. assert (n0 := lt_0_INR n Nn). rewrite Rminus_0_r.
    assert (R := rl_sum n (eps / 2) delta n Nn U'). replace (INR n / INR n) with 1 in R by (field; lra). eapply Rle_lt_trans; [apply R; [|lia]|].
    - eapply Rle_lt_trans; [|exact A]. apply Rinv_le_contravar; [apply lt_0_INR; lia|apply le_INR; lia].
    - replace (eps / 2 * INR n / INR n) with (eps / 2) by (field; lra). destruct eps; cbn in *; lra.
  Qed.
End RL.

(** ** Quotients of differentiable functions at common zeros *)
Lemma slope_cont (u : R -> R) (x u' : R) : is_derive u x u' -> continuous (fun y => if Req_EM_T y x then u' else (u y - u x) / (y - x)) x.
Proof.
  intros H. apply is_derive_Reals in H. intros P [eps HP]. destruct (H eps (cond_pos eps)) as [delta D]. exists delta. intros y Hy. apply HP. unfold ball in Hy; cbn in Hy. unfold AbsRing_ball, abs, minus, plus, opp in Hy; cbn in Hy.
  destruct (Req_EM_T x x) as [_|N]; [|contradiction]. unfold ball; cbn. unfold AbsRing_ball, abs, minus, plus, opp; cbn -[Rabs]. destruct (Req_EM_T y x) as [->|N].
  - rewrite Rplus_opp_r, Rabs_R0. apply cond_pos.
  - assert (E : forall a b : R, a + (b - a) = b) by (intros; ring). assert (E2 : forall a b : R, a <> b -> a - b <> 0) by (intros; lra). specialize (D (y - x) (E2 _ _ N) Hy). rewrite E in D. exact D.
Qed.
Definition quot (u du v dv : R -> R) (y : R) : R := if Req_EM_T (v y) 0 then du y / dv y else u y / v y.
Lemma quot_cont (u du v dv : R -> R) (x : R) : is_derive u x (du x) -> is_derive v x (dv x) -> (v x = 0 -> u x = 0 /\ dv x <> 0) -> continuous (quot u du v dv) x.
Proof.
  intros Hu Hv HZ. destruct (Req_EM_T (v x) 0) as [Z|N].
  - destruct (HZ Z) as [Zu Nz]. set (U := fun y => if Req_EM_T y x then du x else (u y - u x) / (y - x)). set (V := fun y => if Req_EM_T y x then dv x else (v y - v x) / (y - x)).
    assert (CU : continuous U x) by (apply slope_cont; exact Hu). assert (CV : continuous V x) by (apply slope_cont; exact Hv). assert (Vx : V x = dv x) by (unfold V; destruct (Req_EM_T x x); [reflexivity|contradiction]).
    apply (continuous_ext_loc _ (fun y => U y * / V y)).
    + assert (L : locally x (fun y => V y <> 0)). { refine (CV (fun z : R => z <> 0) _). exists (mkposreal (Rabs (dv x)) (Rabs_pos_lt _ Nz)). intros y Hy E. unfold ball in Hy; cbn in Hy. unfold AbsRing_ball, abs, minus, plus, opp in Hy; cbn -[Rabs] in Hy. rewrite Vx, E, Rplus_0_l, Rabs_Ropp in Hy. lra. }
      revert L. apply filter_imp. intros y Hy. unfold U, V, quot in *. destruct (Req_EM_T y x) as [->|Ny].
      * destruct (Req_EM_T (v x) 0); [reflexivity|contradiction].
      * rewrite Z, Zu, !Rminus_0_r in *. assert (Vy : v y <> 0) by (intros E; apply Hy; rewrite E; apply Rmult_0_l). destruct (Req_EM_T (v y) 0); [contradiction|]. match goal with |- ?a = ?b => change (@eq R a b) end. assert (y - x <> 0) by (clear - Ny; intros E; apply Ny, Rminus_diag_uniq; exact E). field. split; lra.
    + apply (continuous_mult (K := R_AbsRing)); [exact CU|]. apply (continuous_comp V Rinv); [exact CV|]. rewrite Vx. apply continuous_Rinv. exact Nz.
  - assert (Cv : continuous v x) by (apply (ex_derive_continuous (V := R_NormedModule)); eexists; exact Hv). assert (Cu : continuous u x) by (apply (ex_derive_continuous (V := R_NormedModule)); eexists; exact Hu).
    apply (continuous_ext_loc _ (fun y => u y * / v y)).
    + assert (L : locally x (fun y => v y <> 0)). { refine (Cv (fun z : R => z <> 0) _). exists (mkposreal (Rabs (v x)) (Rabs_pos_lt _ N)). intros y Hy E. unfold ball in Hy; cbn in Hy. unfold AbsRing_ball, abs, minus, plus, opp in Hy; cbn -[Rabs] in Hy. rewrite E, Rplus_0_l, Rabs_Ropp in Hy. lra. }
      revert L. apply filter_imp. intros y Hy. unfold quot. destruct (Req_EM_T (v y) 0); [contradiction|reflexivity].
    + apply (continuous_mult (K := R_AbsRing)); [exact Cu|]. apply (continuous_comp v Rinv); [exact Cv|]. apply continuous_Rinv. exact N.
Qed.

(** ** Dirichlet kernels *)
Lemma kernel_f (th : R) N : nsum (K := RF) N (fun n => 2 * cos ((2 * INR n + 1) * th)) * sin th = sin (2 * INR N * th).
Proof.
  induction N as [|N IH]; [cbn; rewrite Rmult_0_r, !Rmult_0_l, sin_0; reflexivity|]. cbn [nsum]. change (@Fadd RF) with Rplus. rewrite Rmult_plus_distr_r, IH, S_INR.
  replace (2 * (INR N + 1) * th) with ((2 * INR N + 1) * th + th) by ring. replace (2 * INR N * th) with ((2 * INR N + 1) * th - th) by ring. rewrite sin_plus, sin_minus. ring.
Qed.
Definition kb (th : R) (n : nat) : R := match n with O => 1 | S _ => 2 * cos (2 * INR n * th) end.
Lemma kernel_b (th : R) N : nsum (K := RF) (S N) (kb th) * sin th = sin (2 * INR N * th) * cos th + cos (2 * INR N * th) * sin th.
Proof.
  rewrite <- sin_plus. induction N as [|N IH]; [cbn; rewrite Rplus_0_l, Rmult_0_r, Rmult_0_l, Rplus_0_l, Rmult_1_l; reflexivity|].
  change (nsum (K := RF) (S (S N)) (kb th)) with (nsum (K := RF) (S N) (kb th) + kb th (S N)). rewrite Rmult_plus_distr_r, IH. cbn [kb]. rewrite S_INR.
  replace (2 * INR N * th + th) with (2 * (INR N + 1) * th - th) by ring. rewrite sin_minus, sin_plus. ring.
Qed.
