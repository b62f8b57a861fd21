(** * Pointwise convergence of the fermionic and bosonic Fourier series on [0, 1] *)
From Coq Require Import Reals Lia Lra Psatz.
From Coquelicot Require Import Coquelicot.
From Verif Require Import Base CBase Matsu_Lim.
Local Open Scope R_scope.

Lemma is_RInt_nsum N (f : nat -> R -> R) (c : nat -> R) a b : (forall n, is_RInt (f n) a b (c n)) -> is_RInt (fun s => nsum (K := RF) N (fun n => f n s)) a b (nsum (K := RF) N c).
Proof.
  intros H. induction N as [|N IH].
  - cbn [nsum]. evar_last; [apply (is_RInt_const (V := R_NormedModule))|]. unfold scal; cbn. unfold mult; cbn. ring.
  - cbn [nsum]. apply (is_RInt_plus (V := R_NormedModule)); [exact IH|apply H].
Qed.
Lemma nsum_scal_l N (x : R) (f : nat -> R) : x * nsum (K := RF) N f = nsum (K := RF) N (fun n => x * f n).
Proof. induction N as [|N IH]; cbn [nsum]; [apply Rmult_0_r|]. change (@Fadd RF) with Rplus. rewrite Rmult_plus_distr_l, IH. reflexivity. Qed.
Lemma is_RInt_eq (f : R -> R) a b l l' : is_RInt f a b l -> l = l' -> is_RInt f a b l'.
Proof. intros H <-. exact H. Qed.
Lemma sin_zero_cos x : sin x = 0 -> cos x <> 0.
Proof. intros S C. assert (H := sin2_cos2 x). unfold Rsqr in H. rewrite S, C in H. lra. Qed.

Lemma rint_lin (f f1 f2 : R -> R) x y a b (l l1 l2 : R) : is_RInt f a b l -> is_RInt f1 a b l1 -> is_RInt (fun s => y * f2 s) a b (y * l2) -> is_RInt (fun s => f s - x * f1 s - y * f2 s) a b (l - x * l1 - y * l2).
Proof. intros H H1 H2. exact (is_RInt_minus (V := R_NormedModule) _ _ _ _ _ _ (is_RInt_minus (V := R_NormedModule) _ _ _ _ _ _ H (is_RInt_scal (V := R_NormedModule) _ _ _ x _ H1)) H2). Qed.
Ltac eqR := match goal with |- ?a = ?b => change (@eq R a b) end.
Section Ser.
  Variables (g dg : R -> R) (tau : R).
  Hypothesis Hg : forall s, is_derive g s (dg s).
  Let th (s : R) : R := PI * (s - tau).
  Variables (a c : R).      (** g - a * cos th - c, or g - a - c * cos th, vanishes at the poles of the kernel *)
  (** the remainder times the kernel *)
  Section U.
    Variables (u du : R -> R).
    Hypothesis Hu : forall s, is_derive u s (du s).
    Hypothesis Uz : forall s, 0 <= s <= 1 -> sin (th s) = 0 -> u s = 0.
    Let q : R -> R := quot u du (fun s => sin (th s)) (fun s => PI * cos (th s)).
    Lemma q_cont s : 0 <= s <= 1 -> continuous q s.
    Proof.
      intros Hs. apply quot_cont; [apply Hu| |].
      - cbv beta. unfold th. auto_derive; [exact I|]. cbv beta. unfold Rminus. ring.
      - intros Z. split; [apply Uz; assumption|]. assert (C := sin_zero_cos _ Z). assert (P := PI_RGT_0). apply Rmult_integral_contrapositive. split; [lra|exact C].
    Qed.
    Lemma q_sin s N : 0 <= s <= 1 -> u s * sin (2 * INR N * th s) = q s * sin (2 * INR N * th s) * sin (th s).
    Proof.
      intros Hs. unfold q, quot. destruct (Req_EM_T (sin (th s)) 0) as [Z|Z]; [rewrite (Uz s Hs Z), Z; ring|field; exact Z].
    Qed.
    Lemma q_u s : 0 <= s <= 1 -> u s = q s * sin (th s).
    Proof.
      intros Hs. unfold q, quot. destruct (Req_EM_T (sin (th s)) 0) as [Z|Z]; [rewrite (Uz s Hs Z), Z; ring|field; exact Z].
    Qed.
    Lemma sin_2N s N : sin (th s) = 0 -> sin (2 * INR N * th s) = 0.
    Proof. intros Z. rewrite <- kernel_f, Z. apply Rmult_0_r. Qed.
    Lemma u_kf s N : 0 <= s <= 1 -> u s * nsum (K := RF) N (fun n => 2 * cos ((2 * INR n + 1) * th s)) = q s * sin (2 * PI * INR N * s + - (2 * PI * INR N * tau)).
    Proof.
      intros Hs. replace (2 * PI * INR N * s + - (2 * PI * INR N * tau)) with (2 * INR N * th s) by (unfold th; ring). rewrite (q_u s Hs), <- kernel_f. ring.
    Qed.
    Lemma u_kb s N : 0 <= s <= 1 -> u s * nsum (K := RF) (S N) (kb (th s)) = (q s * cos (th s)) * sin (2 * PI * INR N * s + - (2 * PI * INR N * tau)) + u s * sin (2 * PI * INR N * s + (PI / 2 - 2 * PI * INR N * tau)).
    Proof.
      intros Hs. replace (2 * PI * INR N * s + - (2 * PI * INR N * tau)) with (2 * INR N * th s) by (unfold th; ring). replace (2 * PI * INR N * s + (PI / 2 - 2 * PI * INR N * tau)) with (PI / 2 + 2 * INR N * th s) by (unfold th; field). rewrite <- cos_sin.
      destruct (Req_EM_T (sin (th s)) 0) as [Z|Z].
      - rewrite (Uz s Hs Z), (sin_2N s N Z). ring.
      - apply (Rmult_eq_reg_r (sin (th s))); [|exact Z]. rewrite Rmult_assoc, kernel_b. rewrite (q_u s Hs). ring.
    Qed.
    Lemma lim_f : is_lim_seq (fun N => RInt (fun s => u s * nsum (K := RF) N (fun n => 2 * cos ((2 * INR n + 1) * th s))) 0 1) 0.
    Proof.
      refine (is_lim_seq_ext _ _ _ _ (riemann_lebesgue q (fun N => - (2 * PI * INR N * tau)) q_cont)). intros N. apply RInt_ext. rewrite Rmin_left, Rmax_right by lra. intros s Hs. symmetry. apply u_kf. lra.
    Qed.
    Lemma u_cont s : continuous u s.
    Proof. apply (ex_derive_continuous (V := R_NormedModule)). eexists. apply Hu. Qed.
    Lemma qc_cont s : 0 <= s <= 1 -> continuous (fun s => q s * cos (th s)) s.
    Proof.
      intros Hs. apply (continuous_mult (K := R_AbsRing)); [apply q_cont, Hs|]. apply (ex_derive_continuous (V := R_NormedModule)). unfold th. auto_derive. exact I.
    Qed.
    Lemma lim_b : is_lim_seq (fun N => RInt (fun s => u s * nsum (K := RF) (S N) (kb (th s))) 0 1) 0.
    Proof.
      assert (L := is_lim_seq_plus' _ _ _ _ (riemann_lebesgue (fun s => q s * cos (th s)) (fun N => - (2 * PI * INR N * tau)) qc_cont) (riemann_lebesgue u (fun N => PI / 2 - 2 * PI * INR N * tau) (fun s _ => u_cont s))).
      rewrite Rplus_0_r in L. refine (is_lim_seq_ext _ _ _ _ L). intros N. symmetry. apply is_RInt_unique.
      refine (is_RInt_ext (V := R_NormedModule) _ _ _ _ _ _ (is_RInt_plus (V := R_NormedModule) _ _ _ _ _ _ (RInt_correct (V := R_CompleteNormedModule) _ _ _ (qw_ex _ (fun N => - (2 * PI * INR N * tau)) qc_cont N 0 1 ltac:(lra) ltac:(lra))) (RInt_correct (V := R_CompleteNormedModule) _ _ _ (qw_ex _ (fun N => PI / 2 - 2 * PI * INR N * tau) (fun s _ => u_cont s) N 0 1 ltac:(lra) ltac:(lra))))).
      rewrite Rmin_left, Rmax_right by lra. intros s Hs. symmetry. apply u_kb. lra.
    Qed.
  End U.
  Lemma cos_int m : (0 < m)%nat -> is_RInt (fun s => cos (2 * INR m * th s)) 0 1 0.
  Proof.
    intros Hm. assert (P := PI_RGT_0). assert (M := lt_0_INR m Hm). set (F := fun s => sin (2 * INR m * th s) / (2 * INR m * PI)). replace 0 with (minus (F 1) (F 0)) at 2.
    - apply (is_RInt_derive (V := R_CompleteNormedModule)).
      + intros s _. unfold F, th. auto_derive; [exact I|]. unfold Rminus. field. lra.
      + intros s _. apply (ex_derive_continuous (V := R_NormedModule)). unfold th. auto_derive. exact I.
    - unfold minus, plus, opp; cbn -[INR]. unfold F, th. replace (2 * INR m * (PI * (1 - tau))) with (2 * INR m * (PI * (0 - tau)) + 2 * INR m * PI) by ring. rewrite sin_period. ring.
  Qed.
  Lemma one_int : is_RInt (fun _ : R => 1) 0 1 1.
  Proof. evar_last; [apply (is_RInt_const (V := R_NormedModule))|]. unfold scal; cbn. unfold mult; cbn. ring. Qed.
  Lemma coscos_int n : is_RInt (fun s => cos (th s) * (2 * cos ((2 * INR n + 1) * th s))) 0 1 (match n with O => 1 | _ => 0 end).
  Proof.
    apply (is_RInt_ext (fun s => cos (2 * INR n * th s) + cos (2 * INR (S n) * th s))).
    { intros s _. eqR. rewrite S_INR. replace (2 * INR n * th s) with ((2 * INR n + 1) * th s - th s) by ring. replace (2 * (INR n + 1) * th s) with ((2 * INR n + 1) * th s + th s) by ring. rewrite cos_minus, cos_plus. ring. }
    destruct n as [|n].
    - replace 1 with (1 + 0) at 2 by ring. apply (is_RInt_plus (V := R_NormedModule)); [|apply cos_int; lia]. apply (is_RInt_ext (fun _ => 1)); [|apply one_int]. intros s _. cbn. rewrite Rmult_0_r, Rmult_0_l, cos_0. reflexivity.
    - replace 0 with (0 + 0) at 2 by ring. apply (is_RInt_plus (V := R_NormedModule)); apply cos_int; lia.
  Qed.
  Lemma kb_int n : is_RInt (fun s => kb (th s) n) 0 1 (match n with O => 1 | _ => 0 end).
  Proof.
    destruct n as [|n]; cbn [kb]; [apply one_int|]. replace 0 with (2 * 0) at 2 by ring. apply (is_RInt_scal (V := R_NormedModule)). apply cos_int. lia.
  Qed.
  (** odd multiples of pi integrate to zero only for tau = 0 *)
  Lemma odd_int (x : R) : tau = 0 -> sin (x * PI) = 0 -> x <> 0 -> is_RInt (fun s => cos (x * th s)) 0 1 0.
  Proof.
    intros T S X. assert (P := PI_RGT_0). set (F := fun s => sin (x * th s) / (x * PI)). replace 0 with (minus (F 1) (F 0)) at 2.
    - apply (is_RInt_derive (V := R_CompleteNormedModule)).
      + intros s _. unfold F, th. auto_derive; [exact I|]. unfold Rminus. field. lra.
      + intros s _. apply (ex_derive_continuous (V := R_NormedModule)). unfold th. auto_derive. exact I.
    - unfold minus, plus, opp; cbn. unfold F, th. rewrite T. replace (x * (PI * (1 - 0))) with (x * PI) by ring. replace (x * (PI * (0 - 0))) with 0 by ring. rewrite S, sin_0. field. lra.
  Qed.
  Lemma sin_odd n : sin ((2 * INR n + 1) * PI) = 0.
  Proof. replace ((2 * INR n + 1) * PI) with (PI + 2 * INR n * PI) by ring. rewrite sin_period. apply sin_PI. Qed.

  Variable co : nat -> R.
  Lemma nsum_delta N (f : nat -> R) : (forall n, f n = match n with O => 1 | _ => 0 end) -> nsum (K := RF) (S N) f = 1.
  Proof. intros H. induction N as [|N IH]; [cbn; rewrite (H O); eqR; ring|]. change (nsum (K := RF) (S (S N)) f) with (nsum (K := RF) (S N) f + f (S N)). rewrite IH, H. eqR. ring. Qed.
  Lemma nsum_zero N (f : nat -> R) : (forall n, f n = 0) -> nsum (K := RF) N f = 0.
  Proof. intros H. induction N as [|N IH]; [reflexivity|]. cbn [nsum]. change (@Fadd RF) with Rplus. rewrite IH, H. eqR. ring. Qed.
  Lemma nsum_lin N (f f1 f2 : nat -> R) (x y : R) : nsum (K := RF) N (fun n => f n - x * f1 n - y * f2 n) = nsum (K := RF) N f - x * nsum (K := RF) N f1 - y * nsum (K := RF) N f2.
  Proof. induction N as [|N IH]; cbn [nsum]; [cbn; eqR; ring|]. change (@Fadd RF) with Rplus. rewrite IH. eqR. ring. Qed.

  Theorem fermi_series : (forall n, is_RInt (fun s => g s * (2 * cos ((2 * INR n + 1) * th s))) 0 1 (co n)) -> c = 0 \/ tau = 0 ->
    (forall s, 0 <= s <= 1 -> sin (th s) = 0 -> g s = a * cos (th s) + c) -> is_lim_seq (fun N => nsum (K := RF) N co) a.
  Proof.
    intros Hc O Z. set (u := fun s => g s - a * cos (th s) - c). set (du := fun s => dg s - a * (- sin (th s) * PI)).
    assert (Hu : forall s, is_derive u s (du s)). { intros s. unfold u, du, th. auto_derive; [eexists; apply Hg|]. assert (DG : Derive (fun x => g x) s = dg s) by (apply is_derive_unique, Hg). rewrite DG. unfold Rminus. ring. }
    assert (Uz : forall s, 0 <= s <= 1 -> sin (th s) = 0 -> u s = 0) by (intros s Hs S; unfold u; rewrite (Z s Hs S); ring). assert (L := lim_f u du Hu Uz). apply is_lim_seq_incr_1 in L.
    apply is_lim_seq_incr_1. replace a with (0 + a) by ring. refine (is_lim_seq_ext _ _ _ _ (is_lim_seq_plus' _ _ _ _ L (is_lim_seq_const a))). intros N.
    enough (E : is_RInt (fun s => u s * nsum (K := RF) (S N) (fun n => 2 * cos ((2 * INR n + 1) * th s))) 0 1 (nsum (K := RF) (S N) co - a)) by (rewrite (is_RInt_unique _ _ _ _ E); eqR; ring).
    apply (is_RInt_ext (fun s => nsum (K := RF) (S N) (fun n => g s * (2 * cos ((2 * INR n + 1) * th s)) - a * (cos (th s) * (2 * cos ((2 * INR n + 1) * th s))) - c * (2 * cos ((2 * INR n + 1) * th s))))).
    { intros s _. eqR. rewrite nsum_lin, <- !nsum_scal_l. unfold u. ring. }
    eapply is_RInt_eq; [apply (is_RInt_nsum (S N) _ (fun n => co n - a * (match n with O => 1 | _ => 0 end) - c * 0))|].
    - intros n. apply (rint_lin (fun s => g s * (2 * cos ((2 * INR n + 1) * th s))) (fun s => cos (th s) * (2 * cos ((2 * INR n + 1) * th s))) (fun s => 2 * cos ((2 * INR n + 1) * th s))); [apply Hc|apply coscos_int|].
      destruct O as [->|T].
      + apply (is_RInt_ext (fun _ => 0)); [intros s _; eqR; ring|]. evar_last; [apply (is_RInt_const (V := R_NormedModule))|]. unfold scal; cbn. unfold mult; cbn. ring.
      + apply (is_RInt_scal (V := R_NormedModule)). replace 0 with (2 * 0) at 2 by ring. apply (is_RInt_scal (V := R_NormedModule)). apply odd_int; [exact T|apply sin_odd|]. assert (P := pos_INR n). lra.
    - rewrite nsum_lin, (nsum_delta N (fun n => match n with O => 1 | _ => 0 end)) by reflexivity. rewrite (nsum_zero _ (fun _ => 0)) by reflexivity. eqR. ring.
  Qed.
  Theorem bose_series : (forall n, is_RInt (fun s => g s * kb (th s) n) 0 1 (co n)) -> c = 0 \/ tau = 0 ->
    (forall s, 0 <= s <= 1 -> sin (th s) = 0 -> g s = a + c * cos (th s)) -> is_lim_seq (fun N => nsum (K := RF) (S N) co) a.
  Proof.
    intros Hc O Z. set (u := fun s => g s - a - c * cos (th s)). set (du := fun s => dg s - c * (- sin (th s) * PI)).
    assert (Hu : forall s, is_derive u s (du s)). { intros s. unfold u, du, th. auto_derive; [eexists; apply Hg|]. assert (DG : Derive (fun x => g x) s = dg s) by (apply is_derive_unique, Hg). rewrite DG. unfold Rminus. ring. }
    assert (Uz : forall s, 0 <= s <= 1 -> sin (th s) = 0 -> u s = 0) by (intros s Hs S; unfold u; rewrite (Z s Hs S); ring). assert (L := lim_b u du Hu Uz).
    replace a with (0 + a) by ring. refine (is_lim_seq_ext _ _ _ _ (is_lim_seq_plus' _ _ _ _ L (is_lim_seq_const a))). intros N.
    enough (E : is_RInt (fun s => u s * nsum (K := RF) (S N) (kb (th s))) 0 1 (nsum (K := RF) (S N) co - a)) by (rewrite (is_RInt_unique _ _ _ _ E); eqR; ring).
    apply (is_RInt_ext (fun s => nsum (K := RF) (S N) (fun n => g s * kb (th s) n - a * kb (th s) n - c * (cos (th s) * kb (th s) n)))).
    { intros s _. eqR. rewrite nsum_lin, <- !nsum_scal_l. unfold u. match goal with |- _ = _ * ?k => set (y := k); change (nsum (K := RF) (S N) (fun n => kb (th s) n)) with y end. ring. }
    eapply is_RInt_eq; [apply (is_RInt_nsum (S N) _ (fun n => co n - a * (match n with O => 1 | _ => 0 end) - c * 0))|].
    - intros n. apply (rint_lin (fun s => g s * kb (th s) n) (fun s => kb (th s) n) (fun s => cos (th s) * kb (th s) n)); [apply Hc|apply kb_int|].
      destruct O as [->|T].
      + apply (is_RInt_ext (fun _ => 0)); [intros s _; eqR; ring|]. evar_last; [apply (is_RInt_const (V := R_NormedModule))|]. unfold scal; cbn. unfold mult; cbn. ring.
      + apply (is_RInt_scal (V := R_NormedModule)). destruct n as [|n]; cbn [kb].
        * apply (is_RInt_ext (fun s => cos (1 * th s))); [intros s _; eqR; rewrite Rmult_1_l; ring|]. apply odd_int; [exact T| |lra]. rewrite Rmult_1_l. apply sin_PI.
        * apply (is_RInt_ext (fun s => cos ((2 * INR (S n) + 1) * th s) + cos ((2 * INR n + 1) * th s))).
          { intros s _. eqR. replace ((2 * INR (S n) + 1) * th s) with (2 * INR (S n) * th s + th s) by ring. replace ((2 * INR n + 1) * th s) with (2 * INR (S n) * th s - th s) by (rewrite S_INR; ring). rewrite cos_plus, cos_minus. ring. }
          replace 0 with (0 + 0) at 2 by ring. assert (P := pos_INR n). apply (is_RInt_plus (V := R_NormedModule)); (apply odd_int; [exact T|apply sin_odd|]); rewrite ?S_INR; lra.
    - rewrite nsum_lin, (nsum_delta N (fun n => match n with O => 1 | _ => 0 end)) by reflexivity. rewrite (nsum_zero _ (fun _ => 0)) by reflexivity. eqR. ring.
  Qed.
End Ser.
