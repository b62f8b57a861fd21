(** * tau2iv: the part linear in tau is transformed exactly *)
From Coq Require Import List Arith ZArith Reals Lia Lra Bool String Field.
From Coquelicot Require Import Coquelicot.
From Verif Require Import Base FSum CBase CExp Herm_Proofs LinPred_Burg Matrix_Time Stat_Model Linalg_Model Pole_Model Fourier_Model Fourier_Dft Fourier_Filon Fourier_Lin Fourier_Series.
Import ListNotations.
Local Open Scope C_scope.

Lemma iv_beta m beta : beta <> 0%R -> cexp (matsubara_frequencies_b (Z.of_nat m) beta * RtoC beta) = 1.
Proof.
  intros Hb. rewrite iv_R by exact Hb. unfold cexp. cbn [Ci Cmult RtoC fst snd].
  replace ((0 * (2 * PI * IZR (Z.of_nat m) / beta) - 1 * 0) * beta - (0 * 0 + 1 * (2 * PI * IZR (Z.of_nat m) / beta)) * 0)%R with 0%R by ring.
  replace ((0 * (2 * PI * IZR (Z.of_nat m) / beta) - 1 * 0) * 0 + (0 * 0 + 1 * (2 * PI * IZR (Z.of_nat m) / beta)) * beta)%R with (2 * IZR (Z.of_nat m) * PI)%R by (field; exact Hb).
  rewrite exp_0, cos_2Zpi. replace (2 * IZR (Z.of_nat m) * PI)%R with (IZR (2 * Z.of_nat m) * PI)%R by (rewrite mult_IZR; ring). rewrite sin_Zpi. apply C_ext; cbn; ring.
Qed.
Lemma iv_neq0 m beta : beta <> 0%R -> (0 < m)%nat -> matsubara_frequencies_b (Z.of_nat m) beta <> 0.
Proof.
  intros Hb Hm. rewrite iv_R by exact Hb. apply Cmult_neq_0; [exact Ci_neq|]. apply RtoC_neq. assert (P := PI_neq0). assert (IZR (Z.of_nat m) <> 0)%R by (apply IZR_neq; lia).
  unfold Rdiv. apply Rmult_integral_contrapositive_currified; [|now apply Rinv_neq_0_compat]. apply Rmult_integral_contrapositive_currified; [lra|assumption].
Qed.
Lemma linear_integral m beta c : beta <> 0%R ->
  is_CInt (fun tau => cexp (matsubara_frequencies_b (Z.of_nat m) beta * RtoC tau) * RtoC (c * tau)) 0 beta
    (if (m =? 0)%nat then RtoC (/ 2 * (c * beta) * beta) else RtoC (c * beta) / matsubara_frequencies_b (Z.of_nat m) beta).
Proof.
  intros Hb. destruct (Nat.eqb_spec m 0) as [->|Hm].
  - refine (is_CInt_ext _ _ _ _ _ _ (is_CInt_eq _ _ _ _ _ (ftc_quad (RtoC 0) (RtoC c) 0 beta) _)).
    + intros t _. rewrite iv_R by exact Hb. cbn [Z.of_nat]. replace (2 * PI * 0 / beta)%R with 0%R by (unfold Rdiv; ring). rewrite Cmult_0_r, Cmult_0_l, cexp_0, RtoC_mult. ring.
    + rewrite Cmult_0_l, Cplus_0_l, <- RtoC_mult. f_equal. field.
  - set (s := matsubara_frequencies_b (Z.of_nat m) beta). assert (Hs : s <> 0) by (apply iv_neq0; [exact Hb|lia]).
    refine (is_CInt_ext _ _ _ _ _ _ (is_CInt_eq _ _ _ _ _ (ftc_explin s (- RtoC c / (s * s)) (RtoC c / s) 0 beta) _)).
    + intros t _. rewrite RtoC_mult. f_equal. field. exact Hs.
    + unfold s at 1 2. rewrite iv_beta by exact Hb. fold s. rewrite Cmult_0_r, cexp_0, RtoC_mult. field. exact Hs.
Qed.

Theorem tau2iv_rest fourier c rest beta giv : beta <> 0%R -> (2 <= List.length rest)%nat -> last rest 0%R = nth 0 rest 0%R -> fourier rest beta = Ok giv -> giv <> [] ->
  exists out, tau2iv fourier (map (fun k => (c * linspace 0 beta (List.length rest) k + nth k rest 0)%R) (seq 0 (List.length rest))) beta = Ok out /\
    List.length out = List.length giv /\
    forall m, (m < List.length giv)%nat -> exists v,
      is_CInt (fun tau => cexp (matsubara_frequencies_b (Z.of_nat m) beta * RtoC tau) * RtoC (c * tau)) 0 beta v /\ nth m out (RtoC 0) = nth m giv (RtoC 0) + v.
Proof.
  intros Hb HN Hl HF Hg. set (N := List.length rest) in *. set (g := map _ (seq 0 N)). assert (Lg : List.length g = N) by (unfold g; now rewrite map_length, seq_length).
  assert (E0 : nth 0 g 0%R = nth 0 rest 0%R). { unfold g. rewrite nth_map_seq by lia. rewrite linspace_0. ring. }
  assert (NL : forall l : list R, l <> [] -> last l 0%R = nth (List.length l - 1) l 0%R).
  { intros l Hn. destruct (exists_last Hn) as (l' & a & ->). rewrite last_last, app_length. cbn [List.length]. rewrite app_nth2 by lia. replace (List.length l' + 1 - 1 - List.length l')%nat with 0%nat by lia. reflexivity. }
  assert (E1 : last g 0%R = (c * beta + nth 0 rest 0)%R).
  { rewrite NL by (intros E; rewrite E in Lg; cbn in Lg; lia). rewrite Lg. unfold g. rewrite nth_map_seq by lia. rewrite <- Hl, (NL rest) by (intros E; unfold N in HN; rewrite E in HN; cbn in HN; lia).
    fold N. replace N with (S (N - 1)) at 1 by lia. rewrite linspace_end by lia. reflexivity. }
  unfold tau2iv. destruct g as [|g0 gr] eqn:Egg; [cbn in Lg; lia|]. rewrite <- Egg in *. assert (G0 : g0 = nth 0 rest 0%R) by (rewrite <- E0, Egg; reflexivity). rewrite Lg.
  assert (Eg1 : (last g 0 - g0 = c * beta)%R) by (rewrite E1, G0; ring). rewrite Eg1.
  assert (Es : map (fun i => (nth i g 0 - c * beta / beta * linspace 0 beta N i)%R) (seq 0 N) = rest).
  { apply (list_ext _ _ 0%R); [now rewrite map_length, seq_length|]. intros k Hk. rewrite map_length, seq_length in Hk. rewrite nth_map_seq by exact Hk. unfold g. rewrite nth_map_seq by exact Hk. field. exact Hb. }
  rewrite Es, HF. cbn [bind]. destruct giv as [|w gv] eqn:Ev; [congruence|]. rewrite <- Ev in *. eexists. split; [reflexivity|]. rewrite map_length, seq_length. split; [reflexivity|].
  intros m Hm. eexists. split; [apply (linear_integral m beta c Hb)|]. rewrite nth_map_seq by exact Hm. destruct (m =? 0)%nat; reflexivity.
Qed.

(** with the linear interpolation as back-end nothing changes *)
Theorem tau2iv_ft_lin_same g beta : (0 < beta)%R -> (2 <= List.length g)%nat -> tau2iv tau2iv_ft_lin g beta = tau2iv_ft_lin g beta.
Proof.
  intros Hb HN. assert (Nb : beta <> 0%R) by lra. set (N := List.length g) in *.
  assert (NL : forall l : list R, l <> [] -> last l 0%R = nth (List.length l - 1) l 0%R).
  { intros l Hn. destruct (exists_last Hn) as (l' & a & ->). rewrite last_last, app_length. cbn [List.length]. rewrite app_nth2 by lia. replace (List.length l' + 1 - 1 - List.length l')%nat with 0%nat by lia. reflexivity. }
  set (c := ((last g 0 - nth 0 g 0) / beta)%R). set (rest := map (fun k => (nth k g 0 - c * linspace 0 beta N k)%R) (seq 0 N)).
  assert (Lr : List.length rest = N) by (unfold rest; now rewrite map_length, seq_length).
  assert (Hn0 : forall l : list R, List.length l = N -> l <> []) by (intros l E E2; rewrite E2 in E; cbn in E; lia).
  assert (T : forall l, List.length l = N -> exists giv, tau2iv_ft_lin l beta = Ok giv).
  { intros [|a [|b l]] L; [cbn in L; lia|cbn in L; lia|]. unfold tau2iv_ft_lin. rewrite ihfft_ok by discriminate. cbn [bind]. rewrite ihfft_ok by discriminate. cbn [bind]. eexists. reflexivity. }
  destruct (T g eq_refl) as (G & EG). destruct (T rest Lr) as (giv & Er).
  destruct (tau2iv_ft_lin_exact g beta G Nb EG) as [LG XG]. destruct (tau2iv_ft_lin_exact rest beta giv Nb Er) as [Lv Xv]. rewrite Lr in Lv, Xv. fold N in LG, XG.
  assert (Hlast : last rest 0%R = nth 0 rest 0%R).
  { rewrite NL by (apply Hn0, Lr). rewrite Lr. unfold rest. rewrite !nth_map_seq by lia. rewrite linspace_0. replace (linspace 0 beta N (N - 1)) with beta.
    - unfold c. rewrite (NL g) by (apply Hn0; reflexivity). fold N. field. exact Nb.
    - replace N with (S (N - 1)) at 1 by lia. rewrite linspace_end by lia. reflexivity. }
  assert (Ng : giv <> []) by (intros E; rewrite E in Lv; cbn in Lv; lia).
  destruct (tau2iv_rest tau2iv_ft_lin c rest beta giv Nb ltac:(lia) Hlast Er Ng) as (out & EO & LO & HO). rewrite Lr in EO.
  assert (Eg : map (fun k => (c * linspace 0 beta N k + nth k rest 0)%R) (seq 0 N) = g).
  { apply (list_ext _ _ 0%R); [now rewrite map_length, seq_length|]. intros k Hk. rewrite map_length, seq_length in Hk. rewrite nth_map_seq by exact Hk. unfold rest. rewrite nth_map_seq by exact Hk. ring. }
  rewrite Eg in EO. rewrite EO, EG. f_equal. apply (list_ext _ _ (RtoC 0)); [congruence|]. intros m Hm. rewrite LO in Hm. destruct (HO m Hm) as (v & Iv & Ev). rewrite Ev.
  set (tg := linspace 0 beta N).
  assert (Inc : forall k, (k < N - 1)%nat -> (tg k < tg (S k))%R).
  { intros k Hk. unfold tg. replace N with (S (N - 1)) by lia. rewrite linspace_S by lia. assert (0 < beta / INR (N - 1))%R by (apply Rdiv_lt_0_compat; [exact Hb|apply lt_0_INR; lia]). lra. }
  set (f := pl tg (fun k => RtoC (nth k g 0%R)) (N - 1)). assert (If : interpolates f tg (fun k => RtoC (nth k g 0%R)) (N - 1)) by (apply pl_interpolates; exact Inc).
  set (f2 := fun t => f t - RtoC (c * t)).
  assert (If2 : interpolates f2 tg (fun k => RtoC (nth k rest 0%R)) (N - 1)).
  { intros k Hk t Ht. unfold f2. rewrite (If k Hk t Ht). unfold rest. rewrite !nth_map_seq by lia. fold tg. assert (I := Inc k Hk).
    rewrite <- !RtoC_minus, <- !RtoC_mult, <- !RtoC_plus, <- RtoC_minus. f_equal. field. lra. }
  assert (A := Xv m f2 ltac:(lia) If2). assert (B := XG m f ltac:(lia) If).
  refine (is_CInt_unique _ _ _ _ _ _ B). refine (is_CInt_ext _ _ _ _ _ _ (is_CInt_plus _ _ _ _ _ _ A Iv)). intros t _. unfold f2. ring.
Qed.
