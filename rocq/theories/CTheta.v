(** * Euler's operator z d/dz, Taylor coefficients and the uniqueness of the regular solution at a regular singular point *)
From Coq Require Import Reals Lra Lia.
From Coquelicot Require Import Coquelicot.
From Verif Require Import Base CBase CExp CSqrt Bethe_Proofs Bethe_Main Fourier_Filon LatInt_Spec LatInt_Proofs LatInt_Hilbert LatInt_Fubini LatInt_Square LatInt_Legendre CAnal CHol CEll CHolo.
Local Open Scope C_scope.

Definition th (U : C -> Prop) (f g : C -> C) : Prop := exists f', hol U f f' /\ forall w, U w -> g w = w * f' w.
Lemma th_holo U f g : th U f g -> holo U f. Proof. intros (f' & H & _). now exists f'. Qed.
Lemma th_const U c : th U (fun _ => c) (fun _ => RtoC 0). Proof. eexists. split; [apply hol_const|]. intros w _. cbv beta. ring. Qed.
Lemma th_id U : th U (fun w => w) (fun w => w). Proof. eexists. split; [apply hol_id|]. intros w _. cbv beta. ring. Qed.
Lemma th_plus U f g f1 g1 : th U f f1 -> th U g g1 -> th U (fun w => f w + g w) (fun w => f1 w + g1 w).
Proof. intros (f' & A & B) (g' & X & Y). eexists. split; [apply hol_plus; eassumption|]. intros w H. cbv beta. rewrite B, Y by exact H. ring. Qed.
Lemma th_minus U f g f1 g1 : th U f f1 -> th U g g1 -> th U (fun w => f w - g w) (fun w => f1 w - g1 w).
Proof. intros (f' & A & B) (g' & X & Y). eexists. split; [apply hol_minus; eassumption|]. intros w H. cbv beta. rewrite B, Y by exact H. ring. Qed.
Lemma th_mult U f g f1 g1 : th U f f1 -> th U g g1 -> th U (fun w => f w * g w) (fun w => f1 w * g w + f w * g1 w).
Proof. intros (f' & A & B) (g' & X & Y). eexists. split; [apply hol_mult; eassumption|]. intros w H. cbv beta. rewrite B, Y by exact H. ring. Qed.
Lemma th_scal U c f f1 : th U f f1 -> th U (fun w => c * f w) (fun w => c * f1 w).
Proof. intros (f' & A & B). eexists. split; [apply hol_mult; [apply hol_const|exact A]|]. intros w H. cbv beta. rewrite B by exact H. ring. Qed.
Lemma th_ext (U : C -> Prop) f g f1 g1 : opn U -> (forall w, U w -> f w = g w) -> (forall w, U w -> f1 w = g1 w) -> th U f f1 -> th U g g1.
Proof. intros O E E1 (f' & A & B). exists f'. split; [apply (hol_ext U f); assumption|]. intros w H. rewrite <- E1 by exact H. apply B, H. Qed.
Lemma th_unique (U : C -> Prop) f g f1 g1 : opn U -> (forall w, U w -> f w = g w) -> th U f f1 -> th U g g1 -> forall w, U w -> f1 w = g1 w.
Proof.
  intros O E (f' & A & B) (g' & X & Y) w H. rewrite B, Y by exact H. f_equal. apply (hol_unique U g); [apply (hol_ext U f); assumption|intros v Hv; apply X, Hv|exact H].
Qed.
Lemma th_sub (U V : C -> Prop) f g : (forall w, V w -> U w) -> th U f g -> th V f g.
Proof. intros S (f' & A & B). exists f'. split; [apply (hol_sub U); assumption|]. intros w H. apply B, S, H. Qed.
Lemma th_ex (U : C -> Prop) f : opn U -> holo U f -> exists g, th U f g /\ holo U g.
Proof.
  intros O (f' & A). exists (fun w => w * f' w). split; [exists f'; split; [exact A|reflexivity]|]. apply holo_mult; [apply holo_id|]. exists (cD f'). apply (hol_derive U f); assumption.
Qed.

(** ** Taylor coefficients at the origin *)
Section Coef.
Variables (r rho : R).
Hypothesis Hr : (0 < rho < r)%R.
Notation E := (circ rho).
Notation D := (disc 0 r).
Lemma E_disc t : D (0 + E t).
Proof. unfold disc. replace (0 + E t - 0) with (E t) by ring. rewrite Cmod_circ; lra. Qed.
Lemma En t : E t <> 0. Proof. exact (E_neq0 r rho Hr t). Qed.
Lemma coef_int f n : holo D f -> is_CInt (fun t => f (0 + E t) * Cpow (/ E t) n) 0 (2 * PI) (coef f 0 rho n).
Proof. intros (f' & H). exact (coef_is f f' 0 r H rho Hr n). Qed.
Lemma Epow_rcd n t : rcd (fun t => Cpow (/ E t) n) t (- Ci * RtoC (INR n) * Cpow (/ E t) n).
Proof.
  induction n as [|n IH]; [cbn [Cpow]; eapply rcd_eq; [apply rcd_const|cbn; ring]|].
  assert (A : rcd (fun t => / E t) t (- Ci * / E t)).
  { eapply rcd_eq; [apply (rcd_comp (fun z => / z) (circ rho)); [|apply circ_rcd]|]. - apply (is_cderive_inv (fun z => z)); [apply is_cderive_id|apply En]. - assert (N := En t). field. exact N. }
  eapply rcd_eq; [apply (rcd_mult (fun t => / E t) (fun t => Cpow (/ E t) n)); [exact A|exact IH]|]. cbv beta. rewrite S_INR, RtoC_plus. cbn [Cpow]. ring.
Qed.
Lemma coef_th f g n : th D f g -> holo D g -> coef g 0 rho n = RtoC (INR n) * coef f 0 rho n.
Proof.
  intros T G. assert (HF := th_holo _ _ _ T). destruct T as (f' & A & B). assert (NI : Ci <> 0) by (intros X; apply (f_equal snd) in X; cbn in X; lra).
  assert (I : is_CInt (fun t => Ci * (g (0 + E t) * Cpow (/ E t) n - RtoC (INR n) * (f (0 + E t) * Cpow (/ E t) n))) 0 (2 * PI) 0).
  { apply (ftc_period (fun t => f (0 + E t) * Cpow (/ E t) n)).
    - intros t. eapply rcd_eq; [apply (rcd_mult (fun t => f (0 + E t)) (fun t => Cpow (/ E t) n)); [apply (rcd_comp f (fun t => 0 + E t)); [apply A, E_disc|apply rcd_plus; [apply rcd_const|apply circ_rcd]]|apply Epow_rcd]|]. cbv beta. rewrite (B _ (E_disc t)). ring.
    - intros t. apply ccont_mult; [apply ccont_const|]. destruct G as (g' & G). apply ccont_minus; [apply ccont_mult; [apply (f_circ_cont g g' 0 r G); lra|exact (Epow_cont r rho Hr n t)]|]. apply ccont_mult; [apply ccont_const|]. apply ccont_mult; [apply (f_circ_cont f f' 0 r A); lra|exact (Epow_cont r rho Hr n t)].
    - rewrite circ_period. reflexivity. }
  assert (J := is_CInt_scal Ci _ _ _ _ (is_CInt_minus _ _ _ _ _ _ (coef_int g n G) (is_CInt_scal (RtoC (INR n)) _ _ _ _ (coef_int f n HF)))).
  assert (Q := is_CInt_unique _ _ _ _ _ I J). cbv beta in Q. apply Csub_0. replace (coef g 0 rho n - RtoC (INR n) * coef f 0 rho n) with (/ Ci * (Ci * (coef g 0 rho n - RtoC (INR n) * coef f 0 rho n))) by (field; exact NI). rewrite <- Q. ring.
Qed.
Lemma coef_0 f : holo D f -> coef f 0 rho 0 = RtoC (2 * PI) * f 0.
Proof.
  intros (f' & H). assert (Z : (Cmod (0 - 0)%C < rho)%R) by (replace (0 - 0 : C) with (RtoC 0) by ring; rewrite Cmod_0; lra). rewrite <- (rest_0 f f' 0 r H rho Hr 0 Z).
  rewrite (rest_S f f' 0 r H rho Hr 0 (0 - 0) Z). ring.
Qed.
Lemma coef_all f : holo D f -> (forall n, coef f 0 rho n = 0) -> forall u, (Cmod u <= rho / 2)%R -> f u = 0.
Proof.
  intros (f' & H) CZ u Hu. assert (Hq : (Cmod (u - 0)%C < rho)%R) by (replace (u - 0) with u by ring; lra). destruct (rest_bound f f' 0 r H rho Hr) as (B & HB & RB).
  assert (R0 := rest_0 f f' 0 r H rho Hr u Hq). replace (u - 0) with u in * by ring.
  assert (EX : forall k, rest f 0 rho 0 u = Cpow u k * rest f 0 rho k u). { intros k. induction k as [|k IHk]; [cbn [Cpow]; ring|]. rewrite IHk, (rest_S f f' 0 r H rho Hr k u Hq), CZ. cbn [Cpow]. ring. }
  assert (T := two_pi_pos). assert (NT : RtoC (2 * PI) <> 0) by (intros X; apply RtoC_inj in X; lra).
  destruct (Ceq_dec (f u) 0) as [|N]; [assumption|exfalso]. assert (PN := proj1 (Cmod_gt_0 _) N).
  assert (P : forall k, (Cmod (RtoC (2 * PI) * f u)%C <= (1 / 2) ^ k * B)%R).
  { intros k. rewrite <- R0, (EX k), Cmod_mult, Cmod_Cpow. apply Rle_trans with ((rho / 2) ^ k * (B * (/ rho) ^ k))%R.
    - apply Rmult_le_compat; [apply pow_le, Cmod_ge_0|apply Cmod_ge_0|apply pow_incr; split; [apply Cmod_ge_0|exact Hu]|apply RB, Hu].
    - right. replace ((1 / 2) ^ k)%R with ((rho / 2) ^ k * (/ rho) ^ k)%R; [ring|]. rewrite <- Rpow_mult_distr. f_equal. field. lra. }
  destruct (pow_to_0 (1 / 2) B ltac:(lra) ltac:(lra) (Cmod (RtoC (2 * PI) * f u)%C)) as (k & Hk). { rewrite Cmod_mult. apply Rmult_lt_0_compat; [apply Cmod_gt_0; exact NT|exact PN]. }
  specialize (P k). lra.
Qed.
(** theta^3 d = w (a3 theta^3 + a2 theta^2 + a1 theta + a0) d and d(0) = 0 *)
Lemma theta3_unique (d0 d1 d2 d3 : C -> C) (a0 a1 a2 a3 : C) : th D d0 d1 -> th D d1 d2 -> th D d2 d3 -> holo D d3 ->
  (forall w, D w -> d3 w = w * (a3 * d3 w + a2 * d2 w + a1 * d1 w + a0 * d0 w)) -> d0 0 = 0 -> forall u, (Cmod u <= rho / 2)%R -> d0 u = 0.
Proof.
  intros T0 T1 T2 H3 ODE Z. assert (H0 := th_holo _ _ _ T0). assert (H1 := th_holo _ _ _ T1). assert (H2 := th_holo _ _ _ T2). apply coef_all; [exact H0|].
  assert (C1 : forall n, coef d1 0 rho n = RtoC (INR n) * coef d0 0 rho n) by (intros n; apply coef_th; assumption).
  assert (C2 : forall n, coef d2 0 rho n = RtoC (INR n) * coef d1 0 rho n) by (intros n; apply coef_th; assumption).
  assert (C3 : forall n, coef d3 0 rho n = RtoC (INR n) * coef d2 0 rho n) by (intros n; apply coef_th; assumption).
  intros n. induction n as [|n IH]; [rewrite coef_0, Z by exact H0; ring|].
  assert (S : coef d3 0 rho (S n) = a3 * coef d3 0 rho n + a2 * coef d2 0 rho n + a1 * coef d1 0 rho n + a0 * coef d0 0 rho n).
  { apply (is_CInt_unique (fun t => d3 (0 + E t) * Cpow (/ E t) (S n)) 0 (2 * PI)); [apply coef_int, H3|].
    apply is_CInt_ext with (2 := is_CInt_plus _ _ _ _ _ _ (is_CInt_plus _ _ _ _ _ _ (is_CInt_plus _ _ _ _ _ _ (is_CInt_scal a3 _ _ _ _ (coef_int d3 n H3)) (is_CInt_scal a2 _ _ _ _ (coef_int d2 n H2))) (is_CInt_scal a1 _ _ _ _ (coef_int d1 n H1))) (is_CInt_scal a0 _ _ _ _ (coef_int d0 n H0))).
    intros t _. cbv beta. assert (O := ODE _ (E_disc t)). cbn [Cpow]. assert (N := En t).
    transitivity ((0 + E t) * (a3 * d3 (0 + E t) + a2 * d2 (0 + E t) + a1 * d1 (0 + E t) + a0 * d0 (0 + E t)) * (/ E t * Cpow (/ E t) n)); [field; exact N|rewrite <- O; reflexivity]. }
  rewrite C3, C2, C1 in S. rewrite C3, C2, C1, IH in S. assert (NN : RtoC (INR (Datatypes.S n)) <> 0) by (apply RtoC_neq0, not_0_INR; lia). set (q := RtoC (INR (Datatypes.S n))) in *.
  replace (coef d0 0 rho (Datatypes.S n)) with (/ q * (/ q * (/ q * (q * (q * (q * coef d0 0 rho (Datatypes.S n))))))) by (field; exact NN). rewrite S. ring.
Qed.
End Coef.
