From Coq Require Import Reals Lra Psatz Bool Field.
From Coquelicot Require Import Coquelicot.
From Verif Require Import Base CBase Lattice_Model Bethe_Proofs Dimer_Spec.
Local Open Scope C_scope.

(** ground state: p on the doubly occupied, q on the singly occupied sites; c1u+ c1d+ etc. in the chosen order of
    orbitals: |1u 1d>, |2u 2d>, |1u 2d>, and c2u+ c1d+ = - c1d+ c2u+ *)
Definition gs (p q : R) : ket := fun a b c d =>
  match a, b, c, d with
  | true, true, false, false => RtoC p
  | false, false, true, true => RtoC p
  | true, false, false, true => RtoC q
  | false, true, true, false => RtoC (- q)
  | _, _, _, _ => 0
  end.
Ltac kunf := unfold keq, ham, hop, num, cpm, cpm_dag, kadd, kscal, ann, cre, gs, sgn.

Section G.
Variables t U : R.
Let W := sqrt (1 / 4 * U * U + 4 * t * t).
Let E0 := (1 / 2 * U - W)%R.
Hypothesis H : t <> 0%R \/ (0 < U)%R.
Lemma W_sqr : (W * W = 1 / 4 * U * U + 4 * t * t)%R. Proof. apply sqrt_sqrt. nra. Qed.
Lemma W_pos : (0 < W)%R. Proof. apply sqrt_lt_R0. destruct H as [N|N]; nra. Qed.
Lemma PQ : ((U - E0) * (- E0) = 4 * (t * t))%R.
Proof. unfold E0. transitivity (W * W - 1 / 4 * U * U)%R; [field|rewrite W_sqr; ring]. Qed.
Lemma P_pos : (0 < U - E0)%R.
Proof.
  unfold E0. assert (S := W_sqr). assert (P := W_pos). destruct (Rlt_dec (- (1 / 2 * U)) W) as [|N]; [lra|exfalso].
  destruct H as [Ht|HU]; [|lra]. assert (0 < t * t)%R by nra. nra.
Qed.
Lemma Q_nonneg : (0 <= - E0)%R.
Proof. assert (P := P_pos). assert (X := PQ). destruct (Rle_dec 0 (- E0)) as [|N]; [assumption|exfalso]. nra. Qed.
Let n2 := (2 * (4 * t * t + (U - E0) * (U - E0)))%R.
Lemma n2_pos : (0 < n2)%R. Proof. unfold n2. assert (P := P_pos). nra. Qed.
Let k := (/ sqrt n2)%R.
Let p := (2 * t * k)%R.
Let q := ((U - E0) * k)%R.
Lemma k_sqr : (k * k * n2 = 1)%R.
Proof. unfold k. assert (S := sqrt_sqrt n2 (Rlt_le _ _ n2_pos)). assert (P := sqrt_lt_R0 _ n2_pos). rewrite <- S at 3. field. lra. Qed.
Lemma pq_norm : (2 * (p * p + q * q) = 1)%R.
Proof. unfold p, q. rewrite <- k_sqr. unfold n2. ring. Qed.
Lemma row1 : (U * p - 2 * t * q = E0 * p)%R. Proof. unfold p, q. ring. Qed.
Lemma row2 : (- 2 * t * p = E0 * q)%R.
Proof. unfold p, q. transitivity (- (4 * (t * t)) * k)%R; [ring|]. rewrite <- PQ. ring. Qed.

Lemma gs_eigen : keq (ham t U (gs p q)) (kscal (RtoC E0) (gs p q)).
Proof.
  assert (R1 := row1). assert (R2 := row2).
  intros a b c d. destruct a, b, c, d; kunf; apply C_ext; cbn; lra.
Qed.
Lemma gs_min x : half_filled x -> (E0 * fst (bra (kconj x) x) <= fst (bra (kconj x) (ham t U x)))%R.
Proof.
  intros Hx. assert (Q := Q_nonneg). assert (P := P_pos). assert (S := PQ).
  assert (Z : forall a b c d, (bnat a + bnat b + bnat c + bnat d)%nat <> 2%nat -> x a b c d = 0) by exact Hx.
  unfold bra, sum2. kunf. unfold kconj. cbv beta iota. rewrite !(Z false false false false), !(Z true false false false), !(Z false true false false), !(Z false false true false), !(Z false false false true),
   !(Z true true true true), !(Z false true true true), !(Z true false true true), !(Z true true false true), !(Z true true true false) by (cbn; discriminate).
  destruct (x true true false false) as [a1 a2]. destruct (x false false true true) as [b1 b2]. destruct (x true false false true) as [c1 c2]. destruct (x false true true false) as [d1 d2].
  destruct (x true false true false) as [e1 e2]. destruct (x false true false true) as [f1 f2].
  assert (Key : forall a b c d : R, (0 <= (U - E0) * (a * a + b * b) + (- E0) * (c * c + d * d) - 2 * t * (a + b) * (c - d))%R).
  { intros a b c d. apply (Rmult_le_reg_l (2 * (U - E0))); [lra|]. rewrite Rmult_0_r.
    replace (2 * (U - E0) * ((U - E0) * (a * a + b * b) + - E0 * (c * c + d * d) - 2 * t * (a + b) * (c - d)))%R
     with ((U - E0) * (U - E0) * (a - b) * (a - b) + (U - E0) * (- E0) * (c + d) * (c + d) + ((U - E0) * (U - E0) * (a + b) * (a + b) + (U - E0) * (- E0) * (c - d) * (c - d) - 4 * t * (U - E0) * (a + b) * (c - d)))%R by ring.
    rewrite S. replace ((U - E0) * (U - E0) * (a + b) * (a + b) + 4 * (t * t) * (c - d) * (c - d) - 4 * t * (U - E0) * (a + b) * (c - d))%R with (((U - E0) * (a + b) - 2 * t * (c - d)) * ((U - E0) * (a + b) - 2 * t * (c - d)))%R by ring.
    assert (X1 := Rle_0_sqr ((U - E0) * (a - b))). assert (X2 := Rle_0_sqr (t * (c + d))). assert (X3 := Rle_0_sqr ((U - E0) * (a + b) - 2 * t * (c - d))). unfold Rsqr in *. lra. }
  assert (K1 := Key a1 b1 c1 d1). assert (K2 := Key a2 b2 c2 d2). cbn.
  assert (X1 := Rle_0_sqr e1). assert (X2 := Rle_0_sqr e2). assert (X3 := Rle_0_sqr f1). assert (X4 := Rle_0_sqr f2). unfold Rsqr in *.
  assert (Y : (0 <= - E0 * (e1 * e1 + e2 * e2 + f1 * f1 + f2 * f2))%R) by (apply Rmult_le_pos; lra). lra.
Qed.
Lemma gs_ground : ground_state t U E0 (gs p q).
Proof.
  repeat split.
  - intros a b c d. destruct a, b, c, d; cbn; intros N; try reflexivity; exfalso; apply N; reflexivity.
  - intros a b c d. destruct a, b, c, d; reflexivity.
  - assert (N := pq_norm). unfold bra, sum2, gs. apply C_ext; cbn; lra.
  - exact gs_eigen.
  - exact gs_min.
Qed.

Lemma half_sqr : (/ sqrt 2 * / sqrt 2 = 1 / 2)%R.
Proof. assert (S := sqrt_sqrt 2 ltac:(lra)). assert (P := sqrt_lt_R0 2 ltac:(lra)). rewrite <- Rinv_mult. rewrite S. field. Qed.

Definition sp (kind : bool) : R := if kind then 1%R else (-1)%R.
Lemma pq_prod : (2 * p * q = t / W)%R.
Proof.
  assert (P := W_pos). assert (PP := P_pos). assert (K := k_sqr). assert (X := PQ). assert (S := W_sqr).
  unfold p, q. replace (2 * (2 * t * k) * ((U - E0) * k))%R with (4 * t * (U - E0) * (k * k))%R by ring.
  replace (k * k)%R with (/ n2)%R. 2:{ assert (N := n2_pos). apply (Rmult_eq_reg_r n2); [rewrite K; field; lra|lra]. }
  assert (E : n2 = (4 * W * (U - E0))%R). { unfold n2. replace (4 * t * t)%R with (4 * (t * t))%R by ring. rewrite <- X. unfold E0. field. }
  rewrite E. field. split; lra.
Qed.

Theorem dimer_lehmann (z G : C) (kind up : bool) : hubbard_dimer_gf_z z t U kind = Ok G ->
  exists v, ground_state t U E0 v /\ lehmann t U E0 v up (sp kind) z G.
Proof.
  intros HG. exists (gs p q). split; [exact gs_ground|]. unfold hubbard_dimer_gf_z in HG. fold W E0 (sp kind) in HG. assert (PW := W_pos).
  rewrite rdiv_ok in HG by lra. cbn [bind] in HG.
  assert (N1 : z - RtoC (E0 + sp kind * t) <> 0). { intros E. unfold cdiv in HG. destruct (Ceq_dec _ 0) in HG; [discriminate|easy]. }
  rewrite cdiv_ok in HG by exact N1. cbn [bind] in HG.
  assert (N2 : z - RtoC (U + sp kind * t - E0) <> 0). { intros E. unfold cdiv in HG. destruct (Ceq_dec _ 0) in HG; [discriminate|easy]. }
  rewrite cdiv_ok in HG by exact N2. cbn [bind] in HG. injection HG as <-.
  set (s := sp kind) in *. assert (Hs : (s * s = 1)%R) by (unfold s, sp; destruct kind; ring).
  exists (kscal (/ (z - RtoC (E0 + s * t))) (cpm up s (gs p q))), (kscal (/ (z - RtoC (U + s * t - E0))) (cpm_dag up s (gs p q))).
  assert (Hs2 : s = 1%R \/ s = (-1)%R) by (unfold s, sp; destruct kind; [now left|now right]).
  set (A := z - RtoC (E0 + s * t)) in *. set (B := z - RtoC (U + s * t - E0)) in *.
  assert (EA : z - RtoC E0 = A + RtoC s * RtoC t) by (unfold A; rewrite RtoC_plus, RtoC_mult; ring).
  assert (EB : z + RtoC E0 = B + RtoC U + RtoC s * RtoC t) by (unfold B; rewrite RtoC_minus, RtoC_plus, RtoC_mult; ring).
  set (r := RtoC (/ sqrt 2)). assert (Hr : r * r = RtoC (1 / 2)) by (unfold r; rewrite <- RtoC_mult, half_sqr; reflexivity).
  assert (Hss : RtoC s * RtoC s = 1) by (rewrite <- RtoC_mult, Hs; reflexivity).
  assert (M1 : RtoC (-1) = - RtoC 1) by (rewrite <- RtoC_opp; reflexivity).
  assert (W1 : RtoC (1 / 2 + s * t / W) = (RtoC p + RtoC s * RtoC q) * (RtoC p + RtoC s * RtoC q)).
  { rewrite <- !RtoC_mult, <- RtoC_plus, <- RtoC_mult. f_equal. replace (s * t / W)%R with (s * (t / W))%R by (field; lra). rewrite <- pq_prod. assert (N := pq_norm).
    transitivity (p * p + (s * s) * (q * q) + s * (2 * p * q))%R; [rewrite Hs; lra|ring]. }
  assert (W2 : RtoC (1 / 2 - s * t / W) = (RtoC p - RtoC s * RtoC q) * (RtoC p - RtoC s * RtoC q)).
  { rewrite <- !RtoC_mult, <- RtoC_minus, <- RtoC_mult. f_equal. replace (s * t / W)%R with (s * (t / W))%R by (field; lra). rewrite <- pq_prod. assert (N := pq_norm).
    transitivity (p * p + (s * s) * (q * q) - s * (2 * p * q))%R; [rewrite Hs; lra|ring]. }
  rewrite W1, W2, EA, EB. clear W1 W2 EA EB. clearbody A B s p q. unfold lehmann, bra, sum2. fold r. kunf. fold r. rewrite M1, RtoC_opp.
  assert (X1 : forall x : C, r * r * (x + x) = x * / (1 + 1) * (1 + 1)) by (intros; rewrite Hr, RtoC_div by lra; rewrite C2_eq; field; exact C11_neq0).
  destruct Hs2 as [-> | ->]; rewrite ?M1.
  all: split; [|split].
  all: try (intros a b c d; destruct up, a, b, c, d; cbv beta iota; field; assumption).
  all: rewrite RtoC_div, C2_eq in Hr by lra.
  all: assert (Hr2 : r * r * (1 + 1) = 1) by (rewrite Hr; field; exact C11_neq0).
  all: destruct up; cbv beta iota.
  all: clearbody r; clear X1; match goal with |- ?x = _ => transitivity (r * r * (1 + 1) * x); [rewrite Hr2; ring|] end.
  all: field; split; assumption.
Qed.
End G.

(** the weights sum to one: z G(z) -> 1 is the identity of the residues; particle-hole symmetry of the half-filled dimer *)
Theorem dimer_particle_hole (z : C) (t U : R) (kind : bool) (G : C) : hubbard_dimer_gf_z z t U kind = Ok G -> hubbard_dimer_gf_z (RtoC U - z) t U (negb kind) = Ok (- G).
Proof.
  unfold hubbard_dimer_gf_z. set (W := sqrt (1 / 4 * U * U + 4 * t * t)). set (E0 := (1 / 2 * U - W)%R).
  intros HG. destruct (Req_EM_T W 0) as [E|NW]; [unfold rdiv in HG; destruct (Req_EM_T W 0); [discriminate|easy]|].
  rewrite rdiv_ok in * by exact NW. cbn [bind] in *. set (s := if kind then 1%R else (-1)%R) in *.
  assert (Es : (if negb kind then 1 else -1)%R = (- s)%R) by (unfold s; destruct kind; cbn; ring). rewrite Es.
  unfold cdiv in HG. destruct (Ceq_dec (z - RtoC (E0 + s * t)) 0) as [|N1]; [discriminate|]. cbn [bind] in HG.
  destruct (Ceq_dec (z - RtoC (U + s * t - E0)) 0) as [|N2]; [discriminate|]. cbn [bind] in HG. injection HG as <-.
  assert (E1 : RtoC U - z - RtoC (E0 + - s * t) = - (z - RtoC (U + s * t - E0))) by (rewrite !RtoC_minus, !RtoC_plus, !RtoC_mult, RtoC_opp; ring).
  assert (E2 : RtoC U - z - RtoC (U + - s * t - E0) = - (z - RtoC (E0 + s * t))) by (rewrite !RtoC_minus, !RtoC_plus, !RtoC_mult, RtoC_opp; ring).
  assert (O : forall x : C, x <> 0 -> - x <> 0) by (intros x Hx E; apply Hx; transitivity (- - x); [ring|rewrite E; ring]).
  rewrite E1, E2. rewrite !cdiv_ok by (apply O; assumption).
  cbn [bind]. f_equal. replace (1 / 2 + - s * t / W)%R with (1 / 2 - s * t / W)%R by (field; exact NW). replace (1 / 2 - - s * t / W)%R with (1 / 2 + s * t / W)%R by (field; exact NW).
  field. repeat split; first [assumption | apply O; assumption].
Qed.
Lemma cinv_small (a : C) (w : R) : forall e, (0 < e)%R -> exists r, (0 < r)%R /\ forall z, (r < Cmod z)%R -> z - a <> 0 /\ (Cmod (z * (RtoC w / (z - a)) - RtoC w)%C < e)%R.
Proof.
  intros e He. assert (Ha := Cmod_ge_0 a). assert (Hw := Rabs_pos w). exists (Cmod a + Rabs w * Cmod a / e + 1)%R.
  assert (Hq : (0 <= Rabs w * Cmod a / e)%R) by (apply Rdiv_le_0_compat; nra). split; [lra|]. intros z Hz.
  assert (T := Cmod_triangle (z - a) a). replace (z - a + a) with z in T by ring. assert (Hp : (Rabs w * Cmod a / e < Cmod (z - a)%C)%R) by lra.
  assert (N : z - a <> 0) by (apply Cmod_gt_0; lra). split; [exact N|].
  replace (z * (RtoC w / (z - a)) - RtoC w) with (RtoC w * a / (z - a)) by (field; exact N). rewrite Cmod_div, Cmod_mult, Cmod_R by exact N.
  assert (Pm := proj1 (Cmod_gt_0 _) N). apply (Rmult_lt_reg_r (Cmod (z - a)%C)); [exact Pm|]. unfold Rdiv at 1. rewrite Rmult_assoc, Rinv_l, Rmult_1_r by lra.
  apply (Rmult_lt_compat_l e) in Hp; [|exact He]. replace (e * (Rabs w * Cmod a / e))%R with (Rabs w * Cmod a)%R in Hp by (field; lra). lra.
Qed.
Theorem dimer_weight (t U : R) (kind : bool) : t <> 0%R \/ U <> 0%R -> forall e, (0 < e)%R -> exists r, forall z, (r < Cmod z)%R -> exists G, hubbard_dimer_gf_z z t U kind = Ok G /\ (Cmod (z * G - 1)%C < e)%R.
Proof.
  intros H e He. unfold hubbard_dimer_gf_z. set (W := sqrt (1 / 4 * U * U + 4 * t * t)). set (E0 := (1 / 2 * U - W)%R). set (s := if kind then 1%R else (-1)%R).
  assert (PW : (0 < W)%R) by (apply sqrt_lt_R0; destruct H; nra). rewrite rdiv_ok by lra. cbn [bind].
  destruct (cinv_small (RtoC (E0 + s * t)) (1 / 2 + s * t / W) (e / 2)%R ltac:(lra)) as (r1 & P1 & B1). destruct (cinv_small (RtoC (U + s * t - E0)) (1 / 2 - s * t / W) (e / 2)%R ltac:(lra)) as (r2 & P2 & B2).
  exists (r1 + r2)%R. intros z Hz. destruct (B1 z ltac:(lra)) as [N1 L1]. destruct (B2 z ltac:(lra)) as [N2 L2]. rewrite !cdiv_ok by assumption. cbn [bind]. eexists. split; [reflexivity|].
  assert (E1 : RtoC 1 = RtoC (1 / 2 + s * t / W) + RtoC (1 / 2 - s * t / W)) by (rewrite <- RtoC_plus; f_equal; field; lra).
  set (x := RtoC (1 / 2 + s * t / W)) in *. set (y := RtoC (1 / 2 - s * t / W)) in *. rewrite E1. set (A := x / _) in *. set (B := y / _) in *.
  replace (z * (A + B) - (x + y)) with ((z * A - x) + (z * B - y)) by ring. eapply Rle_lt_trans; [apply Cmod_triangle|]. lra.
Qed.
