(** * Honeycomb, kagome and Lieb lattice from the triangular and the square lattice *)
From Coq Require Import Reals List ZArith Bool Lia Lra FunctionalExtensionality.
From Coquelicot Require Import Coquelicot.
From Verif Require Import Base CBase CExp Lattice_Model Bethe_Proofs LatMom_Spec LatDer_Spec LatDer_Model.
Import ListNotations.
Local Open Scope C_scope.

Section Bloch.
  Variables (k : R * R) (t : R).
  Let u := cexp (Ci * RtoC (fst k)).
  Let v := cexp (Ci * RtoC (snd k)).
  Lemma u0 : u <> 0. Proof. apply cexp_neq_0. Qed.
  Lemma v0 : v <> 0. Proof. apply cexp_neq_0. Qed.
  Definition zpow (x : C) (a : Z) : C := match a with Z0 => 1 | Zpos xH => x | Zneg xH => / x | _ => 0 end.
  Lemma phase_eval a b c s : (-1 <= a <= 1)%Z -> (-1 <= b <= 1)%Z -> phase k (a, b, c, s) = zpow u a * zpow v b.
  Proof.
    intros Ha Hb. unfold phase. 
    assert (E : forall x n, (-1 <= n <= 1)%Z -> cexp (Ci * RtoC (IZR n * x)) = zpow (cexp (Ci * RtoC x)) n).
    { intros x n Hn. assert (Hc : (n = -1 \/ n = 0 \/ n = 1)%Z) by lia. destruct Hc as [-> | [-> | ->]]; cbn [zpow].
      - rewrite <- cexp_opp. f_equal. replace (-1 * x)%R with (- x)%R by ring. rewrite RtoC_opp. ring.
      - replace (0 * x)%R with 0%R by ring. rewrite Cmult_0_r. apply cexp_0.
      - replace (1 * x)%R with x by ring. reflexivity. }
    rewrite RtoC_plus, Cmult_plus_distr_l, cexp_add, (E _ _ Ha), (E _ _ Hb). reflexivity.
  Qed.
  Ltac bl := unfold bloch; cbn [map fold_right triangular square honeycomb kagome lieb bravais origin snd fst Nat.eqb]; cbn [Z.add Z.sub Z.opp Z.pos_sub Pos.add Pos.sub];
    rewrite ?phase_eval by lia; cbn [zpow]; try (assert (U := u0); assert (V := v0); field; repeat split; assumption).
  Definition W := u + / u + v + / v + u / v + v / u.
  Lemma tri_bloch : bloch triangular t k 0 0 = RtoC t * W. Proof. unfold W. bl. Qed.
  Lemma square_bloch : bloch square t k 0 0 = RtoC t * (u + / u + v + / v). Proof. bl. Qed.
  Lemma hc00 : bloch honeycomb t k 0 0 = 0. Proof. bl. Qed.
  Lemma hc11 : bloch honeycomb t k 1 1 = 0. Proof. bl. Qed.
  Lemma hc01 : bloch honeycomb t k 0 1 = RtoC t * (1 + / u + / v). Proof. bl. Qed.
  Lemma hc10 : bloch honeycomb t k 1 0 = RtoC t * (1 + u + v). Proof. bl. Qed.
  Lemma kg00 : bloch kagome t k 0 0 = 0. Proof. bl. Qed.
  Lemma kg11 : bloch kagome t k 1 1 = 0. Proof. bl. Qed.
  Lemma kg22 : bloch kagome t k 2 2 = 0. Proof. bl. Qed.
  Lemma kg01 : bloch kagome t k 0 1 = RtoC t * (1 + / u). Proof. bl. Qed.
  Lemma kg02 : bloch kagome t k 0 2 = RtoC t * (1 + / v). Proof. bl. Qed.
  Lemma kg10 : bloch kagome t k 1 0 = RtoC t * (1 + u). Proof. bl. Qed.
  Lemma kg12 : bloch kagome t k 1 2 = RtoC t * (1 + u / v). Proof. bl. Qed.
  Lemma kg20 : bloch kagome t k 2 0 = RtoC t * (1 + v). Proof. bl. Qed.
  Lemma kg21 : bloch kagome t k 2 1 = RtoC t * (1 + v / u). Proof. bl. Qed.
  Lemma lb00 : bloch lieb t k 0 0 = 0. Proof. bl. Qed.
  Lemma lb11 : bloch lieb t k 1 1 = 0. Proof. bl. Qed.
  Lemma lb22 : bloch lieb t k 2 2 = 0. Proof. bl. Qed.
  Lemma lb12 : bloch lieb t k 1 2 = 0. Proof. bl. Qed.
  Lemma lb21 : bloch lieb t k 2 1 = 0. Proof. bl. Qed.
  Lemma lb01 : bloch lieb t k 0 1 = RtoC t * (1 + / u). Proof. bl. Qed.
  Lemma lb02 : bloch lieb t k 0 2 = RtoC t * (1 + / v). Proof. bl. Qed.
  Lemma lb10 : bloch lieb t k 1 0 = RtoC t * (1 + u). Proof. bl. Qed.
  Lemma lb20 : bloch lieb t k 2 0 = RtoC t * (1 + v). Proof. bl. Qed.
End Bloch.

Lemma nsum2 (f : nat -> C) : nsum (K := CF) 2 f = f 0%nat + f 1%nat.
Proof. cbn [nsum]. change (Fadd (f := CF)) with Cplus. change (@F0 CF) with (RtoC 0). match goal with |- @eq _ ?a ?b => change (@eq C a b) end. ring. Qed.
Lemma nsum3 (f : nat -> C) : nsum (K := CF) 3 f = f 0%nat + f 1%nat + f 2%nat.
Proof. cbn [nsum]. change (Fadd (f := CF)) with Cplus. change (@F0 CF) with (RtoC 0). match goal with |- @eq _ ?a ?b => change (@eq C a b) end. ring. Qed.
Lemma INR2 : RtoC (INR 2) = 1 + 1. Proof. cbn. rewrite <- RtoC_plus. reflexivity. Qed.
Lemma INR3 : RtoC (INR 3) = 1 + 1 + 1. Proof. cbn. rewrite <- !RtoC_plus. reflexivity. Qed.
Lemma C1_neq0 : (1 : C) <> 0. Proof. intros E. apply (f_equal fst) in E. cbn in E. lra. Qed.
Lemma C111_neq0 : (1 + 1 + 1 : C) <> 0. Proof. intros E. apply (f_equal fst) in E. cbn in E. lra. Qed.

Lemma res2 H z G : is_resolvent 2 H z G -> H 0%nat 0%nat = 0 -> H 1%nat 1%nat = 0 ->
  z * z - H 0%nat 1%nat * H 1%nat 0%nat <> 0 /\ site_average 2 G = z / (z * z - H 0%nat 1%nat * H 1%nat 0%nat).
Proof.
  intros R H0 H1. unfold site_average. rewrite nsum2, INR2.
  assert (R00 := R 0%nat 0%nat ltac:(lia) ltac:(lia)). assert (R01 := R 0%nat 1%nat ltac:(lia) ltac:(lia)).
  assert (R10 := R 1%nat 0%nat ltac:(lia) ltac:(lia)). assert (R11 := R 1%nat 1%nat ltac:(lia) ltac:(lia)).
  rewrite nsum2 in R00, R01, R10, R11. cbn [Nat.eqb] in *. rewrite H0 in *. rewrite H1 in *.
  set (a := H 0%nat 1%nat) in *. set (b := H 1%nat 0%nat) in *.
  set (p := G 0%nat 0%nat) in *. set (q := G 0%nat 1%nat) in *. set (r := G 1%nat 0%nat) in *. set (s := G 1%nat 1%nat) in *.
  assert (D : z * z - a * b <> 0).
  { intros E. apply C1_neq0.
    transitivity (((z - 0) * p + (0 - a) * r) * ((0 - b) * q + (z - 0) * s) - ((z - 0) * q + (0 - a) * s) * ((0 - b) * p + (z - 0) * r)); [rewrite R00, R01, R10, R11; ring|].
    transitivity ((z * z - a * b) * (p * s - q * r)); [ring|]. rewrite E. ring. }
  split; [exact D|].
  assert (P : (z * z - a * b) * p = z). { transitivity (z * ((z - 0) * p + (0 - a) * r) + a * ((0 - b) * p + (z - 0) * r)); [ring|]. rewrite R00, R10. ring. }
  assert (S : (z * z - a * b) * s = z). { transitivity (z * ((0 - b) * q + (z - 0) * s) + b * ((z - 0) * q + (0 - a) * s)); [ring|]. rewrite R11, R01. ring. }
  replace p with (z / (z * z - a * b)) by (rewrite <- P at 1; field; exact D). replace s with (z / (z * z - a * b)) by (rewrite <- S at 1; field; exact D).
  field. split; [exact D|exact C11_neq0].
Qed.
Section Res3.
  Variables a b c d e f g h i p q r s t u v w x : C.
  Definition det3 := a * (e * i - f * h) - b * (d * i - f * g) + c * (d * h - e * g).
  Hypothesis R00 : a * p + b * s + c * v = 1.
  Hypothesis R01 : a * q + b * t + c * w = 0.
  Hypothesis R02 : a * r + b * u + c * x = 0.
  Hypothesis R10 : d * p + e * s + f * v = 0.
  Hypothesis R11 : d * q + e * t + f * w = 1.
  Hypothesis R12 : d * r + e * u + f * x = 0.
  Hypothesis R20 : g * p + h * s + i * v = 0.
  Hypothesis R21 : g * q + h * t + i * w = 0.
  Hypothesis R22 : g * r + h * u + i * x = 1.
  Lemma det3_neq0 : det3 <> 0.
  Proof.
    intros E. apply C1_neq0.
    transitivity (det3 * (p * (t * x - u * w) - q * (s * x - u * v) + r * (s * w - t * v))); [|rewrite E; ring].
    transitivity ((a * p + b * s + c * v) * ((d * q + e * t + f * w) * (g * r + h * u + i * x) - (d * r + e * u + f * x) * (g * q + h * t + i * w))
      - (a * q + b * t + c * w) * ((d * p + e * s + f * v) * (g * r + h * u + i * x) - (d * r + e * u + f * x) * (g * p + h * s + i * v))
      + (a * r + b * u + c * x) * ((d * p + e * s + f * v) * (g * q + h * t + i * w) - (d * q + e * t + f * w) * (g * p + h * s + i * v))).
    { rewrite R00, R01, R02, R10, R11, R12, R20, R21, R22. ring. }
    unfold det3. ring.
  Qed.
  Lemma tr3 : p + t + x = ((e * i - f * h) + (a * i - c * g) + (a * e - b * d)) / det3.
  Proof.
    assert (D := det3_neq0).
    assert (P : det3 * p = e * i - f * h).
    { transitivity ((e * i - f * h) * (a * p + b * s + c * v) - (b * i - c * h) * (d * p + e * s + f * v) + (b * f - c * e) * (g * p + h * s + i * v)); [unfold det3; ring|]. rewrite R00, R10, R20. ring. }
    assert (T : det3 * t = a * i - c * g).
    { transitivity (- (d * i - f * g) * (a * q + b * t + c * w) + (a * i - c * g) * (d * q + e * t + f * w) - (a * f - c * d) * (g * q + h * t + i * w)); [unfold det3; ring|]. rewrite R01, R11, R21. ring. }
    assert (X : det3 * x = a * e - b * d).
    { transitivity ((d * h - e * g) * (a * r + b * u + c * x) - (a * h - b * g) * (d * r + e * u + f * x) + (a * e - b * d) * (g * r + h * u + i * x)); [unfold det3; ring|]. rewrite R02, R12, R22. ring. }
    rewrite <- P, <- T, <- X. field. exact D.
  Qed.
End Res3.
Lemma res3 H z G : is_resolvent 3 H z G ->
  let D := det3 (z - H 0%nat 0%nat) (0 - H 0%nat 1%nat) (0 - H 0%nat 2%nat) (0 - H 1%nat 0%nat) (z - H 1%nat 1%nat) (0 - H 1%nat 2%nat)
             (0 - H 2%nat 0%nat) (0 - H 2%nat 1%nat) (z - H 2%nat 2%nat) in
  D <> 0 /\ site_average 3 G = (((z - H 1%nat 1%nat) * (z - H 2%nat 2%nat) - (0 - H 1%nat 2%nat) * (0 - H 2%nat 1%nat))
     + ((z - H 0%nat 0%nat) * (z - H 2%nat 2%nat) - (0 - H 0%nat 2%nat) * (0 - H 2%nat 0%nat))
     + ((z - H 0%nat 0%nat) * (z - H 1%nat 1%nat) - (0 - H 0%nat 1%nat) * (0 - H 1%nat 0%nat))) / D / (1 + 1 + 1).
Proof.
  intros R. cbv zeta.
  assert (Q : forall i j, (i < 3)%nat -> (j < 3)%nat -> ((if Nat.eqb i 0 then z else 0) - H i 0%nat) * G 0%nat j + ((if Nat.eqb i 1 then z else 0) - H i 1%nat) * G 1%nat j + ((if Nat.eqb i 2 then z else 0) - H i 2%nat) * G 2%nat j = (if Nat.eqb i j then RtoC 1 else RtoC 0))
    by (intros i j Hi Hj; assert (E := R i j Hi Hj); rewrite nsum3 in E; exact E).
  assert (R00 := Q 0%nat 0%nat ltac:(lia) ltac:(lia)). assert (R01 := Q 0%nat 1%nat ltac:(lia) ltac:(lia)). assert (R02 := Q 0%nat 2%nat ltac:(lia) ltac:(lia)).
  assert (R10 := Q 1%nat 0%nat ltac:(lia) ltac:(lia)). assert (R11 := Q 1%nat 1%nat ltac:(lia) ltac:(lia)). assert (R12 := Q 1%nat 2%nat ltac:(lia) ltac:(lia)).
  assert (R20 := Q 2%nat 0%nat ltac:(lia) ltac:(lia)). assert (R21 := Q 2%nat 1%nat ltac:(lia) ltac:(lia)). assert (R22 := Q 2%nat 2%nat ltac:(lia) ltac:(lia)).
  cbn [Nat.eqb] in *. split.
  - exact (det3_neq0 _ _ _ _ _ _ _ _ _ _ _ _ _ _ _ _ _ _ R00 R01 R02 R10 R11 R12 R20 R21 R22).
  - unfold site_average. rewrite nsum3, INR3. f_equal.
    exact (tr3 _ _ _ _ _ _ _ _ _ _ _ _ _ _ _ _ _ _ R00 R01 R02 R10 R11 R12 R20 R21 R22).
Qed.

Lemma C3_eq : RtoC 3 = 1 + 1 + 1. Proof. rewrite <- !RtoC_plus. f_equal; ring. Qed.
Lemma C4_eq : RtoC 4 = (1 + 1) * (1 + 1). Proof. rewrite <- !RtoC_plus, <- RtoC_mult. f_equal; ring. Qed.
Lemma C_eq_dec0 (x : C) : x = 0 \/ x <> 0. Proof. destruct (Ceq_dec x 0); auto. Qed.

Section Honeycomb.
  Variables (mean : (R * R -> C) -> C) (tri : C -> R -> result C).
  Hypothesis Hmean : averages mean (fun k => bloch triangular (4 * (9 / 4) / 9 / 2) k 0 0).
  Hypothesis Htri : is_local_gf mean (fun k => bloch triangular (4 * (9 / 4) / 9 / 2) k 0 0) (fun x => tri x (9 / 4)%R).
  Variables (D : R) (z : C).
  Hypothesis HD : (0 < D)%R.
  Let t : R := (D / 3)%R.
  Lemma tC0 : RtoC t <> 0. Proof. apply RtoC_neq0. unfold t. lra. Qed.
  Lemma eps_tri k : bloch triangular (4 * (9 / 4) / 9 / 2) k 0 0 = W k / (1 + 1).
  Proof. rewrite tri_bloch. replace (4 * (9 / 4) / 9 / 2)%R with (/ 2)%R by field. rewrite RtoC_inv by lra. rewrite C2_eq. field. exact C11_neq0. Qed.
  (** the argument of the triangular lattice at the frequency z *)
  Definition xarg := 2 * ((z / RtoC (D / (3 / 2))) * (z / RtoC (D / (3 / 2)))) - RtoC (3 / 2).
  Lemma xarg_eq k : xarg - bloch triangular (4 * (9 / 4) / 9 / 2) k 0 0 = (z * z - RtoC t * RtoC t * (3 + W k)) / ((1 + 1) * (RtoC t * RtoC t)).
  Proof.
    rewrite eps_tri. unfold xarg. replace (RtoC (D / (3 / 2))) with ((1 + 1) * RtoC t) by (rewrite <- C2_eq, <- RtoC_mult; f_equal; unfold t; field).
    replace (RtoC (3 / 2)) with (RtoC 3 / (1 + 1)) by (unfold Rdiv; rewrite RtoC_mult, RtoC_inv by lra; rewrite C2_eq; reflexivity).
    rewrite C2_eq, C3_eq. field. split; [exact tC0|exact C11_neq0].
  Qed.
  Lemma honeycomb_mean : (forall k, z * z - RtoC t * RtoC t * (3 + W k) <> 0) ->
    honeycomb_gf_z tri z D = Ok (mean (fun k => z / (z * z - RtoC t * RtoC t * (3 + W k)))) /\
    (forall a b, mean (fun k => a + b * (z / (z * z - RtoC t * RtoC t * (3 + W k)))) = a + b * mean (fun k => z / (z * z - RtoC t * RtoC t * (3 + W k)))).
  Proof.
    intros Hk. assert (T := tC0). assert (T2 := C11_neq0).
    assert (Hx : forall k, xarg - bloch triangular (4 * (9 / 4) / 9 / 2) k 0 0 <> 0).
    { intros k E. rewrite xarg_eq in E. apply (Hk k). replace (z * z - RtoC t * RtoC t * (3 + W k)) with ((z * z - RtoC t * RtoC t * (3 + W k)) / ((1 + 1) * (RtoC t * RtoC t)) * ((1 + 1) * (RtoC t * RtoC t))) by (field; split; [exact T|exact T2]). rewrite E. ring. }
    set (c := z / ((1 + 1) * (RtoC t * RtoC t))).
    assert (F : forall k, z / (z * z - RtoC t * RtoC t * (3 + W k)) = c / (xarg - bloch triangular (4 * (9 / 4) / 9 / 2) k 0 0)).
    { intros k. rewrite xarg_eq. unfold c. field. repeat split; [exact T|exact T2|apply Hk]. }
    assert (A : forall a b, mean (fun k => a + b * (z / (z * z - RtoC t * RtoC t * (3 + W k)))) = a + b * c * mean (fun k => 1 / (xarg - bloch triangular (4 * (9 / 4) / 9 / 2) k 0 0))).
    { intros a b. rewrite <- (Hmean a (b * c) xarg Hx). f_equal. apply functional_extensionality. intros k. rewrite F. unfold Cdiv. ring. }
    assert (M : mean (fun k => z / (z * z - RtoC t * RtoC t * (3 + W k))) = c * mean (fun k => 1 / (xarg - bloch triangular (4 * (9 / 4) / 9 / 2) k 0 0))).
    { transitivity (mean (fun k => 0 + 1 * (z / (z * z - RtoC t * RtoC t * (3 + W k))))); [f_equal; apply functional_extensionality; intros k; ring|]. rewrite A. ring. }
    split; [|intros a b; rewrite A, M; ring].
    unfold honeycomb_gf_z. assert (D0 : RtoC (D / (3 / 2)) <> 0) by (apply RtoC_neq0; assert (0 < D / (3 / 2))%R by lra; lra).
    rewrite !cdiv_ok by exact D0. cbn [bind]. fold xarg. rewrite (Htri xarg Hx). cbn [bind]. f_equal. rewrite M. unfold c.
    replace (RtoC (D / (3 / 2))) with ((1 + 1) * RtoC t) by (rewrite <- C2_eq, <- RtoC_mult; f_equal; unfold t; field).
    rewrite C2_eq. field. split; [exact T|exact T2].
  Qed.
  Theorem honeycomb_bloch (G : R * R -> nat -> nat -> C) : (forall k, is_resolvent 2 (bloch honeycomb (2 * D / 3 / 2) k) z (G k)) ->
    honeycomb_gf_z tri z D = Ok (mean (fun k => site_average 2 (G k))).
  Proof.
    intros HG. replace (2 * D / 3 / 2)%R with t in HG by (unfold t; field).
    assert (E : forall k, bloch honeycomb t k 0 1 * bloch honeycomb t k 1 0 = RtoC t * RtoC t * (3 + W k)).
    { intros k. rewrite hc01, hc10, C3_eq. unfold W. field. split; apply cexp_neq_0. }
    assert (P : forall k, z * z - RtoC t * RtoC t * (3 + W k) <> 0 /\ site_average 2 (G k) = z / (z * z - RtoC t * RtoC t * (3 + W k))).
    { intros k. rewrite <- E. apply res2; [apply HG|apply hc00|apply hc11]. }
    rewrite (proj1 (honeycomb_mean (fun k => proj1 (P k)))). f_equal. f_equal. apply functional_extensionality. intros k. symmetry. apply P.
  Qed.
End Honeycomb.
Lemma mul_neq0 (a b : C) : a * b <> 0 -> a <> 0 /\ b <> 0.
Proof. intros H. split; intros E; apply H; rewrite E; ring. Qed.
Lemma kag_alg0 (c d X Q y : C) : c <> 0 -> X <> 0 -> Q <> 0 -> (Q + d * y * X) / (X * Q) / c = 1 / (c * X) + d / c * (y / Q).
Proof. intros. field. repeat split; assumption. Qed.
Lemma lieb_alg0 (c d Q z : C) : c <> 0 -> z <> 0 -> Q <> 0 -> (Q + d * z * z) / (z * Q) / c = 1 / c / z + d / c * (z / Q).
Proof. intros. field. repeat split; assumption. Qed.
Lemma kag_alg (X Q y : C) : X <> 0 -> Q <> 0 -> (Q + (1 + 1) * y * X) / (X * Q) / (1 + 1 + 1) = 1 / ((1 + 1 + 1) * X) + (1 + 1) / (1 + 1 + 1) * (y / Q).
Proof. apply kag_alg0. exact C111_neq0. Qed.
Lemma lieb_alg (Q z : C) : z <> 0 -> Q <> 0 -> (Q + (1 + 1) * z * z) / (z * Q) / (1 + 1 + 1) = 1 / (1 + 1 + 1) / z + (1 + 1) / (1 + 1 + 1) * (z / Q).
Proof. apply lieb_alg0. exact C111_neq0. Qed.
Lemma lieb_alg1 (c d z t m : C) : c <> 0 -> z <> 0 -> t <> 0 -> 1 / c / z + d / (c * t) * (z / t) * m = 1 / c / z + d / c * z / (t * t) * m.
Proof. intros. field. repeat split; assumption. Qed.
Lemma lieb_alg2 (c d z t Q : C) : c <> 0 -> z <> 0 -> t <> 0 -> Q <> 0 -> 1 / c / z + d / c * z / (t * t) / (Q / (t * t)) = 1 / c / z + d / c * (z / Q).
Proof. intros. field. repeat split; assumption. Qed.
Section Kagome.
  Variables (mean : (R * R -> C) -> C) (tri : C -> R -> result C).
  Hypothesis Hmean : averages mean (fun k => bloch triangular (4 * (9 / 4) / 9 / 2) k 0 0).
  Hypothesis Htri : is_local_gf mean (fun k => bloch triangular (4 * (9 / 4) / 9 / 2) k 0 0) (fun x => tri x (9 / 4)%R).
  Variables (D : R) (z : C).
  Hypothesis HD : (0 < D)%R.
  Theorem kagome_bloch (G : R * R -> nat -> nat -> C) : (forall k, is_resolvent 3 (bloch kagome (2 * D / 3 / 2) k) z (G k)) ->
    kagome_gf_z tri z D = Ok (mean (fun k => site_average 3 (G k))).
  Proof.
    intros HG. set (t := (D / 3)%R). replace (2 * D / 3 / 2)%R with t in HG by (unfold t; field).
    assert (T : RtoC t <> 0) by (apply RtoC_neq0; unfold t; lra).
    assert (P : forall k, z + 2 * RtoC t <> 0 /\ (z - RtoC t) * (z - RtoC t) - RtoC t * RtoC t * (3 + W k) <> 0 /\
      site_average 3 (G k) = 1 / (3 * (z + 2 * RtoC t)) + 2 / 3 * ((z - RtoC t) / ((z - RtoC t) * (z - RtoC t) - RtoC t * RtoC t * (3 + W k)))).
    { intros k. destruct (res3 _ _ _ (HG k)) as [N S]. cbv zeta in N, S.
      rewrite kg00, kg01, kg02, kg10, kg11, kg12, kg20, kg21, kg22 in N, S. set (u := cexp (Ci * fst k)) in *. set (v := cexp (Ci * snd k)) in *.
      assert (U : u <> 0) by apply cexp_neq_0. assert (V : v <> 0) by apply cexp_neq_0.
      assert (ED : det3 (z - 0) (0 - RtoC t * (1 + / u)) (0 - RtoC t * (1 + / v)) (0 - RtoC t * (1 + u)) (z - 0) (0 - RtoC t * (1 + u / v)) (0 - RtoC t * (1 + v)) (0 - RtoC t * (1 + v / u)) (z - 0)
        = (z + 2 * RtoC t) * ((z - RtoC t) * (z - RtoC t) - RtoC t * RtoC t * (3 + W k))).
      { unfold det3, W. fold u v. rewrite C2_eq, C3_eq. field. split; assumption. }
      rewrite ED in N, S. destruct (mul_neq0 _ _ N) as [N1 N2]. split; [exact N1|]. split; [exact N2|]. rewrite S.
      rewrite C2_eq, C3_eq in *. 
      replace (((z - 0) * (z - 0) - (0 - RtoC t * (1 + u / v)) * (0 - RtoC t * (1 + v / u)) + ((z - 0) * (z - 0) - (0 - RtoC t * (1 + / v)) * (0 - RtoC t * (1 + v))) + ((z - 0) * (z - 0) - (0 - RtoC t * (1 + / u)) * (0 - RtoC t * (1 + u)))))
        with (((z - RtoC t) * (z - RtoC t) - RtoC t * RtoC t * (1 + 1 + 1 + W k)) + (1 + 1) * (z - RtoC t) * (z + (1 + 1) * RtoC t))
        by (unfold W; fold u v; field; split; assumption).
      apply kag_alg; assumption. }
    assert (Hz : forall k, (z - RtoC t) * (z - RtoC t) - RtoC t * RtoC t * (3 + W k) <> 0) by (intros k; apply P).
    destruct (honeycomb_mean mean tri Hmean Htri D (z - RtoC t) HD Hz) as [HH HA]. fold t in HH, HA.
    assert (N1 : z + 2 * RtoC t <> 0) by (apply (P (0%R, 0%R))).
    unfold kagome_gf_z. replace (3 * z + 2 * RtoC D) with (3 * (z + 2 * RtoC t)) by (replace (RtoC D) with (3 * RtoC t) by (rewrite <- RtoC_mult; f_equal; unfold t; field); ring).
    rewrite cdiv_ok by (apply Cmult_neq_0; [apply RtoC_neq0; lra|exact N1]). cbn [bind].
    change (D / 3)%R with t. rewrite HH. cbn [bind]. f_equal.
    replace (RtoC (2 / 3)) with (2 / 3) by (unfold Rdiv; rewrite RtoC_mult, RtoC_inv by lra; reflexivity).
    rewrite <- HA. f_equal. apply functional_extensionality. intros k. symmetry. apply P.
  Qed.
End Kagome.
Section Lieb.
  Variables (mean : (R * R -> C) -> C) (sqr : C -> R -> result C).
  Hypothesis Hmean : averages mean (fun k => bloch square (4 / 4) k 0 0).
  Hypothesis Hsqr : is_local_gf mean (fun k => bloch square (4 / 4) k 0 0) (fun x => sqr x 4%R).
  Variables (D : R) (z : C).
  Hypothesis HD : (0 < D)%R.
  Theorem lieb_bloch (G : R * R -> nat -> nat -> C) : (forall k, is_resolvent 3 (bloch lieb (D / sqrt 8) k) z (G k)) ->
    lieb_gf_z sqr z D = Ok (mean (fun k => site_average 3 (G k))).
  Proof.
    intros HG. set (t := (D / (2 * sqrt 2))%R).
    assert (S8 : sqrt 8 = (2 * sqrt 2)%R). { replace 8%R with (2 * 2 * 2)%R by ring. rewrite sqrt_mult by lra. rewrite sqrt_square by lra. reflexivity. }
    rewrite S8 in HG. fold t in HG. assert (S2 : (0 < sqrt 2)%R) by (apply sqrt_lt_R0; lra).
    assert (T0 : (0 < t)%R) by (unfold t; apply Rdiv_lt_0_compat; lra).
    assert (T : RtoC t <> 0) by (apply RtoC_neq0; lra).
    set (w := fun k => bloch square (4 / 4) k 0 0) in *.
    assert (P : forall k, z <> 0 /\ z * z - RtoC t * RtoC t * (4 + w k) <> 0 /\
      site_average 3 (G k) = 1 / 3 / z + 2 / 3 * (z / (z * z - RtoC t * RtoC t * (4 + w k)))).
    { intros k. destruct (res3 _ _ _ (HG k)) as [N S]. cbv zeta in N, S. unfold w. rewrite square_bloch.
      rewrite lb00, lb01, lb02, lb10, lb11, lb12, lb20, lb21, lb22 in N, S. set (u := cexp (Ci * fst k)) in *. set (v := cexp (Ci * snd k)) in *.
      assert (U : u <> 0) by apply cexp_neq_0. assert (V : v <> 0) by apply cexp_neq_0.
      replace (RtoC (4 / 4)) with (RtoC 1) by (f_equal; field).
      assert (ED : det3 (z - 0) (0 - RtoC t * (1 + / u)) (0 - RtoC t * (1 + / v)) (0 - RtoC t * (1 + u)) (z - 0) (0 - 0) (0 - RtoC t * (1 + v)) (0 - 0) (z - 0)
        = z * (z * z - RtoC t * RtoC t * (4 + 1 * (u + / u + v + / v)))).
      { unfold det3. rewrite C4_eq. field. split; assumption. }
      rewrite ED in N, S. destruct (mul_neq0 _ _ N) as [N1 N2]. split; [exact N1|]. split; [exact N2|]. rewrite S.
      rewrite ?C2_eq, ?C3_eq, C4_eq in *.
      replace ((z - 0) * (z - 0) - (0 - 0) * (0 - 0) + ((z - 0) * (z - 0) - (0 - RtoC t * (1 + / v)) * (0 - RtoC t * (1 + v))) + ((z - 0) * (z - 0) - (0 - RtoC t * (1 + / u)) * (0 - RtoC t * (1 + u))))
        with ((z * z - RtoC t * RtoC t * ((1 + 1) * (1 + 1) + 1 * (u + / u + v + / v))) + (1 + 1) * z * z) by (field; split; assumption).
      apply lieb_alg; assumption. }
    assert (N1 : z <> 0) by (apply (P (0%R, 0%R))).
    set (x := z / RtoC t * (z / RtoC t) - 4).
    assert (Ex : forall k, x - w k = (z * z - RtoC t * RtoC t * (4 + w k)) / (RtoC t * RtoC t)) by (intros k; unfold x; field; exact T).
    assert (Hx : forall k, x - w k <> 0).
    { intros k E. rewrite Ex in E. destruct (P k) as (_ & N & _). apply N. replace (z * z - RtoC t * RtoC t * (4 + w k)) with ((z * z - RtoC t * RtoC t * (4 + w k)) / (RtoC t * RtoC t) * (RtoC t * RtoC t)) by (field; exact T). rewrite E. ring. }
    unfold lieb_gf_z. fold t. assert (T3 : 3 * RtoC t <> 0) by (apply Cmult_neq_0; [apply RtoC_neq0; lra|exact T]).
    rewrite !cdiv_ok by assumption. cbn [bind]. fold x. rewrite (Hsqr x Hx). cbn [bind]. f_equal.
    transitivity (mean (fun k => 1 / 3 / z + 2 / 3 * z / (RtoC t * RtoC t) / (x - w k))).
    - rewrite (Hmean _ _ x Hx). replace (RtoC (1 / 3)) with (1 / 3) by (unfold Rdiv; rewrite RtoC_mult, RtoC_inv by lra; reflexivity).
      apply lieb_alg1; try assumption. apply RtoC_neq0; lra.
    - f_equal. apply functional_extensionality. intros k. destruct (P k) as (_ & N & E). rewrite E, Ex. apply lieb_alg2; try assumption. apply RtoC_neq0; lra.
  Qed.
End Lieb.
