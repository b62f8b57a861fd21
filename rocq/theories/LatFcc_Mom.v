(** * Face-centred cubic lattice: moments of the band *)
From Coq Require Import Reals Lra Lia Arith.
From Coquelicot Require Import Coquelicot.
From Verif Require Import Base CBase CExp CSqrt Bethe_Proofs Fourier_Filon LatInt_Spec LatInt_Proofs LatInt_Hilbert LatInt_Fubini LatInt_Local CAnal CHol CEll CFub LatRect_Proofs LatRect_Main LatSc_Red LatSc_Proofs.
Local Open Scope C_scope.

(** ** finite sums *)
Fixpoint ssum (f : nat -> C) (n : nat) : C := match n with O => f O | S k => ssum f k + f (S k) end.
Lemma ssum_ext f g n : (forall i, (i <= n)%nat -> f i = g i) -> ssum f n = ssum g n.
Proof. induction n as [|n IH]; intros H; cbn; [apply H; lia|]. rewrite IH by (intros; apply H; lia). rewrite H by lia. reflexivity. Qed.
Lemma ssum_plus f g n : ssum (fun i => f i + g i) n = ssum f n + ssum g n.
Proof. induction n as [|n IH]; cbn; [reflexivity|]. rewrite IH. ring. Qed.
Lemma ssum_scal c f n : ssum (fun i => c * f i) n = c * ssum f n.
Proof. induction n as [|n IH]; cbn; [reflexivity|]. rewrite IH. ring. Qed.
Lemma ssum_head f n : ssum f (S n) = f O + ssum (fun i => f (S i)) n.
Proof. induction n as [|n IH]; [reflexivity|]. change (ssum f (S (S n))) with (ssum f (S n) + f (S (S n))). rewrite IH. cbn [ssum]. ring. Qed.
Lemma ssum_rev f n : ssum f n = ssum (fun i => f (n - i)%nat) n.
Proof.
  revert f. induction n as [|n IH]; intros f; [reflexivity|]. rewrite ssum_head. cbn [ssum]. rewrite (IH (fun i => f (S i))). replace (S n - S n)%nat with O by lia. rewrite Cplus_comm. f_equal. apply ssum_ext. intros i Hi. f_equal. lia.
Qed.
Lemma ssum_int (f : nat -> R -> C) (l : nat -> C) a b n : (forall i, (i <= n)%nat -> is_CInt (f i) a b (l i)) -> is_CInt (fun t => ssum (fun i => f i t) n) a b (ssum l n).
Proof. induction n as [|n IH]; intros H; cbn [ssum]; [apply H; lia|]. apply is_CInt_plus; [apply IH; intros; apply H; lia|apply H; lia]. Qed.
Lemma ssum_one x k n : (k <= n)%nat -> ssum (fun i => if Nat.eq_dec i k then x i else 0) n = x k.
Proof.
  induction n as [|n IH]; intros H; cbn [ssum].
  - destruct (Nat.eq_dec 0 k) as [->|]; [reflexivity|lia].
  - destruct (Nat.eq_dec (S n) k) as [E|E].
    + subst k. transitivity (0 + x (S n)); [|ring]. f_equal. transitivity (ssum (fun _ => 0) n); [apply ssum_ext; intros i Hi; destruct (Nat.eq_dec i (S n)); [lia|reflexivity]|]. clear. induction n as [|n IH]; cbn; [reflexivity|]. rewrite IH. ring.
    + rewrite IH by lia. ring.
Qed.

(** ** a recurrence for convolutions *)
Notation cn n := (RtoC (INR n)).
Section Conv.
Variable e : nat -> C.
Hypothesis He : forall k, (cn (S k)) * (cn (S k)) * (cn (S k)) * e (S k) = 2 * (2 * cn k + 1) * e k.
Definition cv (g : C -> C -> C) (n : nat) : C := ssum (fun i => g (cn i) (cn (n - i)) * (e i * e (n - i)%nat)) n.
Lemma cv_ext g h n : (forall i j : nat, (i + j = n)%nat -> g (cn i) (cn j) = h (cn i) (cn j)) -> cv g n = cv h n.
Proof. intros H. apply ssum_ext. intros i Hi. rewrite H by lia. reflexivity. Qed.
Lemma cv_plus g h n : cv (fun x y => g x y + h x y) n = cv g n + cv h n.
Proof. unfold cv. rewrite <- ssum_plus. apply ssum_ext. intros i _. ring. Qed.
Lemma cv_scal c g n : cv (fun x y => c * g x y) n = c * cv g n.
Proof. unfold cv. rewrite <- ssum_scal. apply ssum_ext. intros i _. ring. Qed.
Lemma cv_swap g n : cv g n = cv (fun x y => g y x) n.
Proof. unfold cv. rewrite ssum_rev. apply ssum_ext. intros i Hi. replace (n - (n - i))%nat with i by lia. ring. Qed.
Lemma cv_shift g n : cv (fun x y => x * x * x * g x y) (S n) = cv (fun x y => 2 * (2 * x + 1) * g (x + 1) y) n.
Proof.
  unfold cv. rewrite ssum_head. change (INR 0) with 0%R. replace (RtoC 0 * RtoC 0 * RtoC 0 * g (RtoC 0) (cn (S n - 0)) * (e O * e (S n - 0)%nat)) with (RtoC 0) by ring. rewrite Cplus_0_l. apply ssum_ext. intros i Hi. cbv beta. replace (S n - S i)%nat with (n - i)%nat by lia.
  replace (cn i + 1) with (cn (S i)) by (rewrite S_INR, RtoC_plus; reflexivity). transitivity (g (cn (S i)) (cn (n - i)) * (cn (S i) * cn (S i) * cn (S i) * e (S i)) * e (n - i)%nat); [ring|]. rewrite He. ring.
Qed.
Definition dn (n : nat) : C := cv (fun _ _ => 1) n.
Lemma cv_total g n : cv (fun x y => g (x + y)) n = g (cn n) * dn n.
Proof. unfold dn. rewrite <- cv_scal. apply cv_ext. intros i j H. rewrite <- RtoC_plus, <- plus_INR, H. ring. Qed.
Lemma dn_rec n : cn (S n) * cn (S n) * cn (S n) * cn (S n) * cn (S n) * dn (S n) = 2 * (2 * cn n + 1) * (5 * (cn n * cn n) + 5 * cn n + 2) * dn n - 64 * cn n * match n with O => 0 | S k => dn k end.
Proof.
  assert (C5 : RtoC 5 = 1 + 1 + 1 + 1 + 1) by (rewrite <- !RtoC_plus; f_equal; ring). assert (C64 : RtoC 64 = 4 * 16) by (rewrite <- RtoC_mult; f_equal; ring).
  set (h := fun x y : C => x * x + 5 * x * y + 10 * (y * y)). assert (A : cn (S n) * cn (S n) * cn (S n) * cn (S n) * cn (S n) * dn (S n) = 2 * cv (fun x y => 2 * (2 * x + 1) * h (x + 1) y) n).
  { rewrite <- (cv_shift h n). transitivity (cv (fun x y => (x + y) * (x + y) * (x + y) * (x + y) * (x + y)) (S n)); [symmetry; apply (cv_total (fun s => s * s * s * s * s))|].
    transitivity (cv (fun x y => x * x * x * h x y + y * y * y * h y x) (S n)); [apply cv_ext; intros i j _; unfold h; rewrite C5; sring|]. rewrite cv_plus, (cv_swap (fun x y => y * y * y * h y x)). cbv beta. cring. }
  rewrite A. clear A. set (U := fun x y : C => 2 * (2 * x + 1) * h (x + 1) y). transitivity (cv (fun x y => U x y + U y x) n); [transitivity (cv U n + cv U n); [cring|]; rewrite cv_plus; f_equal; apply cv_swap|].
  transitivity (cv (fun x y => 2 * (2 * (x + y) + 1) * (5 * ((x + y) * (x + y)) + 5 * (x + y) + 2) + - (16) * (x * x * x * 1 + y * y * y * 1)) n); [apply cv_ext; intros i j _; unfold U, h; rewrite C5; sring|].
  rewrite cv_plus, (cv_total (fun s => 2 * (2 * s + 1) * (5 * (s * s) + 5 * s + 2))), (cv_scal (- (16))), cv_plus, (cv_swap (fun x y => y * y * y * 1)). cbv beta. unfold Cminus. f_equal. rewrite C64. destruct n as [|n].
  - unfold cv. cbn [ssum INR Nat.sub]. ring.
  - rewrite (cv_shift (fun _ _ => 1)). replace (cv (fun x y => 2 * (2 * x + 1) * 1) n) with (2 * cn (S n) * dn n); [cring|].
    transitivity (RtoC (1 / 2) * (cv (fun x y => 2 * (2 * x + 1) * 1) n + cv (fun x y => 2 * (2 * y + 1) * 1) n)); [|rewrite (cv_swap (fun x y => 2 * (2 * y + 1) * 1)); cbv beta; snum; ffin].
    rewrite <- cv_plus, <- cv_scal. transitivity (cv (fun x y => 2 * ((x + y) + 1)) n); [|apply cv_ext; intros; snum; ffin]. rewrite (cv_total (fun s => 2 * (s + 1))). rewrite S_INR, RtoC_plus. reflexivity.
Qed.
End Conv.

Lemma Cc1 : RtoC 1 <> 0. Proof. intros ZZ. apply (f_equal fst) in ZZ. cbn in ZZ. lra. Qed.
(** ** exponential sequences and the binomial theorem *)
Definition fc (n : nat) : C := RtoC (INR (fact n)).
Lemma fc_neq0 n : fc n <> 0. Proof. apply RtoC_neq0, INR_fact_neq_0. Qed.
Lemma fc_S n : fc (S n) = cn (S n) * fc n. Proof. unfold fc. rewrite fact_simpl, mult_INR, RtoC_mult. reflexivity. Qed.
Lemma cn_S n : cn (S n) = cn n + 1. Proof. rewrite S_INR, RtoC_plus. reflexivity. Qed.
Lemma cn_neq0 n : cn (S n) <> 0. Proof. apply RtoC_neq0, not_0_INR. lia. Qed.
Definition ex (x : C) (n : nat) : C := Cpow x n / fc n.
Lemma ex_S x n : cn (S n) * ex x (S n) = x * ex x n.
Proof. unfold ex. rewrite fc_S. cbn [Cpow]. field. split; [apply fc_neq0|apply cn_neq0]. Qed.
Lemma Cpow_mul x y n : Cpow (x * y) n = Cpow x n * Cpow y n.
Proof. induction n as [|n IH]; cbn [Cpow]; [ring|]. rewrite IH. ring. Qed.
Lemma Cpow_1 n : Cpow 1 n = 1.
Proof. induction n as [|n IH]; cbn [Cpow]; [ring|]. rewrite IH. ring. Qed.
Lemma Cpow_add x n m : Cpow x (n + m) = Cpow x n * Cpow x m.
Proof. induction n as [|n IH]; cbn [Cpow Nat.add]; [ring|]. rewrite IH. ring. Qed.
Lemma Cpow_nz (x : C) n : x <> 0 -> Cpow x n <> 0.
Proof. intros H. induction n as [|n IH]; cbn [Cpow]; [exact Cc1|]. apply Cmult_neq_0; assumption. Qed.
Lemma binom x y n : Cpow (x + y) n = fc n * ssum (fun i => ex x i * ex y (n - i)) n.
Proof.
  induction n as [|n IH]. { cbn [ssum Nat.sub Cpow]. unfold ex, fc. cbn [fact Cpow]. change (INR 1) with 1%R. field. exact Cc1. }
  cbn [Cpow]. rewrite IH, fc_S. set (W := fun n => ssum (fun i => ex x i * ex y (n - i)) n).
  assert (A : forall x y, ssum (fun i => cn i * ex x i * ex y (S n - i)) (S n) = x * ssum (fun i => ex x i * ex y (n - i)) n).
  { clear. intros x y. rewrite ssum_head. change (INR 0) with 0%R. replace (0 * ex x 0 * ex y (S n - 0)) with (RtoC 0) by ring. rewrite Cplus_0_l, <- ssum_scal. apply ssum_ext. intros i Hi. cbv beta. rewrite ex_S. change (S n - S i)%nat with (n - i)%nat. ring. }
  assert (B : cn (S n) * W (S n) = (x + y) * W n).
  { transitivity (ssum (fun i => cn i * ex x i * ex y (S n - i)) (S n) + ssum (fun i => cn i * ex y i * ex x (S n - i)) (S n)).
    - rewrite (ssum_rev (fun i => cn i * ex y i * ex x (S n - i))). rewrite <- ssum_plus. unfold W. rewrite <- ssum_scal. apply ssum_ext. intros i Hi. cbv beta. replace (S n - (S n - i))%nat with i by lia. replace (cn (S n)) with (cn i + cn (S n - i)) by (rewrite <- RtoC_plus, <- plus_INR; do 2 f_equal; lia). ring.
    - rewrite !A. unfold W. rewrite (ssum_rev (fun i => ex y i * ex x (n - i))). rewrite (ssum_ext (fun i => ex y (n - i) * ex x (n - (n - i))) (fun i => ex x i * ex y (n - i))); [ring|]. intros i Hi. replace (n - (n - i))%nat with i by lia. ring. }
  change ((x + y) * (fc n * W n) = cn (S n) * fc n * W (S n)). transitivity (fc n * (cn (S n) * W (S n))); [rewrite B; ring|ring].
Qed.

(** ** orthogonality of the exponentials *)
Definition et (t : R) : C := cexp (Ci * RtoC t).
Lemma et_neq0 t : et t <> 0. Proof. apply cexp_neq_0. Qed.
Lemma et_rcd t : rcd et t (Ci * et t).
Proof. assert (H := circ_rcd 1 t). unfold circ in H. eapply rcd_eq; [eapply rcd_ext; [|exact H]; intros s; unfold et; ring|unfold et; ring]. Qed.
Lemma et_pow_rcd n t : rcd (fun t => Cpow (et t) n) t (cn n * Ci * Cpow (et t) n).
Proof.
  induction n as [|n IH]. { cbn [Cpow]. eapply rcd_eq; [apply rcd_const|]. change (INR 0) with 0%R. ring. }
  cbn [Cpow]. eapply rcd_eq; [apply (rcd_mult et (fun t => Cpow (et t) n)); [apply et_rcd|apply IH]|]. rewrite cn_S. ring.
Qed.
Lemma et_val t : et t = (cos t, sin t).
Proof. unfold et, cexp. cbn [fst snd Cmult Ci RtoC]. replace (0 * t - 1 * 0)%R with 0%R by ring. replace (0 * 0 + 1 * t)%R with t by ring. rewrite exp_0, !Rmult_1_l. reflexivity. Qed.
Lemma et_per t : et (t + 2 * PI)%R = et t.
Proof. rewrite !et_val, cos_2PI, sin_plus, Rtrigo1.cos_2PI, Rtrigo1.sin_2PI. f_equal. ring. Qed.
Lemma et_pi n : Cpow (et PI) n = Cpow (et (- PI)%R) n.
Proof. f_equal. rewrite <- (et_per (- PI)%R). f_equal. ring. Qed.
Lemma et_int0 n : is_CInt (fun t => Cpow (et t) (S n)) (- PI) PI 0.
Proof.
  assert (H : is_CInt (fun t => (cn (S n) * Ci) * Cpow (et t) (S n)) (- PI) PI 0).
  { eapply is_CInt_eq; [apply (rcd_ftc (fun t => Cpow (et t) (S n)))|]; [intros t _; apply et_pow_rcd| |cbv beta; rewrite et_pi; ring].
    intros t _. apply (rcd_ccont _ _ ((cn (S n) * Ci) * (cn (S n) * Ci * Cpow (et t) (S n)))). eapply rcd_eq; [apply (rcd_mult (fun _ => cn (S n) * Ci)); [apply rcd_const|apply et_pow_rcd]|ring]. }
  assert (N := cn_neq0 n). assert (NC : Ci <> 0) by (intros ZZ; apply (f_equal snd) in ZZ; cbn in ZZ; lra).
  apply (is_CInt_scal (/ (cn (S n) * Ci))) in H. rewrite Cmult_0_r in H. apply is_CInt_ext with (2 := H). intros t _. cbv beta. field. split; assumption.
Qed.
Lemma et_conj t : / et t = et (- t)%R.
Proof. unfold et. rewrite <- cexp_opp. f_equal. rewrite RtoC_opp. ring. Qed.
Lemma et_orth k l : is_CInt (fun t => Cpow (et t) k * Cpow (/ et t) l) (- PI) PI (if Nat.eq_dec k l then RtoC (2 * PI) else 0).
Proof.
  assert (P : forall t, et t * / et t = 1) by (intros t; apply Cinv_r, et_neq0).
  destruct (Nat.eq_dec k l) as [<-|N].
  - eapply is_CInt_eq; [apply is_CInt_ext with (2 := is_CInt_const 1 (- PI) PI)|].
    + intros t _. cbv beta. rewrite <- Cpow_mul. rewrite (P t). symmetry. apply Cpow_1.
    + replace (PI - - PI)%R with (2 * PI)%R by ring. ring.
  - destruct (lt_dec l k) as [L|L].
    + replace k with (l + S (k - l - 1))%nat by lia. apply is_CInt_ext with (2 := et_int0 (k - l - 1)). intros t _. rewrite (Cpow_add _ l). transitivity (Cpow (et t * / et t) l * Cpow (et t) (S (k - l - 1))); [rewrite P, Cpow_1; ring|]. rewrite Cpow_mul. ring.
    + replace l with (k + S (l - k - 1))%nat by lia. assert (H := is_CInt_opp_var _ _ _ _ (et_int0 (l - k - 1))). rewrite Ropp_involutive in H. apply is_CInt_ext with (2 := H). intros t _. rewrite (Cpow_add _ k). rewrite <- et_conj. transitivity (Cpow (et t * / et t) k * Cpow (/ et t) (S (l - k - 1))); [rewrite P, Cpow_1; ring|]. rewrite Cpow_mul. ring.
Qed.
Lemma mom_inner al be n : is_CInt (fun t => Cpow ((al + be * et t) * (al + be * / et t)) n) (- PI) PI (RtoC (2 * PI) * (fc n * fc n) * ssum (fun i => ex al i * ex al i * (ex be (n - i) * ex be (n - i))) n).
Proof.
  assert (M : forall x e, ex (be * e) x = ex be x * Cpow e x) by (intros x e; unfold ex; rewrite Cpow_mul; field; apply fc_neq0).
  assert (H : is_CInt (fun t => ssum (fun i => ssum (fun j => fc n * fc n * (ex al i * ex be (n - i) * (ex al j * ex be (n - j))) * (Cpow (et t) (n - i) * Cpow (/ et t) (n - j))) n) n) (- PI) PI (ssum (fun i => ssum (fun j => fc n * fc n * (ex al i * ex be (n - i) * (ex al j * ex be (n - j))) * (if Nat.eq_dec (n - i) (n - j) then RtoC (2 * PI) else 0)) n) n)).
  { apply (ssum_int (fun i t => ssum (fun j => fc n * fc n * (ex al i * ex be (n - i) * (ex al j * ex be (n - j))) * (Cpow (et t) (n - i) * Cpow (/ et t) (n - j))) n)). intros i Hi. apply (ssum_int (fun j t => fc n * fc n * (ex al i * ex be (n - i) * (ex al j * ex be (n - j))) * (Cpow (et t) (n - i) * Cpow (/ et t) (n - j)))). intros j Hj. apply is_CInt_scal, et_orth. }
  eapply is_CInt_eq; [apply is_CInt_ext with (2 := H)|].
  - intros t _. cbv beta. rewrite Cpow_mul, !binom. transitivity (ssum (fun i => fc n * (ex al i * ex (be * et t) (n - i)) * (fc n * ssum (fun j => ex al j * ex (be * / et t) (n - j)) n)) n).
    + apply ssum_ext. intros i Hi. rewrite <- !ssum_scal. apply ssum_ext. intros j Hj. rewrite !M. ring.
    + transitivity (ssum (fun i => (fc n * ssum (fun j => ex al j * ex (be * / et t) (n - j)) n) * (fc n * (ex al i * ex (be * et t) (n - i)))) n); [apply ssum_ext; intros i _; ring|]. rewrite !ssum_scal. ring.
  - rewrite <- ssum_scal. apply ssum_ext. intros i Hi. rewrite <- (ssum_one (fun j => RtoC (2 * PI) * (fc n * fc n) * (ex al j * ex al j * (ex be (n - j) * ex be (n - j)))) i n Hi). apply ssum_ext. intros j Hj. cbv beta. destruct (Nat.eq_dec j i) as [E|N], (Nat.eq_dec (n - i) (n - j)) as [N'|N']; try lia; try (subst j; ring); ring.
Qed.

(** ** averages of products over two wave vectors *)
Section Avg2.
Variables (P Q : R -> C).
Hypothesis HP : forall x, ccont P x.
Hypothesis HQ : forall x, ccont Q x.
Hypothesis PP : forall x, P (x + 2 * PI)%R = P x.
Hypothesis PQ : forall x, Q (x + 2 * PI)%R = Q x.
Lemma lin_pc {T} (dist : T -> T -> R) (x y : T -> R) (k l : R) p : pcat dist (fun p => RtoC (x p)) p -> pcat dist (fun p => RtoC (y p)) p -> pcat dist (fun p => RtoC (k * x p + l * y p)) p.
Proof. intros A B. apply (pc_ext dist (fun p => RtoC k * RtoC (x p) + RtoC l * RtoC (y p))); [intros q; now rewrite RtoC_plus, !RtoC_mult|]. apply pc_plus; apply pc_mult; try assumption; apply (pc_const dist). Qed.
Lemma avg_cc2 k l k' l' s t : cc2 (fun a b => P (k * a + l * b)%R * Q (k' * a + l' * b)%R) s t.
Proof.
  apply cc2_of_pc. cbn beta. assert (A : pcat (dprod dR dR) (fun p => RtoC (fst p)) (s, t)) by apply (pc_fst dR dR RtoC), pc_id. assert (B : pcat (dprod dR dR) (fun p => RtoC (snd p)) (s, t)) by apply (pc_snd dR dR RtoC), pc_id.
  apply pc_mult; [apply (pc_F _ P (fun p => k * fst p + l * snd p)%R)|apply (pc_F _ Q (fun p => k' * fst p + l' * snd p)%R)]; [apply HP|apply lin_pc; assumption|apply HQ|apply lin_pc; assumption].
Qed.
Lemma avg_double a : is_CInt (fun b => P (1 * a + 2 * b)%R) (- PI) PI (CInt P (- PI) PI).
Proof.
  assert (J : is_CInt P (- PI) (- PI + 2 * PI) (CInt P (- PI) PI)). { replace (- PI + 2 * PI)%R with PI by ring. apply CInt_ok. intros; apply HP. }
  assert (S : forall s, is_CInt (fun x => P (x + a)%R) s (s + 2 * PI) (CInt P (- PI) PI)).
  { intros s. assert (A := is_CInt_shift _ _ _ _ (- a) (periodic_any P (2 * PI) (- PI) (s + a) _ HP PP J)). replace (s + a + - a)%R with s in A by ring. replace (s + a + 2 * PI + - a)%R with (s + 2 * PI)%R in A by ring. apply is_CInt_ext with (2 := A). intros t _. f_equal. ring. }
  assert (B := is_CInt_chasles _ _ _ _ _ _ (S (2 * - PI)%R) (S (2 * - PI + 2 * PI)%R)). replace (2 * - PI + 2 * PI + 2 * PI)%R with (2 * PI)%R in B by ring. apply (is_CInt_scal (RtoC (1 / 2))) in B. apply is_CInt_double in B.
  eapply is_CInt_eq; [apply is_CInt_ext with (2 := B)|cfield]. intros t _. cbv beta. replace (2 * t + a)%R with (1 * a + 2 * t)%R by ring. cfield.
Qed.
Lemma avg2 : CInt (fun a => CInt (fun b => P (a + b)%R * Q (a - b)%R) (- PI) PI) (- PI) PI = CInt P (- PI) PI * CInt Q (- PI) PI.
Proof.
  transitivity (CInt (fun a => CInt (fun b => P (1 * a + 1 * b)%R * Q (1 * a + -1 * b)%R) (- PI) PI) (- PI) PI). { apply CInt_ex. intros a. apply CInt_ex. intros b. f_equal; f_equal; ring. }
  etransitivity; [exact (CInt_val _ _ _ _ (fub _ (avg_cc2 1 1 1 (-1)) (- PI) PI (- PI) PI Hpi))|]. cbv beta.
  transitivity (CInt (fun b => CInt (fun a => P (1 * a + 2 * b)%R * Q (1 * a + 0 * b)%R) (- PI) PI) (- PI) PI).
  { apply CInt_ex. intros b. rewrite <- (per_shift_int (fun a => P (1 * a + 2 * b)%R * Q (1 * a + 0 * b)%R) (- b)).
    - apply CInt_ex. intros a. f_equal; f_equal; ring.
    - intros x. apply (fub_1 _ (avg_cc2 1 2 1 0) x b).
    - intros x. cbv beta. rewrite <- (PP (1 * x + 2 * b)), <- (PQ (1 * x + 0 * b)). f_equal; f_equal; ring. }
  transitivity (CInt (fun a => CInt (fun b => P (1 * a + 2 * b)%R * Q (1 * a + 0 * b)%R) (- PI) PI) (- PI) PI). { symmetry. exact (CInt_val _ _ _ _ (fub _ (avg_cc2 1 2 1 0) (- PI) PI (- PI) PI Hpi)). }
  transitivity (CInt (fun a => CInt P (- PI) PI * Q a) (- PI) PI).
  - apply CInt_ex. intros a. apply CInt_val. eapply is_CInt_eq; [apply is_CInt_ext with (2 := is_CInt_scal (Q a) _ _ _ _ (avg_double a))|ring]. intros b _. cbv beta. replace (1 * a + 0 * b)%R with a by ring. ring.
  - apply CInt_val, is_CInt_scal, CInt_ok. intros; apply HQ.
Qed.
End Avg2.

(** ** moments of 2 + 2 cos *)
Definition pw (x : R) : C := 2 + 2 * RtoC (cos x).
Lemma pw_rcd x : rcd pw x (- (2) * RtoC (sin x)).
Proof. eapply rcd_eq; [apply (rcd_plus (fun _ => 2) (fun x => 2 * RtoC (cos x))); [apply rcd_const|apply (rcd_mult (fun _ => 2)); [apply rcd_const|apply cos_rcd]]|]. rewrite RtoC_opp. ring. Qed.
Lemma pw_pow_rcd k x : rcd (fun x => Cpow (pw x) (S k)) x (cn (S k) * (- (2) * RtoC (sin x)) * Cpow (pw x) k).
Proof.
  induction k as [|k IH].
  - cbn [Cpow]. eapply rcd_eq; [apply (rcd_mult pw (fun _ => 1)); [apply pw_rcd|apply rcd_const]|]. change (INR 1) with 1%R. ring.
  - change (rcd (fun x => pw x * Cpow (pw x) (S k)) x (cn (S (S k)) * (- (2) * RtoC (sin x)) * Cpow (pw x) (S k))). eapply rcd_eq; [apply (rcd_mult pw (fun x => Cpow (pw x) (S k))); [apply pw_rcd|apply IH]|]. rewrite (cn_S (S k)). cbn [Cpow]. ring.
Qed.
Lemma pw_pow_cont k x : ccont (fun x => Cpow (pw x) k) x.
Proof. destruct k as [|k]; [apply (ccont_const (RtoC 1))|]. exact (rcd_ccont _ _ _ (pw_pow_rcd k x)). Qed.
Lemma pw_per k x : Cpow (pw (x + 2 * PI)) k = Cpow (pw x) k. Proof. unfold pw. now rewrite cos_2PI. Qed.
Definition ck (k : nat) : C := CInt (fun x => Cpow (pw x) k) (- PI) PI.
Lemma ck_is k : is_CInt (fun x => Cpow (pw x) k) (- PI) PI (ck k). Proof. apply CInt_ok. intros; apply pw_pow_cont. Qed.
Lemma ck_0 : ck 0 = RtoC (2 * PI).
Proof. apply CInt_val. cbn [Cpow]. eapply is_CInt_eq; [apply is_CInt_const|]. replace (PI - - PI)%R with (2 * PI)%R by ring. ring. Qed.
Lemma ck_rec k : cn (S k) * ck (S k) = 2 * (2 * cn k + 1) * ck k.
Proof.
  assert (F : is_CInt (fun x => RtoC (1 / 2) * (cn (S k) * Cpow (pw x) (S k)) - (2 * cn k + 1) * Cpow (pw x) k) (- PI) PI 0).
  { eapply is_CInt_eq; [apply (rcd_ftc (fun x => RtoC (sin x) * Cpow (pw x) k))|].
    - intros x _. assert (SC : RtoC (sin x) * RtoC (sin x) = 1 - RtoC (cos x) * RtoC (cos x)). { rewrite <- !RtoC_mult, <- RtoC_minus. f_equal. assert (X := sin2_cos2 x). unfold Rsqr in X. lra. }
      destruct k as [|k].
      + cbn [Cpow]. eapply rcd_eq; [apply (rcd_mult (fun x => RtoC (sin x)) (fun _ => 1)); [apply sin_rcd|apply rcd_const]|]. change (INR 1) with 1%R. change (INR 0) with 0%R. unfold pw. cfield.
      + eapply rcd_eq; [apply (rcd_mult (fun x => RtoC (sin x)) (fun x => Cpow (pw x) (S k))); [apply sin_rcd|apply pw_pow_rcd]|]. cbv beta. transitivity (RtoC (cos x) * Cpow (pw x) (S k) - 2 * cn (S k) * (RtoC (sin x) * RtoC (sin x)) * Cpow (pw x) k); [cring|]. rewrite SC, (cn_S (S k)). cbn [Cpow]. generalize (Cpow (pw x) k). intros Z. unfold pw. cfield.
    - intros x _. apply (ccont_minus (fun x => RtoC (1 / 2) * (cn (S k) * Cpow (pw x) (S k)))); apply (ccont_mult (fun _ => _)); try apply ccont_const; [apply (ccont_mult (fun _ => _)); [apply ccont_const|]|]; apply pw_pow_cont.
    - cbv beta. rewrite sin_neg, sin_PI, Ropp_0. ring. }
  assert (G := is_CInt_minus _ _ _ _ _ _ (is_CInt_scal (RtoC (1 / 2)) _ _ _ _ (is_CInt_scal (cn (S k)) _ _ _ _ (ck_is (S k)))) (is_CInt_scal (2 * cn k + 1) _ _ _ _ (ck_is k))).
  assert (E := is_CInt_unique _ _ _ _ _ G F). transitivity (2 * (RtoC (1 / 2) * (cn (S k) * ck (S k)) - (2 * cn k + 1) * ck k) + 2 * (2 * cn k + 1) * ck k); [cfield|]. rewrite E. ring.
Qed.
Definition ek (k : nat) : C := ck k / (RtoC (2 * PI) * (fc k * fc k)).
Lemma pi2_neq0 : RtoC (2 * PI) <> 0. Proof. apply RtoC_neq0. assert (H := PI_RGT_0). lra. Qed.
Lemma ek_rec k : cn (S k) * cn (S k) * cn (S k) * ek (S k) = 2 * (2 * cn k + 1) * ek k.
Proof.
  unfold ek. rewrite fc_S. assert (N1 := pi2_neq0). assert (N2 := fc_neq0 k). assert (N3 := cn_neq0 k). transitivity (cn (S k) * ck (S k) / (RtoC (2 * PI) * (fc k * fc k))); [field; repeat split; assumption|]. rewrite ck_rec. field. split; assumption.
Qed.

(** ** moments of the band: q3 = (1 + c1 c2 + c2 c3 + c3 c1) / 4 *)
Definition q3 (a b c : R) : R := ((1 + cos a * cos b + cos b * cos c + cos c * cos a) / 4)%R.
Definition q3m (n : nat) : C := RtoC (/ (8 * (PI * PI * PI))) * CInt (fun a => CInt (fun b => CInt (fun c => Cpow (RtoC (q3 a b c)) n) (- PI) PI) (- PI) PI) (- PI) PI.
Lemma q3_fac a b c : 16 * RtoC (q3 a b c) = (RtoC (2 * cos ((a + b) / 2)) + RtoC (2 * cos ((a - b) / 2)) * et c) * (RtoC (2 * cos ((a + b) / 2)) + RtoC (2 * cos ((a - b) / 2)) * / et c).
Proof.
  assert (E := cexp_cos c). fold (et c) in E. assert (N := et_neq0 c). set (x := cos ((a + b) / 2)). set (y := cos ((a - b) / 2)).
  assert (X : (x * x = (1 + cos (a + b)) / 2)%R). { unfold x. replace (a + b)%R with (2 * ((a + b) / 2))%R at 3 by field. rewrite cos_2a_cos. field. }
  assert (Y : (y * y = (1 + cos (a - b)) / 2)%R). { unfold y. replace (a - b)%R with (2 * ((a - b) / 2))%R at 3 by field. rewrite cos_2a_cos. field. }
  assert (Z : (x * y = (cos a + cos b) / 2)%R). { unfold x, y. assert (G : forall u v, (cos u * cos v = (cos (u + v) + cos (u - v)) / 2)%R) by (intros u v; rewrite cos_plus, cos_minus; field). rewrite G. do 2 f_equal; f_equal; field. }
  transitivity (RtoC (4 * (x * x) + 4 * (y * y) + 4 * (x * y) * (2 * cos c))).
  - rewrite X, Y, Z, cos_plus, cos_minus. rewrite <- RtoC_mult. f_equal. unfold q3. field.
  - rewrite (RtoC_plus _ (4 * (x * y) * (2 * cos c))), RtoC_mult, <- E. rewrite RtoC_plus, !RtoC_mult. snum. ffin.
Qed.
Lemma half_sq t : RtoC (2 * cos (t / 2)) * RtoC (2 * cos (t / 2)) = pw t.
Proof. unfold pw. rewrite <- RtoC_mult. rewrite <- RtoC_mult, <- RtoC_plus. f_equal. replace t with (2 * (t / 2))%R at 3 by field. rewrite cos_2a_cos. ring. Qed.
Lemma ex_sq x n : ex x n * ex x n = Cpow (x * x) n / (fc n * fc n).
Proof. unfold ex. rewrite Cpow_mul. field. apply fc_neq0. Qed.
Lemma q3_inner a b n : CInt (fun c => Cpow (RtoC (q3 a b c)) n) (- PI) PI = / Cpow 16 n * (RtoC (2 * PI) * (fc n * fc n) * ssum (fun i => Cpow (pw (a + b)) i / (fc i * fc i) * (Cpow (pw (a - b)) (n - i) / (fc (n - i) * fc (n - i)))) n).
Proof.
  assert (N16 : Cpow 16 n <> 0). { apply Cpow_nz. intros ZZ. apply (f_equal fst) in ZZ. cbn in ZZ. lra. }
  apply CInt_val. eapply is_CInt_eq; [apply is_CInt_ext with (2 := is_CInt_scal (/ Cpow 16 n) _ _ _ _ (mom_inner (RtoC (2 * cos ((a + b) / 2))) (RtoC (2 * cos ((a - b) / 2))) n))|].
  - intros c _. cbv beta. rewrite <- q3_fac, Cpow_mul. field. exact N16.
  - do 2 f_equal. apply ssum_ext. intros i Hi. rewrite !ex_sq, !half_sq. reflexivity.
Qed.
Lemma q3m_val n : q3m n = fc n * fc n / Cpow 16 n * dn ek n.
Proof.
  assert (N16 : Cpow 16 n <> 0). { apply Cpow_nz. intros ZZ. apply (f_equal fst) in ZZ. cbn in ZZ. lra. }
  assert (I : CInt (fun a => CInt (fun b => CInt (fun c => Cpow (RtoC (q3 a b c)) n) (- PI) PI) (- PI) PI) (- PI) PI = / Cpow 16 n * (RtoC (2 * PI) * (fc n * fc n)) * ssum (fun i => / (fc i * fc i) * / (fc (n - i) * fc (n - i)) * (ck i * ck (n - i))) n).
  { set (h := fun i a b => Cpow (pw (a + b)) i * Cpow (pw (a - b)) (n - i)).
    assert (Hc : forall i a b, cc2 (h i) a b). { intros i a b. intros e He. destruct (avg_cc2 (fun x => Cpow (pw x) i) (fun x => Cpow (pw x) (n - i)) (pw_pow_cont i) (pw_pow_cont (n - i)) 1 1 1 (-1) a b e He) as (d & Hd & B). exists d. split; [exact Hd|]. intros s' t' H1 H2. assert (X := B s' t' H1 H2). unfold h. replace (s' + t')%R with (1 * s' + 1 * t')%R by ring. replace (s' - t')%R with (1 * s' + -1 * t')%R by ring. replace (a + b)%R with (1 * a + 1 * b)%R by ring. replace (a - b)%R with (1 * a + -1 * b)%R by ring. exact X. }
    apply CInt_val. eapply is_CInt_ext; [|apply is_CInt_scal; apply (ssum_int (fun i a => / (fc i * fc i) * / (fc (n - i) * fc (n - i)) * CInt (h i a) (- PI) PI))].
    - intros a _. cbv beta. symmetry. apply CInt_val. eapply is_CInt_ext; [|apply is_CInt_scal; apply (ssum_int (fun i b => / (fc i * fc i) * / (fc (n - i) * fc (n - i)) * h i a b)); intros i Hi; apply is_CInt_scal, CInt_ok; intros b _; apply (cc2_slice (h i)), Hc].
      intros b _. cbv beta. rewrite q3_inner. transitivity (/ Cpow 16 n * (RtoC (2 * PI) * (fc n * fc n)) * ssum (fun i : nat => Cpow (pw (a + b)) i / (fc i * fc i) * (Cpow (pw (a - b)) (n - i) / (fc (n - i) * fc (n - i)))) n); [|ring]. f_equal. apply ssum_ext. intros i Hi. unfold h, Cdiv. ring.
    - intros i Hi. apply is_CInt_scal. unfold ck. rewrite <- (avg2 (fun x => Cpow (pw x) i) (fun x => Cpow (pw x) (n - i)) (pw_pow_cont i) (pw_pow_cont (n - i)) (pw_per i) (pw_per (n - i))).
      apply CInt_ok. intros a _. apply (fub_cont (fun u v => h i v u) (fub_swap (h i) (Hc i)) (- PI) PI a Hpi). }
  unfold q3m. rewrite I. unfold dn, cv. assert (N1 := pi2_neq0). assert (HP := PI_RGT_0).
  transitivity (RtoC (/ (8 * (PI * PI * PI))) * (/ Cpow 16 n * (RtoC (2 * PI) * (fc n * fc n)) * (RtoC (2 * PI) * RtoC (2 * PI) * ssum (fun i : nat => 1 * (ek i * ek (n - i))) n))).
  - do 2 f_equal. rewrite <- ssum_scal. apply ssum_ext. intros i Hi. unfold ek. field. repeat split; try assumption; apply fc_neq0.
  - generalize (ssum (fun i : nat => 1 * (ek i * ek (n - i))) n). intros S. transitivity (RtoC (/ (8 * (PI * PI * PI)) * (2 * PI * (2 * PI) * (2 * PI))) * (fc n * fc n / Cpow 16 n * S)); [rewrite !RtoC_mult; field; exact N16|]. replace (/ (8 * (PI * PI * PI)) * (2 * PI * (2 * PI) * (2 * PI)))%R with 1%R by (field; lra). ring.
Qed.
Lemma q3m_rec n : 8 * (cn (S n) * cn (S n) * cn (S n)) * q3m (S n) = (2 * cn n + 1) * (5 * (cn n * cn n) + 5 * cn n + 2) * q3m n - 2 * (cn n * cn n * cn n) * match n with O => 0 | S k => q3m k end.
Proof.
  assert (R := dn_rec ek ek_rec n). assert (N16 : forall n, Cpow 16 n <> 0). { intros m. apply Cpow_nz. intros ZZ. apply (f_equal fst) in ZZ. cbn in ZZ. lra. }
  assert (N1 := N16 n). assert (C64 : RtoC 64 = 4 * 16) by (rewrite <- RtoC_mult; f_equal; ring). rewrite !(q3m_val (S n)), !(q3m_val n), fc_S. cbn [Cpow].
  transitivity (fc n * fc n / (2 * Cpow 16 n) * (cn (S n) * cn (S n) * cn (S n) * cn (S n) * cn (S n) * dn ek (S n))); [revert N1; generalize (Cpow 16 n); intros P N1; snum; ffin|]. rewrite R, C64. destruct n as [|n].
  - change (INR 0) with 0%R. cbn [Cpow]. cfield.
  - rewrite q3m_val, fc_S. cbn [Cpow]. assert (N2 := N16 n). revert N2. generalize (Cpow 16 n) (dn ek n) (dn ek (S n)) (cn (S n)) (fc n) (RtoC 5). intros. snum. ffin.
Qed.
Lemma q3m_0 : q3m 0 = 1.
Proof. rewrite q3m_val. unfold dn, cv, ek. cbn [ssum Nat.sub Cpow]. rewrite ck_0. unfold fc. cbn [fact]. change (INR 1) with 1%R. field. repeat split; [apply pi2_neq0|exact Cc1]. Qed.
