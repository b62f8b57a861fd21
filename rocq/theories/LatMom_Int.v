(** * Moments of the semicircular and of the box-shaped density of states as integrals *)
From Coq Require Import Reals QArith Qreals List ZArith Bool Lia Lra.
From Coquelicot Require Import Coquelicot.
From Verif Require Import Base CBase CExp Lattice_Model LatMom_Model LatMom_Proofs.
Import ListNotations.
Local Open Scope R_scope.

(** semicircle, after the substitution e = D sin phi *)
Definition wallis (m : nat) : R -> R := fun x => sin x ^ m * (cos x * cos x).
Lemma wallis_cont m x : continuous (wallis m) x.
Proof. apply (ex_derive_continuous (wallis m)). unfold wallis. auto_derive. trivial. Qed.
Lemma wallis_ex m a b : ex_RInt (wallis m) a b.
Proof. apply (ex_RInt_continuous (V := R_CompleteNormedModule)). intros. apply wallis_cont. Qed.
Definition J (m : nat) : R := RInt (wallis m) (- (PI / 2)) (PI / 2).
Lemma J_is m : is_RInt (wallis m) (- (PI / 2)) (PI / 2) (J m).
Proof. apply (RInt_correct (V := R_CompleteNormedModule)), wallis_ex. Qed.
Lemma ftc (F f : R -> R) a b : (forall x, is_derive F x (f x)) -> (forall x, continuous f x) -> is_RInt f a b (F b - F a).
Proof. intros H H'. apply (is_RInt_derive (V := R_CompleteNormedModule) F f); intros; auto. Qed.
Lemma cos2_sin2 x : cos x * cos x = 1 - sin x * sin x.
Proof. assert (H := sin2_cos2 x). unfold Rsqr in H. lra. Qed.
Lemma J_0 : J 0 = PI / 2.
Proof.
  apply (is_RInt_unique (V := R_CompleteNormedModule)).
  evar_last. apply (ftc (fun x => (x + sin x * cos x) / 2)).
  - intros x. unfold wallis. auto_derive; [trivial|]. rewrite pow_O. assert (H := cos2_sin2 x). nra.
  - apply wallis_cont.
  - cbv beta. rewrite cos_neg, cos_PI2. lra.
Qed.
Lemma J_1 : J 1 = 0.
Proof.
  apply (is_RInt_unique (V := R_CompleteNormedModule)).
  evar_last. apply (ftc (fun x => - (cos x * cos x * cos x) / 3)).
  - intros x. unfold wallis. auto_derive; [trivial|]. field.
  - apply wallis_cont.
  - cbv beta. rewrite cos_neg, cos_PI2. lra.
Qed.
Lemma J_rec m : INR (m + 4) * J (m + 2) = INR (m + 1) * J m.
Proof.
  assert (H : is_RInt (fun x => INR (m + 1) * wallis m x - INR (m + 4) * wallis (m + 2) x) (- (PI / 2)) (PI / 2) 0).
  { evar_last. apply (ftc (fun x => sin x ^ (m + 1) * (cos x * cos x * cos x))).
    - intros x. unfold wallis. auto_derive; [trivial|].
      replace (Init.Nat.pred (m + 1)) with m by lia.
      rewrite !pow_add, !plus_INR. cbn [INR pow]. assert (H := cos2_sin2 x).
      replace (cos x * cos x * cos x) with (cos x * (1 - sin x * sin x)) by (rewrite <- H; ring).
      transitivity ((INR m + 1) * sin x ^ m * ((cos x * cos x) * (1 - sin x * sin x)) + sin x ^ m * sin x * (3 * (cos x * cos x) * - sin x)); [|ring]. 
      ring.
    - intros x. apply (continuous_minus (V := R_NormedModule)); apply (continuous_mult (K := R_AbsRing)); try apply continuous_const; apply wallis_cont.
    - cbv beta. rewrite cos_neg, cos_PI2. ring. }
  assert (H' : is_RInt (fun x => INR (m + 1) * wallis m x - INR (m + 4) * wallis (m + 2) x) (- (PI / 2)) (PI / 2) (INR (m + 1) * J m - INR (m + 4) * J (m + 2))).
  { apply (is_RInt_minus (V := R_NormedModule)); apply (is_RInt_scal (V := R_NormedModule)); apply J_is. }
  apply (is_RInt_unique (V := R_CompleteNormedModule)) in H, H'. rewrite H in H'. lra.
Qed.
(** normalised moments of the semicircle of radius one *)
Fixpoint semi (k : nat) : Q := match k with O => 1%Q | S k => (((2 * Z.of_nat k + 1)%Z # 1) / ((2 * Z.of_nat k + 4)%Z # 1) * semi k)%Q end.
Lemma J_even k : J (2 * k) = PI / 2 * Q2R (semi k).
Proof.
  induction k as [|k IH]; [cbn [semi]; change (2 * 0)%nat with 0%nat; rewrite J_0; unfold Q2R; cbn; field|].
  assert (H := J_rec (2 * k)). rewrite IH in H. replace (2 * S k)%nat with (2 * k + 2)%nat by lia.
  cbn [semi]. rewrite Q2R_mult, Q2R_div by (unfold Qeq; cbn [Qnum Qden]; lia). rewrite !Q2R_int, !plus_IZR, !mult_IZR, <- !INR_IZR_INZ.
  rewrite !plus_INR, mult_INR in H. cbn [INR] in H. assert (0 <= INR k) by apply pos_INR.
  apply (Rmult_eq_reg_l (1 + 1 + (1 + 1) * INR k + (1 + 1))); [|lra].
  transitivity (((1 + 1) * INR k + (1 + 1 + 1 + 1)) * J (2 * k + 2)); [ring|]. rewrite H. field. lra.
Qed.
Lemma J_odd k : J (2 * k + 1) = 0.
Proof.
  induction k as [|k IH]; [exact J_1|].
  assert (H := J_rec (2 * k + 1)). rewrite IH in H. replace (2 * S k + 1)%nat with (2 * k + 1 + 2)%nat by lia.
  rewrite Rmult_0_r in H. apply Rmult_integral in H. destruct H as [H|H]; [|exact H].
  exfalso. apply (not_0_INR (2 * k + 1 + 4)); [lia|exact H].
Qed.

Lemma bethe_dos_sqrt D e d : 0 < D -> bethe_dos e D = Ok d -> d = 2 / (PI * D) * sqrt (1 - e / D * (e / D)).
Proof.
  intros HD. unfold bethe_dos, rdiv. destruct (Req_EM_T D 0); [lra|]. cbn [bind]. intros [= <-].
  destruct (Rlt_dec (Rabs (e / D)) 1) as [H|H]; [reflexivity|].
  rewrite sqrt_neg_0; [ring|]. apply Rnot_lt_le in H. assert (1 * 1 <= Rabs (e / D) * Rabs (e / D)) by (apply Rmult_le_compat; lra).
  rewrite <- Rabs_mult, Rabs_pos_eq in H0 by (apply Rle_0_sqr). lra.
Qed.
Lemma scaled_pow D x m : 0 < D -> (D * x) ^ m = D ^ m * x ^ m. Proof. intros. apply Rpow_mult_distr. Qed.
Lemma bethe_moment_int m D (d : R -> R) : 0 < D -> (forall e, bethe_dos e D = Ok (d e)) ->
  is_RInt (fun e => e ^ m * d e) (- D) D (D ^ m * (2 / PI * J m)).
Proof.
  intros HD Hd. assert (HP := PI_RGT_0).
  set (f := fun e => e ^ m * (2 / (PI * D) * sqrt (1 - e / D * (e / D)))).
  assert (Hf : forall x, continuous f x).
  { intros x. apply (continuous_mult (K := R_AbsRing)).
    - apply (ex_derive_continuous (fun e => e ^ m)). auto_derive. trivial.
    - apply (continuous_mult (K := R_AbsRing)); [apply continuous_const|].
      apply (continuous_comp (fun e => 1 - e / D * (e / D)) sqrt).
      + apply (ex_derive_continuous (fun e => 1 - e / D * (e / D))). auto_derive. trivial.
      + apply continuous_sqrt. }
  apply (is_RInt_ext f). { intros x _. unfold f. rewrite (bethe_dos_sqrt D x (d x) HD (Hd x)). reflexivity. }
  assert (H : is_RInt (fun y => scal (D * cos y) (f (D * sin y))) (- (PI / 2)) (PI / 2) (RInt f (D * sin (- (PI / 2))) (D * sin (PI / 2)))).
  { apply (is_RInt_comp (V := R_CompleteNormedModule) f (fun x => D * sin x) (fun x => D * cos x)).
    - intros x _. apply Hf.
    - intros x _. split; [auto_derive; [trivial|ring]|]. apply (ex_derive_continuous (fun y => D * cos y)). auto_derive. trivial. }
  rewrite sin_neg, sin_PI2 in H. replace (D * - (1)) with (- D) in H by ring. rewrite Rmult_1_r in H.
  assert (H' : is_RInt (fun y => scal (D * cos y) (f (D * sin y))) (- (PI / 2)) (PI / 2) (D ^ m * (2 / PI) * J m)).
  { apply (is_RInt_ext (fun y => D ^ m * (2 / PI) * wallis m y)); [|apply (is_RInt_scal (V := R_NormedModule)); apply J_is].
    intros x [Hx1 Hx2]. rewrite Rmin_left in Hx1 by lra. rewrite Rmax_right in Hx2 by lra.
    unfold scal; cbn. unfold mult; cbn. unfold f, wallis. rewrite Rpow_mult_distr.
    replace (D * sin x / D) with (sin x) by (field; lra). rewrite <- cos2_sin2, sqrt_square by (apply cos_ge_0; lra).
    field. split; lra. }
  apply (is_RInt_unique (V := R_CompleteNormedModule)) in H, H'. rewrite H in H'.
  evar_last. { apply (RInt_correct (V := R_CompleteNormedModule)). apply (ex_RInt_continuous (V := R_CompleteNormedModule)). intros. apply Hf. }
  rewrite H'. ring.
Qed.
Lemma odd_mod m : (0 <= m)%Z -> Z.eqb (m mod 2) 0 = false -> exists k, Z.to_nat m = (2 * k + 1)%nat.
Proof.
  intros Hm E. apply Z.eqb_neq in E. exists (Z.to_nat (m / 2)). assert (Hm2 := Z.mod_pos_bound m 2 ltac:(lia)).
  assert (Hd := Z.div_mod m 2 ltac:(lia)). assert (0 <= m / 2)%Z by (apply Z.div_pos; lia). lia.
Qed.
Lemma bethe_table_check : forallb (fun mq => Z.leb 0 (fst mq) && Z.even (fst mq) && Qeq_bool (snd mq) (semi (Z.to_nat (fst mq / 2)))) bethe_table = true.
Proof. vm_compute. reflexivity. Qed.
Lemma bethe_moment_ok m D (d : R -> R) v : 0 < D -> (forall e, bethe_dos e D = Ok (d e)) -> (0 <= m)%Z -> bethe_dos_moment m D = Ok v ->
  is_RInt (fun e => e ^ Z.to_nat m * d e) (- D) D v.
Proof.
  intros HD Hd Hm. unfold bethe_dos_moment, moment_symmetric, moment_general. assert (HP := PI_RGT_0).
  destruct (Z.eqb (m mod 2) 0) eqn:E.
  - destruct (lookup bethe_table m) as [q|] eqn:L; [|discriminate]. intros [= <-]. apply lookup_in in L.
    assert (C := bethe_table_check). rewrite forallb_forall in C. specialize (C _ L). cbn [fst snd] in C.
    rewrite !andb_true_iff in C. destruct C as [[C1 C2] C3]. apply Qeq_bool_iff, Qeq_eqR in C3. rewrite C3.
    evar_last; [apply bethe_moment_int; assumption|].
    apply Z.even_spec in C2. destruct C2 as [k ->]. rewrite (Z.mul_comm 2 k), Z.div_mul by lia.
    replace (Z.to_nat (k * 2)) with (2 * Z.to_nat k)%nat by lia. rewrite J_even. field. lra.
  - intros [= <-]. evar_last; [apply bethe_moment_int; assumption|]. destruct (odd_mod m Hm E) as [k ->]. rewrite J_odd. ring.
Qed.

Lemma box_moment_ok m D (d : R -> R) : 0 < D -> (forall e, box_dos e D = Ok (d e)) ->
  is_RInt (fun e => e ^ m * d e) (- D) D (box_dos_moment m D).
Proof.
  intros HD Hd. assert (Hi : INR m + 1 <> 0) by (assert (H := pos_INR m); lra).
  apply (is_RInt_ext (fun e => e ^ m * (1 / 2 / D))).
  { intros e [H1 H2]. rewrite Rmin_left in H1 by lra. rewrite Rmax_right in H2 by lra.
    specialize (Hd e). unfold box_dos, rdiv in Hd. destruct (Req_EM_T D 0); [lra|]. cbn [bind] in Hd. injection Hd as <-.
    destruct (Rlt_dec (Rabs e) D) as [H|H]; [reflexivity|]. exfalso. apply H. apply Rabs_def1; lra. }
  evar_last. { apply (ftc (fun e => e ^ (m + 1) / (INR m + 1) * (1 / 2 / D))).
    - intros x. auto_derive; [trivial|]. replace (Init.Nat.pred (m + 1)) with m by lia. rewrite plus_INR. cbn [INR]. field. split; try exact Hi; lra.
    - intros x. apply (ex_derive_continuous (fun e => e ^ m * (1 / 2 / D))). auto_derive. trivial. }
  cbv beta. unfold box_dos_moment. replace (- D) with (-1 * D) by ring. rewrite Rpow_mult_distr, !pow_add, pow_1, pow_1.
  destruct (Nat.odd m) eqn:E.
  - apply Nat.odd_spec in E. destruct E as [k ->]. rewrite (pow_add (-1)), pow_mult. replace ((-1) ^ 2) with 1 by ring. rewrite pow1. field. split; try exact Hi; lra.
  - assert (E' : Nat.Even m) by (apply Nat.even_spec; rewrite <- Nat.negb_odd, E; reflexivity).
    destruct E' as [k ->]. rewrite pow_mult with (x := -1). replace ((-1) ^ 2) with 1 by ring. rewrite pow1. field. split; try exact Hi; lra.
Qed.
