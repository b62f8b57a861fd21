(** * C74: masked_coefficients *)
From Coq Require Import Reals List Lia Lra.
From Coquelicot Require Import Coquelicot.
From Verif Require Import Base CBase Lattice_Model Bethe_Proofs Pade_Model Pade_Spec Pade_Proofs Masked_Model Masked_Spec Masked_Proofs Masked_Path.
Import ListNotations.
Local Open Scope C_scope.

(** For different points the call succeeds if and only if the first value exceeds 1e-4 in magnitude (a fixed scale: a function
    multiplied by a small number is rejected with AssertionError). *)
Theorem C74_ok :
  forall z f f0, length z = length f -> NoDup z -> hd_error f = Some f0 -> (1 / 10000 < Cmod f0)%R ->
  exists a, masked_coefficients z f = Ok a /\ length a = length z /\ hd_error a = Some f0.
Proof. exact outcome_ok. Qed.
Print Assumptions C74_ok.
Theorem C74_assertion :
  forall z f, length z = length f -> NoDup z ->
  (masked_coefficients z f = Err AssertionError <-> exists f0, hd_error f = Some f0 /\ (Cmod f0 <= 1 / 10000)%R).
Proof. exact outcome_assert. Qed.
Print Assumptions C74_assertion.

(** "Like `coefficients`": if in every column of inverse differences all magnitudes are within the factor 1e4 of the leading one
    and neighbours on the diagonal differ by more than 1e-4, then the result is that of [coefficients]. *)
Theorem C74_like_coefficients :
  forall z f f0, length z = length f -> hd_error f = Some f0 -> (1 / 10000 < Cmod f0)%R ->
  tame (1 / 10000) z f -> distinct (1 / 10000) z f ->
  exists a, masked_coefficients z f = Ok a /\ coefficients (K := CF) z f = Ok (map Some a) /\ ~ In (RtoC 0) a.
Proof. exact nothing_eliminated. Qed.
Print Assumptions C74_like_coefficients.

(** Eliminated points are those with a zero coefficient; the others are the Pade coefficients of the remaining points whenever
    those are tame, ... *)
Theorem C74_kept :
  forall z f a, masked_coefficients z f = Ok a -> tame (1 / 10000) (kept a z) (kept a f) ->
  coefficients (K := CF) (kept a z) (kept a f) = Ok (map Some (kept a a)).
Proof. exact kept_coefficients. Qed.
Print Assumptions C74_kept.
(** ... so that the continued fraction through the remaining points interpolates the remaining values. *)
Theorem C74_kept_interpolates :
  forall z f a j (zj fj : C) l k (v : C), masked_coefficients z f = Ok a -> tame (1 / 10000) (kept a z) (kept a f) ->
  nth_error (kept a z) j = Some zj -> nth_error (kept a f) j = Some fj ->
  calc_iterator (K := CF) zj (kept a z) (map Some (kept a a)) = Ok l -> (j <= k + 1)%nat -> nth_error l k = Some (Some v) -> v = fj.
Proof.
  intros z f a j zj fj l k v Hm Ht Hz Hf Hl Hk Hv.
  exact (pade_interpolates CF _ _ _ j zj fj l k v (kept_coefficients z f a Hm Ht) Hz Hf Hl Hk Hv).
Qed.
Print Assumptions C74_kept_interpolates.

(** The value of a single remaining point, followed through the columns ([regular_path]); nothing is assumed of the other points.
    [pts] are the remaining points before it with their coefficients.  If it is not extreme in any column the continued fraction
    up to its own coefficient interpolates it, ... *)
Theorem C74_point :
  forall z f a j (zj fj aj : C), masked_coefficients z f = Ok a -> NoDup z ->
  nth_error z (S j) = Some zj -> nth_error f (S j) = Some fj -> nth_error a (S j) = Some aj -> aj <> 0 ->
  let pts := kept_before (S j) a (combine z a) in regular_path (1 / 10000) pts zj fj ->
  let '(n, d) := cf_frac (K := CF) zj (map snd pts ++ [aj]) (map fst pts) in d <> RtoC 0 /\ n = fj * d.
Proof. exact point_regular. Qed.
Print Assumptions C74_point.
(** ... if it is huge compared to the first value the continued fraction has a pole there, ... *)
Theorem C74_huge_pole :
  forall z f a j (zj fj aj z0 f0 : C) q, masked_coefficients z f = Ok a -> NoDup z ->
  nth_error z (S j) = Some zj -> nth_error f (S j) = Some fj -> nth_error a (S j) = Some aj -> aj <> 0 ->
  let pts := kept_before (S j) a (combine z a) in
  pts = (z0, f0) :: q -> (Cmod f0 < Cmod fj * (1 / 10000))%R -> regular_path (1 / 10000) q zj ((- (1)) / (zj - z0)) ->
  let '(n, d) := cf_frac (K := CF) zj (map snd pts ++ [aj]) (map fst pts) in d = RtoC 0 /\ n <> RtoC 0.
Proof. exact point_huge. Qed.
Print Assumptions C74_huge_pole.
(** ... and if it is tiny a zero. *)
Theorem C74_tiny_zero :
  forall z f a j (zj fj aj z0 f0 z1 a1 : C) q, masked_coefficients z f = Ok a -> NoDup z ->
  nth_error z (S j) = Some zj -> nth_error f (S j) = Some fj -> nth_error a (S j) = Some aj -> aj <> 0 ->
  let pts := kept_before (S j) a (combine z a) in
  pts = (z0, f0) :: (z1, a1) :: q -> (Cmod fj <= Cmod f0 * (1 / 10000))%R -> regular_path (1 / 10000) q zj ((- (1)) / (zj - z1)) ->
  let '(n, d) := cf_frac (K := CF) zj (map snd pts ++ [aj]) (map fst pts) in n = RtoC 0 /\ d <> RtoC 0.
Proof. exact point_tiny. Qed.
Print Assumptions C74_tiny_zero.

(** No coefficient after the first is extreme. *)
Theorem C74_bounded :
  forall z f a d i c, (0 < d)%R ->
  (forall i j x y, nth_error z i = Some x -> nth_error z j = Some y -> i <> j -> (d <= Cmod (x - y)%C)%R) ->
  masked_coefficients z f = Ok a -> nth_error a (S i) = Some c -> (Cmod c <= 10001 / d)%R.
Proof. exact bounded_coefficients. Qed.
Print Assumptions C74_bounded.

(** The coefficients only work with the remaining points: passed to [calc_iterator] with all points, every approximant with more
    than m coefficients is the one with m coefficients, if the coefficient m is zero.  All data behind the first eliminated point
    are ignored. *)
Theorem C74_truncates :
  forall (K : Fld) (z : K) (zin b : list K) m l i v,
  (1 <= m)%nat -> nth_error b m = Some (@F0 K) -> (m <= i + 1)%nat ->
  calc_iterator z zin (map Some b) = Ok l -> nth_error l i = Some (Some v) ->
  let '(n, d) := cf_frac z (firstn m b) (firstn (m - 1) zin) in d <> @F0 K /\ v = Fdiv n d.
Proof. exact truncates. Qed.
Print Assumptions C74_truncates.

Lemma Cmod_pos_R x : (0 <= x)%R -> Cmod (RtoC x) = x.
Proof. intros H. rewrite Cmod_R. now apply Rabs_pos_eq. Qed.

Lemma witness : masked_coefficients [RtoC 0; RtoC 1; RtoC 2] [RtoC 1; RtoC 1; RtoC 2] = Ok [RtoC 1; RtoC 0; RtoC (- (1 / 4))].
Proof.
  unfold masked_coefficients. cbn [length Nat.eqb negb map].
  destruct (Rlt_dec cutoff (Cmod 1)) as [_|N]; [|exfalso; apply N; rewrite Cmod_1; unfold cutoff; lra].
  assert (S1 : signi_diff 1 (Some (RtoC 1)) = false).
  { cbn. destruct (Rlt_dec cutoff (Cmod (1 - 1))) as [H|]; [|reflexivity]. exfalso. replace (1 - 1) with (RtoC 0) in H by ring.
    rewrite Cmod_0 in H. unfold cutoff in H. lra. }
  assert (S2 : signi_diff 1 (Some (RtoC 2)) = true).
  { apply signi_spec. rewrite <- RtoC_minus, Cmod_R. replace (1 - 2)%R with (-(1))%R by ring. rewrite Rabs_Ropp, Rabs_R1. unfold cutoff. lra. }
  assert (S3 : comparable_mag 1 (Some (RtoC 2)) = true).
  { apply comparable_spec. rewrite !Cmod_pos_R by lra. unfold cutoff. lra. }
  assert (N20 : RtoC 2 <> 0) by (intros E; injection E; lra).
  assert (D20 : RtoC 2 <> RtoC 0) by (intros E; injection E; lra).
  cbn [masked_loop]. rewrite S1. cbn [andb]. rewrite S2, S3. cbn [andb].
  rewrite (regular_ok (RtoC 0) (RtoC 1) (RtoC 2) (RtoC 2) N20 D20). cbn [bind masked_loop update].
  do 4 f_equal. apply C_ext; cbn; field.
Qed.

(** The remaining values are in general not interpolated by the approximants which the coefficients and all points give. *)
Theorem C74_interpolates_remaining_refuted :
  exists z f a j (zj fj aj : C) l (v : C),
  masked_coefficients z f = Ok a /\ nth_error z j = Some zj /\ nth_error f j = Some fj /\ nth_error a j = Some aj /\ aj <> 0 /\
  calc_iterator (K := CF) zj z (map Some a) = Ok l /\ last l None = Some v /\ v <> fj.
Proof.
  exists [RtoC 0; RtoC 1; RtoC 2], [RtoC 1; RtoC 1; RtoC 2], [RtoC 1; RtoC 0; RtoC (- (1 / 4))], 2%nat, (RtoC 2), (RtoC 2), (RtoC (- (1 / 4))).
  destruct (calc_iterator_finite CF (RtoC 2) [RtoC 0; RtoC 1; RtoC 2] [RtoC 1; RtoC 0; RtoC (- (1 / 4))] 1 eq_refl) as (l & v & Hl & Hv).
  { cbn. lia. }
  { intros [|[|j]] Hj; [| |lia].
    - cbn. intros E. injection E. lra.
    - cbn. intros E. injection E. lra. }
  exists l, v. destruct (calc_iterator_length CF _ _ _ _ Hl) as (L & _ & _). cbn in L.
  assert (E := truncates CF (RtoC 2) [RtoC 0; RtoC 1; RtoC 2] [RtoC 1; RtoC 0; RtoC (- (1 / 4))] 1 l 1 v ltac:(lia) eq_refl ltac:(lia) Hl Hv).
  cbn in E. destruct E as [_ E].
  destruct l as [|x0 [|x1 [|x2 l]]]; try discriminate L. cbn in Hv.
  repeat split.
  - exact witness.
  - intros E'. injection E'. lra.
  - exact Hl.
  - cbn. now injection Hv.
  - rewrite E. intros E'. apply (f_equal Re) in E'. cbn in E'. lra.
Qed.
Print Assumptions C74_interpolates_remaining_refuted.

(** Cases: the witness above meets the hypotheses of C74_kept, and three points meet those of C74_like_coefficients. *)
Example C74_example :
  (tame (1 / 10000) (kept [RtoC 1; RtoC 0; RtoC (- (1 / 4))] [RtoC 0; RtoC 1; RtoC 2]) (kept [RtoC 1; RtoC 0; RtoC (- (1 / 4))] [RtoC 1; RtoC 1; RtoC 2]) /\
   kept [RtoC 1; RtoC 0; RtoC (- (1 / 4))] [RtoC 0; RtoC 1; RtoC 2] = [RtoC 0; RtoC 2]) /\
  tame (1 / 10000) [RtoC 0; RtoC 1; RtoC 3] [RtoC 1; RtoC 2; RtoC 4] /\ distinct (1 / 10000) [RtoC 0; RtoC 1; RtoC 3] [RtoC 1; RtoC 2; RtoC 4].
Proof.
  assert (K3 : forall a b c : C, kept [RtoC 1; RtoC 0; RtoC (- (1 / 4))] [a; b; c] = [a; c]).
  { intros a b c. cbn [kept]. destruct (Ceq_dec 1 0) as [E|_]; [injection E; lra|]. destruct (Ceq_dec 0 0) as [_|N]; [|easy].
    destruct (Ceq_dec (RtoC (- (1 / 4))) 0) as [E|_]; [injection E; lra|]. reflexivity. }
  assert (E1 : (1 / 2 - 1) / (1 - 0) = RtoC (- (1 / 2))) by (apply C_ext; cbn; field).
  assert (E2 : (1 / 4 - 1) / (3 - 0) = RtoC (- (1 / 4))) by (apply C_ext; cbn; field).
  assert (Cn : forall x, Cmod (RtoC (- x)) = Rabs x) by (intros x; now rewrite Cmod_R, Rabs_Ropp).
  split; [split|split].
  - rewrite !K3. cbn [tame inv_diff]. repeat match goal with |- _ /\ _ => split end; try exact Logic.I; try (intros x []; fail).
    + intros x [<-|[]]. rewrite !Cmod_pos_R by lra. lra.
    + intros x [<-|[]]. intros E. injection E. lra.
  - apply K3.
  - cbn [tame inv_diff]. rewrite E1, E2. repeat match goal with |- _ /\ _ => split end; try exact Logic.I; try (intros x []; fail).
    + intros x [<-|[<-|[]]]; rewrite !Cmod_pos_R by lra; lra.
    + intros x [<-|[<-|[]]]; intros E; injection E; lra.
    + intros x [<-|[]]. rewrite !Cn, !Rabs_pos_eq by lra. lra.
    + intros x [<-|[]]. intros E. injection E. lra.
  - cbn [distinct inv_diff]. rewrite E1, E2. repeat match goal with |- _ /\ _ => split end; try exact Logic.I.
    + rewrite <- RtoC_minus. replace (1 - 2)%R with (- (1))%R by ring. rewrite Cn, Rabs_R1. lra.
    + rewrite <- RtoC_minus. replace (- (1 / 2) - - (1 / 4))%R with (- (1 / 4))%R by field. rewrite Cn, Rabs_pos_eq; lra.
Qed.

(** a huge value at a remaining point: the hypotheses of C74_huge_pole hold for z = 0, 1, 3 and f = 1, 2, 100000 *)
Example C74_huge_example :
  masked_coefficients [RtoC 0; RtoC 1; RtoC 3] [RtoC 1; RtoC 2; RtoC 100000] = Ok [RtoC 1; RtoC (- (1 / 2)); RtoC (1 / 4)] /\
  kept_before 2 [RtoC 1; RtoC (- (1 / 2)); RtoC (1 / 4)] (combine [RtoC 0; RtoC 1; RtoC 3] [RtoC 1; RtoC (- (1 / 2)); RtoC (1 / 4)])
    = [(RtoC 0, RtoC 1); (RtoC 1, RtoC (- (1 / 2)))] /\
  (Cmod 1 < Cmod (RtoC 100000) * (1 / 10000))%R /\ regular_path (1 / 10000) [(RtoC 1, RtoC (- (1 / 2)))] (RtoC 3) ((- (1)) / (3 - 0)).
Proof.
  assert (M : forall x, Cmod (RtoC (- x)) = Rabs x) by (intros x; now rewrite Cmod_R, Rabs_Ropp).
  assert (B : (- (1)) / (3 - 0) = RtoC (- (1 / 3))) by (apply C_ext; cbn; field).
  split; [|split; [|split]].
  - unfold masked_coefficients. cbn [length Nat.eqb negb map].
    destruct (Rlt_dec cutoff (Cmod 1)) as [_|N]; [|exfalso; apply N; rewrite Cmod_1; unfold cutoff; lra].
    assert (S1 : signi_diff 1 (Some (RtoC 2)) = true).
    { apply signi_spec. rewrite <- RtoC_minus. replace (1 - 2)%R with (- (1))%R by ring. rewrite M, Rabs_R1. unfold cutoff. lra. }
    assert (S2 : comparable_mag 1 (Some (RtoC 2)) = true) by (apply comparable_spec; rewrite !Cmod_pos_R by lra; unfold cutoff; lra).
    cbn [masked_loop]. rewrite S1, S2. cbn [andb]. rewrite regular_ok by (intros E; injection E; lra). cbn [bind].
    replace ((1 / 2 - 1) / (1 - 0)) with (RtoC (- (1 / 2))) by (apply C_ext; cbn; field).
    assert (U : update1 0 1 3 (Some (RtoC 100000)) = Ok (Some (RtoC (- (1 / 3))))).
    { destruct (update1_ok 0 1 3 (Some (RtoC 100000))) as (v & Hv); [intros E; injection E; lra|]. rewrite Hv.
      destruct (update1_huge 0 1 3 (Some (RtoC 100000)) v) as [_ ->]; [cbn [huge]; rewrite !Cmod_pos_R by lra; unfold cutoff; lra|exact Hv|]. now rewrite B. }
    cbn [update]. rewrite U. cbn [bind masked_loop].
    assert (S3 : signi_diff (RtoC (- (1 / 2))) (Some (RtoC (- (1 / 3)))) = true).
    { apply signi_spec. rewrite <- RtoC_minus. replace (- (1 / 2) - - (1 / 3))%R with (- (1 / 6))%R by field. rewrite M, Rabs_pos_eq by lra. unfold cutoff. lra. }
    assert (S4 : comparable_mag (RtoC (- (1 / 2))) (Some (RtoC (- (1 / 3)))) = true) by (apply comparable_spec; rewrite !M, !Rabs_pos_eq by lra; unfold cutoff; lra).
    rewrite S3, S4. cbn [andb]. rewrite regular_ok by (intros E; injection E; lra). cbn [bind update masked_loop].
    do 4 f_equal. apply C_ext; cbn; field.
  - unfold kept_before. cbn [combine firstn kept]. destruct (Ceq_dec 1 0) as [E|_]; [injection E; lra|].
    destruct (Ceq_dec (RtoC (- (1 / 2))) 0) as [E|_]; [injection E; lra|]. reflexivity.
  - rewrite !Cmod_pos_R by lra. lra.
  - cbn [regular_path]. split; [|exact Logic.I]. rewrite B, !M, !Rabs_pos_eq by lra. lra.
Qed.
