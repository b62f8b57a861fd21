(** * Property C25, continued: the rows of [orth_compl] are the whole orthogonal complement *)
From Coq Require Import List Arith Reals Lia Lra Bool Field.
From Verif Require Import Base FSum CBase Herm_Model Herm_Spec Herm_Proofs Herm_Gauss Mat Linalg_Model Linalg_Proofs Linalg_Props PPade_Rank Backend.
Import ListNotations.
Local Open Scope fld_scope.

Section S.
Variable K : Fld.
Add Field KFoc : (Fth K).
Variable conj : K -> K.

Lemma orth_rows qr A : conj_ok K conj -> qr_spec K conj A (qr A) -> (nc A < nr A)%nat -> trivial_kernel K A ->
  exists P, orth_compl conj qr A = Ok P /\
  forall v : nat -> K, (forall j, (j < nc A)%nat -> nsum (nr A) (fun i => v i * me A i j) = 0) <->
    exists u : nat -> K, forall i, (i < nr A)%nat -> v i = nsum (nr A - nc A) (fun k => u k * me P k i).
Proof.
  intros CJ HQ L T. destruct (orth_compl_spec K conj qr A HQ L CJ) as (P & EP & P1 & P2 & P3 & _). exists P. split; [exact EP|].
  unfold orth_compl in EP. rewrite (proj2 (Nat.leb_gt (nr A) (nc A)) L) in EP. injection EP as EP. destruct (qr A) as [Q R]. cbn [fst] in EP.
  destruct HQ as (Q1 & Q2 & Q3 & Q4 & HA & HU & HU' & HT). intros v. split.
  - intros H. set (y := fun k => nsum (nr A) (fun i => v i * me Q i k)).
    assert (E : forall (u : nat -> K) i, (i < nr A)%nat -> nsum (nc A) (fun j => me A i j * u j) = nsum (nc A) (fun k => me Q i k * nsum (nc A) (fun j => me R k j * u j))).
    { intros u i Hi. rewrite (nsum_ext K (nc A) _ (fun j => nsum (nc A) (fun k => me Q i k * me R k j * u j))).
      - rewrite nsum_swap. apply nsum_ext. intros k Hk. rewrite <- nsum_mul_l. apply nsum_ext. intros; ring.
      - intros j Hj. rewrite HA by assumption. rewrite nsum_mul_r. f_equal. apply nsum_extend; [lia|]. intros k Hk. rewrite HT by lia. ring. }
    assert (IR : inj K (nc A) (me R)).
    { intros u Hu. apply T. intros i Hi. rewrite E by exact Hi. apply nsum_0'. intros k Hk. rewrite Hu by exact Hk. ring. }
    assert (YR : forall j, (j < nc A)%nat -> nsum (nc A) (fun k => y k * me R k j) = 0).
    { intros j Hj. rewrite <- (H j Hj). unfold y.
      rewrite (nsum_ext K (nc A) _ (fun k => nsum (nr A) (fun i => v i * me Q i k * me R k j))) by (intros; now rewrite nsum_mul_r).
      rewrite nsum_swap. apply nsum_ext. intros i Hi. rewrite HA by assumption.
      rewrite (nsum_extend K (nc A) (nr A)) by (try lia; intros k Hk; rewrite HT by lia; ring).
      rewrite <- nsum_mul_l. apply nsum_ext. intros; ring. }
    assert (Y : forall k, (k < nc A)%nat -> y k = 0).
    { intros k Hk. destruct (inj_surj K (nc A) (me R) (fun i => kron i k) IR) as [w Hw].
      transitivity (nsum (nc A) (fun i => kron k i * y i)); [symmetry; now apply kron_sum|].
      transitivity (nsum (nc A) (fun i => y i * nsum (nc A) (fun j => me R i j * w j))).
      - apply nsum_ext. intros i Hi. rewrite Hw by exact Hi. unfold kron. rewrite Nat.eqb_sym. ring.
      - rewrite (nsum_ext K (nc A) _ (fun i => nsum (nc A) (fun j => y i * me R i j * w j))) by (intros; rewrite <- nsum_mul_l; apply nsum_ext; intros; ring).
        rewrite nsum_swap. apply nsum_0'. intros j Hj. rewrite nsum_mul_r, YR by exact Hj. ring. }
    exists (fun k => y (nc A + k)%nat). intros i Hi.
    transitivity (nsum (nr A) (fun k => y k * conj (me Q i k))).
    + unfold y. rewrite (nsum_ext K (nr A) _ (fun k => nsum (nr A) (fun j => me Q j k * conj (me Q i k) * v j))) by (intros; rewrite <- nsum_mul_r; apply nsum_ext; intros; ring).
      rewrite nsum_swap. rewrite (nsum_ext K (nr A) _ (fun j => kron i j * v j)).
      * symmetry. now apply kron_sum.
      * intros j Hj. rewrite nsum_mul_r, HU' by assumption. unfold kron. now rewrite Nat.eqb_sym.
    + replace (nr A) with (nc A + (nr A - nc A))%nat at 1 by lia. rewrite nsum_split.
      rewrite (nsum_0' K (nc A)) by (intros k Hk; rewrite Y by exact Hk; ring).
      rewrite <- EP. cbn [ctr cols_from me]. match goal with |- 0 + ?a = ?b => transitivity a; [ring|] end. apply nsum_ext. intros; reflexivity.
  - intros (u & Hu) j Hj.
    rewrite (nsum_ext K (nr A) _ (fun i => nsum (nr A - nc A) (fun k => u k * me P k i * me A i j))) by (intros i Hi; rewrite Hu by exact Hi; now rewrite nsum_mul_r).
    rewrite nsum_swap. apply nsum_0'. intros k Hk.
    assert (E := P3 k j ltac:(lia) Hj). unfold mm in E. cbn [me] in E. rewrite P2 in E.
    rewrite (nsum_ext K (nr A) _ (fun i => u k * (me P k i * me A i j))) by (intros; ring). rewrite nsum_mul_l, E. ring.
Qed.
(** conversely, rows spanning everything orthogonal to the columns need independent columns *)
Lemma orth_rows_needs qr A P : conj_ok K conj -> qr_spec K conj A (qr A) -> (nc A < nr A)%nat -> orth_compl conj qr A = Ok P ->
  (forall v : nat -> K, (forall j, (j < nc A)%nat -> nsum (nr A) (fun i => v i * me A i j) = 0) ->
    exists u : nat -> K, forall i, (i < nr A)%nat -> v i = nsum (nr A - nc A) (fun k => u k * me P k i)) -> trivial_kernel K A.
Proof.
  intros CJ HQ L EP S. unfold orth_compl in EP. rewrite (proj2 (Nat.leb_gt (nr A) (nc A)) L) in EP. injection EP as EP. destruct (qr A) as [Q R]. cbn [fst] in EP.
  destruct HQ as (Q1 & Q2 & Q3 & Q4 & HA & HU & HU' & HT).
  assert (IT : inj K (nc A) (fun i j => me R j i)).
  { intros y Hy. set (v := fun i => nsum (nc A) (fun k => y k * conj (me Q i k))).
    assert (VQ : forall m, (m < nr A)%nat -> nsum (nr A) (fun i => v i * me Q i m) = nsum (nc A) (fun k => y k * kron k m)).
    { intros m Hm. unfold v. rewrite (nsum_ext K (nr A) _ (fun i => nsum (nc A) (fun k => y k * (conj (me Q i k) * me Q i m)))) by (intros; rewrite <- nsum_mul_r; apply nsum_ext; intros; ring).
      rewrite nsum_swap. apply nsum_ext. intros k Hk. rewrite nsum_mul_l, HU by lia. reflexivity. }
    assert (VK : forall m, (m < nc A)%nat -> nsum (nr A) (fun i => v i * me Q i m) = y m).
    { intros m Hm. rewrite VQ by lia. rewrite (nsum_ext K (nc A) _ (fun k => kron m k * y k)) by (intros; unfold kron; rewrite Nat.eqb_sym; ring). now apply kron_sum. }
    destruct (S v) as [u Hu].
    - intros j Hj. rewrite (nsum_ext K (nr A) _ (fun i => nsum (nc A) (fun k => v i * me Q i k * me R k j))).
      + rewrite nsum_swap. rewrite <- (Hy j Hj). apply nsum_ext. intros k Hk. rewrite nsum_mul_r, VK by exact Hk. ring.
      + intros i Hi. rewrite HA by assumption. rewrite (nsum_extend K (nc A) (nr A)) by (try lia; intros k Hk; rewrite HT by lia; ring).
        rewrite <- nsum_mul_l. apply nsum_ext. intros; ring.
    - intros m Hm. rewrite <- (VK m Hm).
      rewrite (nsum_ext K (nr A) _ (fun i => nsum (nr A - nc A) (fun k => u k * (conj (me Q i (nc A + k)) * me Q i m)))).
      + rewrite nsum_swap. apply nsum_0'. intros k Hk. rewrite nsum_mul_l, HU by lia. unfold kron. rewrite (proj2 (Nat.eqb_neq (nc A + k) m)) by lia. ring.
      + intros i Hi. rewrite Hu by exact Hi. rewrite <- nsum_mul_r. apply nsum_ext. intros k Hk. rewrite <- EP. cbn [ctr cols_from me]. ring. }
  intros u Hu j Hj.
  assert (RU : forall m, (m < nc A)%nat -> nsum (nc A) (fun l => me R m l * u l) = 0).
  { intros m Hm. transitivity (nsum (nr A) (fun i => conj (me Q i m) * nsum (nc A) (fun l => me A i l * u l))).
    - rewrite (nsum_ext K (nr A) _ (fun i => nsum (nc A) (fun l => conj (me Q i m) * me A i l * u l))) by (intros; rewrite <- nsum_mul_l; apply nsum_ext; intros; ring).
      rewrite nsum_swap. apply nsum_ext. intros l Hl. rewrite nsum_mul_r. f_equal.
      rewrite (nsum_ext K (nr A) _ (fun i => nsum (nr A) (fun k => conj (me Q i m) * me Q i k * me R k l))) by (intros i Hi; rewrite HA by assumption; rewrite <- nsum_mul_l; apply nsum_ext; intros; ring).
      rewrite nsum_swap. rewrite (nsum_ext K (nr A) _ (fun k => kron m k * me R k l)) by (intros k Hk; rewrite nsum_mul_r, HU by lia; reflexivity).
      exact (eq_sym (kron_sum K (nr A) m (fun k => me R k l) ltac:(lia))).
    - apply nsum_0'. intros i Hi. rewrite Hu by exact Hi. ring. }
  destruct (inj_surj K (nc A) (fun i l => me R l i) (fun i => kron i j) IT) as [w Hw].
  transitivity (nsum (nc A) (fun i => kron j i * u i)); [symmetry; now apply kron_sum|].
  rewrite (nsum_ext K (nc A) _ (fun i => nsum (nc A) (fun l => w l * (me R l i * u i)))).
  - rewrite nsum_swap. apply nsum_0'. intros l Hl. rewrite nsum_mul_l, RU by exact Hl. ring.
  - intros i Hi. replace (kron j i : K) with (kron i j : K) by (unfold kron; now rewrite Nat.eqb_sym). rewrite <- (Hw i Hi). rewrite <- nsum_mul_r. apply nsum_ext. intros; ring.
Qed.
End S.

(** for linearly independent columns: a row vector annihilates the matrix exactly if it is a combination of the returned
    rows, and a column vector is annihilated by the result exactly if it is a combination of the columns *)
Theorem C25_complement :
  forall (K : Fld) conj qr (A : mat K), conj_ok K conj -> qr_spec K conj A (qr A) -> (nc A < nr A)%nat ->
  (forall u : nat -> K, (forall i, (i < nr A)%nat -> nsum (nc A) (fun j => me A i j * u j) = 0) -> forall j, (j < nc A)%nat -> u j = 0) ->
  exists P, orth_compl conj qr A = Ok P /\
  (forall v : nat -> K, (forall j, (j < nc A)%nat -> nsum (nr A) (fun i => v i * me A i j) = 0) <->
     exists u : nat -> K, forall i, (i < nr A)%nat -> v i = nsum (nr A - nc A) (fun k => u k * me P k i)) /\
  (forall v : nat -> K, (forall i, (i < nr A - nc A)%nat -> nsum (nr A) (fun j => me P i j * v j) = 0) <->
     exists u : nat -> K, forall i, (i < nr A)%nat -> v i = nsum (nc A) (fun j => me A i j * u j)).
Proof.
  intros K conj qr A CJ HQ L T. destruct (orth_rows K conj qr A CJ HQ L T) as (P & EP & H1). exists P. split; [exact EP|]. split; [exact H1|].
  destruct (orth_kernel K conj qr A CJ HQ L T) as (P' & EP' & P1 & _ & H2). rewrite EP in EP'. injection EP' as <-. rewrite P1 in H2. exact H2.
Qed.
Print Assumptions C25_complement.

(** independent columns are needed: only for them do the rows span everything orthogonal to the columns *)
Theorem C25_complement_needs_rank :
  forall (K : Fld) conj qr (A P : mat K), conj_ok K conj -> qr_spec K conj A (qr A) -> (nc A < nr A)%nat -> orth_compl conj qr A = Ok P ->
  (forall v : nat -> K, (forall j, (j < nc A)%nat -> nsum (nr A) (fun i => v i * me A i j) = 0) ->
     exists u : nat -> K, forall i, (i < nr A)%nat -> v i = nsum (nr A - nc A) (fun k => u k * me P k i)) ->
  forall u : nat -> K, (forall i, (i < nr A)%nat -> nsum (nc A) (fun j => me A i j * u j) = 0) -> forall j, (j < nc A)%nat -> u j = 0.
Proof. exact orth_rows_needs. Qed.
Print Assumptions C25_complement_needs_rank.

(** a witness: the zero column is annihilated by more than the multiples of the single row *)
Theorem C25_complement_rank_refuted :
  exists A : mat RF, (nc A < nr A)%nat /\ forall qr P, qr_spec RF (fun x => x) A (qr A) -> orth_compl (K := RF) (fun x => x) qr A = Ok P ->
  exists v : nat -> R, (forall j, (j < nc A)%nat -> nsum (K := RF) (nr A) (fun i => v i * me A i j)%R = 0%R) /\
    ~ exists u : nat -> R, forall i, (i < nr A)%nat -> v i = nsum (K := RF) (nr P) (fun k => u k * me P k i)%R.
Proof.
  exists (Mat (K := RF) 2 1 (fun _ _ => 0%R)). split; [cbn; lia|]. intros qr P HQ EP.
  destruct (orth_compl_spec RF (fun x => x) qr _ HQ ltac:(cbn; lia)) as (P' & EP' & P1 & P2 & _ & P4); [repeat split; reflexivity|].
  rewrite EP in EP'. injection EP' as <-. cbn [nr nc] in P1, P2. cbn in P1.
  assert (N := P4 0%nat 0%nat ltac:(lia) ltac:(lia)). unfold mm, ctr in N. cbn [nr nc me] in N. rewrite P2 in N. cbn in N.
  set (a := me P 0 0) in *. set (b := me P 0 1) in *.
  exists (fun i => match i with O => (- b)%R | _ => a end). split.
  - intros j _. cbn. ring.
  - intros [u Hu]. rewrite P1 in Hu. assert (H0 := Hu 0%nat ltac:(cbn; lia)). assert (H1 := Hu 1%nat ltac:(cbn; lia)). cbn in H0, H1. fold a in H0. fold b in H1.
    assert (E0 : (- b = u 0%nat * a)%R) by (change (- b = 0 + u 0%nat * a)%R in H0; lra). assert (E1 : (a = u 0%nat * b)%R) by (change (a = 0 + u 0%nat * b)%R in H1; lra).
    assert (N' : (a * a + b * b = 1)%R) by (change (0 + a * a + b * b = 1)%R in N; lra).
    assert (Z : (a * a + b * b = 0)%R) by (rewrite E1 at 1; replace b with (- (u 0%nat * a))%R at 2 by lra; ring). lra.
Qed.
Print Assumptions C25_complement_rank_refuted.

(** the hypotheses hold for the column (3, 4): the row (4/5, -3/5) spans everything orthogonal to it *)
Example C25_complement_ex :
  (forall u : nat -> RF, (forall i, (i < 2)%nat -> nsum 1 (fun j => me (ctr (fun x => x) ex_c) i j * u j) = 0) -> forall j, (j < 1)%nat -> u j = 0) /\
  (forall v : nat -> R, (v 0%nat * 3 + v 1%nat * 4 = 0)%R -> exists t, (v 0%nat = t * (4 / 5))%R /\ (v 1%nat = t * (- 3 / 5))%R).
Proof.
  split.
  - intros u H j Hj. replace j with 0%nat by lia. assert (E := H 0%nat ltac:(lia)). cbn in E. change (u 0%nat = 0%R). change (0 + 3 * u 0%nat = 0)%R in E. lra.
  - intros v H. exists (5 / 4 * v 0%nat)%R. split; lra.
Qed.
