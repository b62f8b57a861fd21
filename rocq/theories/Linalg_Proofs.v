(** * Proofs about gftool/linalg.py *)
From Coq Require Import List Arith Lia Bool Field.
From Verif Require Import Base FSum Herm_Model Herm_Spec Herm_Proofs Herm_Gauss Linalg_Model.
Import ListNotations.
Local Open Scope fld_scope.

Definition kron {K : Fld} (i j : nat) : K := if (i =? j)%nat then 1 else 0.

Section S.
Variable K : Fld.
Add Field KFla : (Fth K).
Variable conj : K -> K.
Definition conj_ok : Prop :=
  (forall x y, conj (x + y) = conj x + conj y) /\ (forall x y, conj (x * y) = conj x * conj y) /\
  (forall x, conj (conj x) = x).

(** ** Contracts of the back-ends (for one call each) *)
(** complete QR of [A] *)
Definition qr_spec (A : mat K) (QR : mat K * mat K) : Prop :=
  let (Q, R) := QR in
  nr Q = nr A /\ nc Q = nr A /\ nr R = nr A /\ nc R = nc A /\
  (forall i j, (i < nr A)%nat -> (j < nc A)%nat -> me A i j = nsum (nr A) (fun k => me Q i k * me R k j)) /\
  (forall i j, (i < nr A)%nat -> (j < nr A)%nat -> nsum (nr A) (fun k => conj (me Q k i) * me Q k j) = kron i j) /\
  (forall i j, (i < nr A)%nat -> (j < nr A)%nat -> nsum (nr A) (fun k => me Q i k * conj (me Q j k)) = kron i j) /\
  (forall i j, (i < nr A)%nat -> (j < nc A)%nat -> (j < i)%nat -> me R i j = 0).
(** solve_triangular(r, d, trans='C') for a square upper triangular [r] *)
Definition tri_spec (solve : mat K -> list K -> result (list K)) (r : mat K) (d : list K) : Prop :=
  if forallb (fun i => if Feq_dec (me r i i) 0 then false else true) (seq 0 (nr r))
  then exists y, solve r d = Ok y /\ length y = nr r /\ mv (ctr conj r) y = d
  else solve r d = Err LinAlgError.
(** a least-squares solution: right length, no other vector has a smaller residual ([le] compares the
    sizes of residual vectors) *)
Definition lstsq_spec (le : list K -> list K -> Prop) (A : mat K) (b : list K) (x : list K) : Prop :=
  length x = nc A /\ forall x', length x' = nc A -> le (vsub (mv A x) b) (vsub (mv A x') b).

(** all back-ends of lstsq_ec for all their admissible arguments; np.linalg.lstsq returns no residuals
    for matrices that are not tall *)
Definition upper (r : mat K) : Prop := forall i j, (i < nr r)%nat -> (j < nc r)%nat -> (j < i)%nat -> me r i j = 0.
Definition backend_ok (le : list K -> list K -> Prop) (qr : mat K -> mat K * mat K) (solve_triangular : mat K -> list K -> result (list K))
  (lstsq : mat K -> list K -> list K * list K) (allclose0 : list K -> bool) : Prop :=
  (forall A, qr_spec A (qr A)) /\
  (forall r d, nr r = nc r -> length d = nr r -> upper r -> tri_spec solve_triangular r d) /\
  (forall A b, length b = nr A -> lstsq_spec le A b (fst (lstsq A b))) /\
  (forall A b, (nr A <= nc A)%nat -> snd (lstsq A b) = []) /\ allclose0 [] = true.

(** rows of [c] are linearly independent *)
Definition full_row_rank (c : mat K) : Prop :=
  forall u : nat -> K, (forall j, (j < nc c)%nat -> nsum (nr c) (fun i => u i * me c i j) = 0) -> forall i, (i < nr c)%nat -> u i = 0.

(** ** Basics *)
Lemma mv_length (A : mat K) v : length (mv A v) = nr A.
Proof. unfold mv. now rewrite map_length, seq_length. Qed.
Lemma mv_nth (A : mat K) v i : (i < nr A)%nat -> nth i (mv A v) 0 = nsum (nc A) (fun j => me A i j * nth j v 0).
Proof. intros H. unfold mv. now rewrite nth_map_seq by exact H. Qed.
Lemma vsub_length (u v : list K) : length (vsub u v) = Nat.min (length u) (length v).
Proof. unfold vsub. now rewrite map_length, combine_length. Qed.
Lemma vsub_nth (u v : list K) i : (i < length u)%nat -> length u = length v -> nth i (vsub u v) 0 = nth i u 0 - nth i v 0.
Proof.
  intros H1 H2. unfold vsub. rewrite (nth_map_in _ _ _ _ (0, 0)) by (rewrite combine_length; lia). now rewrite combine_nth by exact H2.
Qed.
Lemma kron_sum n i (f : nat -> K) : (i < n)%nat -> nsum n (fun k => kron i k * f k) = f i.
Proof.
  intros H. rewrite (nsum_single K n i); [|exact H|].
  - unfold kron. rewrite Nat.eqb_refl. ring.
  - intros j Hj Hne. unfold kron. destruct (Nat.eqb_spec i j); [congruence|ring].
Qed.

Section WithConj.
Hypothesis CJ : conj_ok.
Lemma conj_add x y : conj (x + y) = conj x + conj y. Proof. apply CJ. Qed.
Lemma conj_mul x y : conj (x * y) = conj x * conj y. Proof. apply CJ. Qed.
Lemma conj_conj x : conj (conj x) = x. Proof. apply CJ. Qed.
Lemma conj_0 : conj 0 = 0.
Proof. assert (E := conj_add 0 0). replace (0 + 0 : K) with (0 : K) in E by ring.
  transitivity (conj 0 + conj 0 - conj 0); [ring|]. rewrite <- E. ring. Qed.
Lemma conj_neq0 x : x <> 0 -> conj x <> 0.
Proof. intros H E. apply H. rewrite <- (conj_conj x), E. apply conj_0. Qed.
Lemma conj_nsum n f : conj (nsum n f) = nsum n (fun i => conj (f i)).
Proof. induction n as [|n IH]; cbn [nsum]; [apply conj_0|]. now rewrite conj_add, IH. Qed.
End WithConj.

(** ** orth_compl *)
Theorem orth_compl_spec qr A : qr_spec A (qr A) -> (nc A < nr A)%nat ->
  conj_ok ->
  exists P, orth_compl conj qr A = Ok P /\ nr P = (nr A - nc A)%nat /\ nc P = nr A /\
    (forall i j, (i < nr P)%nat -> (j < nc A)%nat -> me (mm P A) i j = 0) /\
    (forall i j, (i < nr P)%nat -> (j < nr P)%nat -> me (mm P (ctr conj P)) i j = kron i j).
Proof.
  intros HQ HL CJ. unfold orth_compl. rewrite (proj2 (Nat.leb_gt (nr A) (nc A)) HL).
  destruct (qr A) as [Q R] eqn:EQ. cbn [fst]. destruct HQ as (Q1 & Q2 & Q3 & Q4 & HA & HU & HU' & HT).
  eexists. split; [reflexivity|]. cbn [ctr cols_from nr nc me]. rewrite Q1, Q2. split; [reflexivity|]. split; [reflexivity|]. split.
  - intros i j Hi Hj. cbn [mm ctr cols_from nr nc me].
    rewrite Q1. rewrite (nsum_ext K (nr A) _ (fun k => nsum (nr A) (fun m => conj (me Q k (nc A + i)) * me Q k m * me R m j))).
    2:{ intros k Hk. rewrite HA by lia. rewrite <- nsum_mul_l. apply nsum_ext. intros; ring. }
    rewrite nsum_swap.
    rewrite (nsum_ext K (nr A) _ (fun m => kron (nc A + i) m * me R m j)).
    2:{ intros m Hm. rewrite nsum_mul_r. rewrite HU by lia. reflexivity. }
    rewrite kron_sum by lia. apply HT; lia.
  - intros i j Hi Hj. cbn [mm ctr cols_from nr nc me]. rewrite Q1.
    rewrite (nsum_ext K (nr A) _ (fun k => conj (me Q k (nc A + i)) * me Q k (nc A + j))).
    2:{ intros k Hk. now rewrite (conj_conj CJ). }
    rewrite HU by lia. unfold kron. destruct (Nat.eqb_spec (nc A + i) (nc A + j)), (Nat.eqb_spec i j); try reflexivity; lia.
Qed.

Theorem orth_compl_rejects qr A : (nr A <= nc A)%nat -> orth_compl conj qr A = Err ValueError.
Proof. intros H. unfold orth_compl. now rewrite (proj2 (Nat.leb_le _ _) H). Qed.

(** ** Homogeneous systems with more unknowns than equations *)
Lemma wide_null n m (A : nat -> nat -> K) : (n < m)%nat ->
  exists u : nat -> K, (exists j, (j < m)%nat /\ u j <> 0) /\ (forall j, (n < j)%nat -> u j = 0) /\ forall i, (i < n)%nat -> nsum m (fun j => A i j * u j) = 0.
Proof.
  intros H. destruct n as [|n].
  - exists (fun j => if (j =? 0)%nat then 1 else 0). split; [exists 0%nat; split; [lia|apply F1_neq_0]|]. split.
    + intros [|j] Hj; [lia|reflexivity].
    + intros; lia.
  - set (B := map (fun i => map (fun j => A i j) (seq 0 (S (S n)))) (seq 0 (S n))).
    assert (HB : length B = S n) by (unfold B; now rewrite map_length, seq_length).
    assert (HR : forall row, In row B -> length row = S (S n)).
    { intros row Hin. apply in_map_iff in Hin. destruct Hin as (i & <- & _). now rewrite map_length, seq_length. }
    destruct (gauss_nullvec_ok B (S n) HB HR ltac:(lia)) as (L & Z & NZ).
    set (v := gauss_nullvec B) in *. exists (fun j => nth j v 0). split.
    { destruct NZ as (c & Hin & Hc). destruct (In_nth v c 0 Hin) as (j & Hj & <-). exists j. split; [lia|exact Hc]. }
    split; [intros j Hj; apply nth_overflow; lia|].
    intros i Hi. assert (HI : In (nth i B []) B) by (apply nth_In; lia).
    specialize (Z _ HI). rewrite (dot_nsum K (nth i B []) v (S (S n)) (HR _ HI) L) in Z.
    refine (eq_trans _ Z). rewrite (nsum_extend K (S (S n)) m); [|lia|].
    + apply nsum_ext. intros j Hj.
      unfold B. rewrite nth_map_seq by lia. rewrite nth_map_seq by lia. reflexivity.
    + intros j Hj. rewrite (nth_overflow v) by lia. ring.
Qed.

Lemma nsum_trunc n m (f : nat -> K) : (n <= m)%nat -> (forall i, (n <= i)%nat -> (i < m)%nat -> f i = 0) -> nsum m f = nsum n f.
Proof. intros H1 H2. apply nsum_extend; [assumption|]. intros; apply H2; lia. Qed.

(** lower triangular systems (conjugate transpose of upper triangular) have at most one solution *)
Lemma tri_inj (r : mat K) L (y w : nat -> K) : conj_ok ->
  (forall i j, (i < L)%nat -> (j < L)%nat -> (j < i)%nat -> me r i j = 0) ->
  (forall i, (i < L)%nat -> me r i i <> 0) ->
  (forall i, (i < L)%nat -> nsum L (fun j => conj (me r j i) * y j) = nsum L (fun j => conj (me r j i) * w j)) ->
  forall i, (i < L)%nat -> y i = w i.
Proof.
  intros CJ HT HD HE i. induction i as [i IH] using lt_wf_ind. intros Hi.
  assert (E := HE i Hi).
  assert (HS : forall f : nat -> K, nsum L (fun j => conj (me r j i) * f j) = nsum i (fun j => conj (me r j i) * f j) + conj (me r i i) * f i).
  { intros f. rewrite (nsum_trunc (S i) L); [cbn [nsum]; reflexivity|lia|].
    intros j H1 H2. rewrite HT by lia. rewrite (conj_0 CJ). ring. }
  rewrite !HS in E. rewrite (nsum_ext K i _ (fun j => conj (me r j i) * w j)) in E.
  2:{ intros j Hj. rewrite IH by lia. reflexivity. }
  apply (fmul_cancel_l K (conj (me r i i))); [apply conj_neq0, HD; assumption|].
  set (s := nsum i _) in E. transitivity (s + conj (me r i i) * y i - s); [ring|]. rewrite E. ring.
Qed.

(** full row rank: at most as many constraints as unknowns, and the triangular factor is regular *)
Lemma full_rank_le (c : mat K) : full_row_rank c -> (nr c <= nc c)%nat.
Proof.
  intros H. destruct (Nat.le_gt_cases (nr c) (nc c)) as [|G]; [assumption|exfalso].
  destruct (wide_null (nc c) (nr c) (fun j i => me c i j) G) as (u & (i & Hi & Hu) & _ & Z).
  apply Hu. apply H; [|exact Hi]. intros j Hj. rewrite <- (Z j Hj). apply nsum_ext. intros; ring.
Qed.

Lemma full_rank_diag (c Q R : mat K) : conj_ok -> full_row_rank c -> qr_spec (ctr conj c) (Q, R) ->
  forall i, (i < nr c)%nat -> me R i i <> 0.
Proof.
  intros CJ HF HQ i Hi E. assert (HL := full_rank_le c HF).
  destruct HQ as (Q1 & Q2 & Q3 & Q4 & HA & _ & _ & HT). cbn [ctr nr nc me] in *.
  (* the first i+1 columns of R have rank at most i *)
  destruct (wide_null i (S i) (me R) ltac:(lia)) as (u & (j & Hj & Hu) & _ & Z).
  set (u' := fun k => if (k <=? i)%nat then u k else 0).
  assert (HRu : forall k, (k < nc c)%nat -> nsum (nr c) (fun m => me R k m * u' m) = 0).
  { intros k Hk. rewrite (nsum_trunc (S i) (nr c)); [|lia|].
    - rewrite (nsum_ext K (S i) _ (fun m => me R k m * u m)).
      2:{ intros m Hm. unfold u'. now rewrite (proj2 (Nat.leb_le m i) ltac:(lia)). }
      destruct (Nat.lt_ge_cases k i) as [Hlt|Hge]; [now apply Z|].
      apply nsum_0'. intros m Hm. destruct (Nat.eq_dec m k) as [->|Hmk].
      + replace k with i by lia. rewrite E. ring.
      + rewrite HT by lia. ring.
    - intros m H1 H2. unfold u'. rewrite (proj2 (Nat.leb_gt m i) ltac:(lia)). ring. }
  assert (Hz : conj (u' j) = 0).
  { apply (HF (fun m => conj (u' m))); [|lia]. intros l Hl.
    transitivity (conj (nsum (nr c) (fun m => conj (me c m l) * u' m))).
    - rewrite (conj_nsum CJ). apply nsum_ext. intros m Hm. rewrite (conj_mul CJ), (conj_conj CJ). ring.
    - rewrite (nsum_ext K (nr c) _ (fun m => nsum (nc c) (fun k => me Q l k * (me R k m * u' m)))).
      2:{ intros m Hm. rewrite HA by lia. rewrite <- nsum_mul_r. apply nsum_ext. intros; ring. }
      rewrite nsum_swap. rewrite nsum_0'; [apply (conj_0 CJ)|]. intros k Hk. rewrite nsum_mul_l. rewrite HRu by exact Hk. ring. }
  apply Hu. transitivity (u' j); [unfold u'; now rewrite (proj2 (Nat.leb_le j i) ltac:(lia))|].
  rewrite <- (conj_conj CJ (u' j)), Hz. apply (conj_0 CJ).
Qed.

Lemma nth_app_cases (y z : list K) k : nth k (y ++ z) 0 = if (k <? length y)%nat then nth k y 0 else nth (k - length y) z 0.
Proof. destruct (Nat.ltb_spec k (length y)); [now apply app_nth1|now apply app_nth2]. Qed.

Lemma nsum_split_at n m (f : nat -> K) : (n <= m)%nat -> nsum m f = nsum n f + nsum (m - n) (fun i => f (n + i)%nat).
Proof. intros H. replace m with (n + (m - n))%nat at 1 by lia. apply nsum_split. Qed.

(** coordinates w.r.t. the columns of Q *)
Lemma c_times (c Q R : mat K) x : conj_ok -> qr_spec (ctr conj c) (Q, R) -> length x = nc c -> (nr c <= nc c)%nat ->
  forall i, (i < nr c)%nat ->
  nth i (mv c x) 0 = nsum (nr c) (fun k => conj (me R k i) * nsum (nc c) (fun j => conj (me Q j k) * nth j x 0)).
Proof.
  intros CJ (Q1 & Q2 & Q3 & Q4 & HA & _ & _ & HT) Hx HL i Hi. cbn [ctr nr nc me] in *.
  rewrite mv_nth by exact Hi.
  rewrite (nsum_ext K (nc c) _ (fun j => nsum (nc c) (fun k => conj (me R k i) * (conj (me Q j k) * nth j x 0)))).
  2:{ intros j Hj. rewrite <- (conj_conj CJ (me c i j)), HA by lia. rewrite (conj_nsum CJ), <- nsum_mul_r.
      apply nsum_ext. intros k Hk. rewrite (conj_mul CJ). ring. }
  rewrite nsum_swap. rewrite (nsum_trunc (nr c) (nc c)); [|exact HL|].
  - apply nsum_ext. intros k Hk. now rewrite nsum_mul_l.
  - intros k H1 H2. rewrite nsum_mul_l, HT by lia. rewrite (conj_0 CJ). ring.
Qed.

Lemma QhQ (A Q R : mat K) w : qr_spec A (Q, R) -> forall k, (k < nr A)%nat ->
  nsum (nr A) (fun j => conj (me Q j k) * nth j (mv Q w) 0) = nth k w 0.
Proof.
  intros (Q1 & Q2 & _ & _ & _ & HU & _ & _) k Hk.
  rewrite (nsum_ext K (nr A) _ (fun j => nsum (nr A) (fun m => conj (me Q j k) * me Q j m * nth m w 0))).
  2:{ intros j Hj. rewrite mv_nth by lia. rewrite Q2, <- nsum_mul_l. apply nsum_ext. intros; ring. }
  rewrite nsum_swap. rewrite (nsum_ext K (nr A) _ (fun m => kron k m * nth m w 0)).
  2:{ intros m Hm. rewrite nsum_mul_r, HU by lia. reflexivity. }
  now apply kron_sum.
Qed.

Lemma QQh (A Q R : mat K) x : qr_spec A (Q, R) -> length x = nr A ->
  mv Q (map (fun k => nsum (nr A) (fun j => conj (me Q j k) * nth j x 0)) (seq 0 (nr A))) = x.
Proof.
  intros (Q1 & Q2 & _ & _ & _ & _ & HU & _) Hx. apply (list_ext _ _ 0); [rewrite mv_length; lia|].
  rewrite mv_length. intros i Hi. rewrite mv_nth by exact Hi. rewrite Q2.
  rewrite (nsum_ext K (nr A) _ (fun k => nsum (nr A) (fun j => me Q i k * conj (me Q j k) * nth j x 0))).
  2:{ intros k Hk. rewrite nth_map_seq by exact Hk. rewrite <- nsum_mul_l. apply nsum_ext. intros; ring. }
  rewrite nsum_swap. rewrite (nsum_ext K (nr A) _ (fun j => kron i j * nth j x 0)).
  2:{ intros j Hj. rewrite nsum_mul_r, HU by lia. reflexivity. }
  apply kron_sum. lia.
Qed.

(** a applied to Q (y ++ z) *)
Lemma a_times (a Q : mat K) (y z b : list K) L : nc a = nr Q -> nc Q = nr Q -> length y = L -> length z = (nr Q - L)%nat -> (L <= nr Q)%nat ->
  length b = nr a ->
  vsub (mv a (mv Q (y ++ z))) b
  = vsub (mv (cols_from L (mm a Q)) z) (vsub b (mv (cols_to L (mm a Q)) y)).
Proof.
  intros Ha Hq Hy Hz HL Hb.
  apply (list_ext _ _ 0). { rewrite !vsub_length, !mv_length. cbn [cols_from cols_to mm nr]. lia. }
  rewrite vsub_length, mv_length. intros i Hi.
  rewrite !vsub_nth by (rewrite ?vsub_length, ?mv_length; cbn [cols_from cols_to mm nr]; lia).
  rewrite !mv_nth by (cbn [cols_from cols_to mm nr]; lia).
  cbn [cols_from cols_to mm nr nc me].
  assert (E : nsum (nc a) (fun j => me a i j * nth j (mv Q (y ++ z)) 0)
     = nsum (nc Q) (fun k => nsum (nc a) (fun m => me a i m * me Q m k) * nth k (y ++ z) 0)).
  { rewrite (nsum_ext K (nc a) _ (fun j => nsum (nc Q) (fun k => me a i j * me Q j k * nth k (y ++ z) 0))).
    2:{ intros j Hj. rewrite mv_nth by lia. rewrite <- nsum_mul_l. apply nsum_ext. intros; ring. }
    rewrite nsum_swap. apply nsum_ext. intros k Hk. now rewrite nsum_mul_r. }
  rewrite E. rewrite (nsum_split_at L (nc Q)) by lia. rewrite Nat.min_l by lia.
  rewrite (nsum_ext K L _ (fun j => nsum (nc a) (fun k => me a i k * me Q k j) * nth j y 0)).
  2:{ intros k Hk. f_equal. rewrite nth_app_cases. now rewrite (proj2 (Nat.ltb_lt k (length y)) ltac:(lia)). }
  rewrite (nsum_ext K (nc Q - L) _ (fun j => nsum (nc a) (fun k => me a i k * me Q k (L + j)) * nth j z 0)).
  2:{ intros k Hk. f_equal. rewrite nth_app_cases. rewrite (proj2 (Nat.ltb_ge (L + k) (length y)) ltac:(lia)). f_equal. lia. }
  ring.
Qed.

Section EC.
Variable qr : mat K -> mat K * mat K.
Variable solve_triangular : mat K -> list K -> result (list K).
Variable lstsq : mat K -> list K -> list K * list K.
Variable allclose0 : list K -> bool.
Variable le : list K -> list K -> Prop.
Hypothesis CJ : conj_ok.

Theorem lstsq_ec_spec a b c d :
  (0 < nr c)%nat -> nc c = nc a -> length b = nr a -> length d = nr c -> full_row_rank c ->
  qr_spec (ctr conj c) (qr (ctr conj c)) ->
  tri_spec solve_triangular (rows_to (length d) (snd (qr (ctr conj c)))) d ->
  (forall b', length b' = nr a -> let A := cols_from (nr c) (mm a (fst (qr (ctr conj c)))) in lstsq_spec le A b' (fst (lstsq A b'))) ->
  exists x, lstsq_ec conj qr solve_triangular lstsq allclose0 a b c d = Ok x /\ length x = nc a /\
    mv c x = d /\
    forall x', length x' = nc a -> mv c x' = d -> le (vsub (mv a x) b) (vsub (mv a x') b).
Proof.
  intros HL HN Hb Hd HF HQ HT HLS.
  assert (HLN := full_rank_le c HF).
  unfold lstsq_ec. rewrite (proj2 (Nat.eqb_neq (nc a) 0)) by lia. rewrite (proj2 (Nat.eqb_neq (nr c) 0)) by lia.
  destruct (qr (ctr conj c)) as [Q R] eqn:EQ. cbn [snd] in HT. cbn [fst] in HLS.
  assert (HD := full_rank_diag c Q R CJ HF HQ).
  assert (HQ' := HQ). destruct HQ' as (Q1 & Q2 & Q3 & Q4 & HA & HU & HU' & Htri). cbn [ctr nr nc me] in *.
  set (r := rows_to (length d) R) in *.
  assert (Hr1 : nr r = nr c) by (unfold r; cbn [rows_to nr]; lia).
  assert (Hr2 : nc r = nr c) by (unfold r; cbn [rows_to nc]; lia).
  rewrite Hr1, Hr2, Hd, Nat.eqb_refl, Q1, HN, Nat.eqb_refl. cbn [andb negb].
  assert (HTY : exists y, solve_triangular r d = Ok y /\ length y = nr r /\ mv (ctr conj r) y = d).
  { unfold tri_spec in HT. destruct (forallb _ _) eqn:EF; [exact HT|exfalso].
    assert (EF2 : forallb (fun i => if Feq_dec (me r i i) 0 then false else true) (seq 0 (nr r)) = true).
    { apply forallb_forall. intros i Hi. apply in_seq in Hi. destruct (Feq_dec (me r i i) 0) as [E0|]; [|reflexivity].
      exfalso. apply (HD i); [lia|]. exact E0. }
    rewrite EF2 in EF. discriminate. }
  destruct HTY as (y & Ey & Hy & Hyd). rewrite Ey. cbn [bind].
  set (aq := mm a Q). set (rhs := vsub b (mv (cols_to (nr c) aq) y)).
  destruct (HLS rhs) as (Hz & Hopt). { unfold rhs. rewrite vsub_length, mv_length. cbn [cols_to mm nr aq]. lia. }
  fold aq in Hz, Hopt. set (z := fst (lstsq (cols_from (nr c) aq) rhs)) in *.
  cbn [cols_from mm nc aq] in Hz.
  exists (mv Q (y ++ z)). split; [reflexivity|]. split; [rewrite mv_length; lia|].
  assert (Hrt : forall (w : list K) i, (i < nr c)%nat ->
     nth i (mv (ctr conj r) w) 0 = nsum (nr c) (fun k => conj (me R k i) * nth k w 0)).
  { intros w i Hi. rewrite mv_nth by (cbn [ctr nr]; lia). cbn [ctr nc me]. rewrite Hr1. reflexivity. }
  split.
  - apply (list_ext _ _ 0); [rewrite mv_length; lia|]. rewrite mv_length. intros i Hi.
    rewrite (c_times c Q R _ CJ HQ) by (rewrite ?mv_length; lia).
    rewrite (nsum_ext K (nr c) _ (fun k => conj (me R k i) * nth k y 0)).
    2:{ intros k Hk. f_equal. assert (E := QhQ (ctr conj c) Q R (y ++ z) HQ k ltac:(cbn [ctr nr]; lia)). cbn [ctr nr] in E.
        rewrite E. rewrite nth_app_cases. now rewrite (proj2 (Nat.ltb_lt k (length y)) ltac:(lia)). }
    rewrite <- Hrt by exact Hi. now rewrite Hyd.
  - intros x' Hx' Hc.
    set (w := map (fun k => nsum (nc c) (fun j => conj (me Q j k) * nth j x' 0)) (seq 0 (nc c))).
    assert (Hw : length w = nc c) by (unfold w; now rewrite map_length, seq_length).
    assert (Ex : mv Q w = x') by (apply (QQh (ctr conj c) Q R x' HQ); cbn [ctr nr]; lia).
    assert (Ew : w = y ++ skipn (nr c) w).
    { rewrite <- (firstn_skipn (nr c) w) at 1. f_equal. apply (list_ext _ _ 0); [rewrite firstn_length; lia|].
      rewrite firstn_length. intros i Hi. rewrite nth_firstn' by lia.
      symmetry. apply (tri_inj R (nr c) (fun k => nth k y 0) (fun k => nth k w 0) CJ).
      - intros i' j' H1 H2 H3. apply Htri; lia.
      - exact HD.
      - intros i' Hi'. rewrite <- Hrt by exact Hi'. rewrite Hyd.
        rewrite <- Hc. rewrite (c_times c Q R _ CJ HQ) by lia. apply nsum_ext. intros k Hk. f_equal.
        unfold w. now rewrite nth_map_seq by lia.
      - lia. }
    rewrite <- Ex, Ew. rewrite !(a_times a Q y _ b (nr c)) by (rewrite ?skipn_length; lia).
    apply Hopt. rewrite skipn_length. cbn [cols_from mm nc aq]. lia.
Qed.

(** solvable constraints are met even when they are rank deficient (exact arithmetic) *)
Theorem lstsq_ec_consistent a b c d x' :
  (0 < nr c)%nat -> nc c = nc a -> length b = nr a -> length d = nr c -> (nr c <= nc c)%nat -> length x' = nc a -> mv c x' = d ->
  (forall u v, le u v -> (forall i, nth i v 0 = 0) -> forall i, nth i u 0 = 0) ->
  qr_spec (ctr conj c) (qr (ctr conj c)) ->
  tri_spec solve_triangular (rows_to (length d) (snd (qr (ctr conj c)))) d ->
  (forall A b', length b' = nr A -> lstsq_spec le A b' (fst (lstsq A b'))) ->
  (forall A b', (nr A <= nc A)%nat -> snd (lstsq A b') = []) -> allclose0 [] = true ->
  exists x, lstsq_ec conj qr solve_triangular lstsq allclose0 a b c d = Ok x /\ length x = nc a /\ mv c x = d.
Proof.
  intros HL HN Hb Hd HLN Hx' Hc Hle HQ HT HLS Hres Hall.
  unfold lstsq_ec. rewrite (proj2 (Nat.eqb_neq (nc a) 0)) by lia. rewrite (proj2 (Nat.eqb_neq (nr c) 0)) by lia.
  destruct (qr (ctr conj c)) as [Q R] eqn:EQ. cbn [snd] in HT. cbn [fst] in HLS.
  assert (HQ' := HQ). destruct HQ' as (Q1 & Q2 & Q3 & Q4 & HA & HU & HU' & Htri). cbn [ctr nr nc me] in *.
  set (r := rows_to (length d) R) in *.
  assert (Hr1 : nr r = nr c) by (unfold r; cbn [rows_to nr]; lia).
  assert (Hr2 : nc r = nr c) by (unfold r; cbn [rows_to nc]; lia).
  rewrite Hr1, Hr2, Hd, Nat.eqb_refl, Q1, HN, Nat.eqb_refl. cbn [andb negb].
  assert (Hrt : forall (w : list K) i, (i < nr c)%nat ->
     nth i (mv (ctr conj r) w) 0 = nsum (nr c) (fun k => conj (me R k i) * nth k w 0)).
  { intros w i Hi. rewrite mv_nth by (cbn [ctr nr]; lia). cbn [ctr nc me]. rewrite Hr1. reflexivity. }
  set (w := map (fun k => nsum (nc c) (fun j => conj (me Q j k) * nth j x' 0)) (seq 0 (nr c))).
  assert (Hw : mv (ctr conj r) w = d).
  { apply (list_ext _ _ 0); [rewrite mv_length; cbn [ctr nr]; lia|]. rewrite mv_length. cbn [ctr nr]. rewrite Hr2. intros i Hi.
    rewrite Hrt by exact Hi. rewrite <- Hc. rewrite (c_times c Q R _ CJ HQ) by lia. apply nsum_ext. intros k Hk. f_equal.
    unfold w. now rewrite nth_map_seq by lia. }
  assert (HY : exists y, match solve_triangular r d with
      | Err LinAlgError => let (y, err) := lstsq (ctr conj r) d in if allclose0 err then Ok y else Err LinAlgError
      | r0 => r0 end = Ok y /\ length y = nr c /\ mv (ctr conj r) y = d).
  { unfold tri_spec in HT. destruct (forallb _ _).
    - destruct HT as (y & -> & Hy & Hyd). exists y. split; [reflexivity|]. split; [lia|exact Hyd].
    - rewrite HT. destruct (HLS (ctr conj r) d ltac:(cbn [ctr nr]; lia)) as (Hy & Hopt). destruct (lstsq (ctr conj r) d) as [y err] eqn:EL. cbn [fst] in *.
      assert (E : snd (lstsq (ctr conj r) d) = []) by (apply Hres; cbn [ctr nr nc]; lia). rewrite EL in E. cbn [snd] in E. subst err. rewrite Hall.
      exists y. split; [reflexivity|]. cbn [ctr nc] in Hy. split; [lia|].
      specialize (Hopt w). cbn [ctr nc] in Hopt. specialize (Hopt ltac:(unfold w; rewrite map_length, seq_length; lia)).
      assert (Z : forall i, nth i (vsub (mv (ctr conj r) w) d) 0 = 0).
      { intros i. rewrite Hw. destruct (Nat.lt_ge_cases i (length d)) as [Hi|Hi].
        - rewrite vsub_nth by lia. ring.
        - apply nth_overflow. rewrite vsub_length. lia. }
      assert (Z' := Hle _ _ Hopt Z).
      apply (list_ext _ _ 0); [rewrite mv_length; cbn [ctr nr]; lia|]. rewrite mv_length. cbn [ctr nr]. rewrite Hr2. intros i Hi.
      specialize (Z' i). rewrite vsub_nth in Z' by (rewrite mv_length; cbn [ctr nr]; lia). now apply fsub_eq0. }
  destruct HY as (y & Ey & Hy & Hyd). rewrite Ey. cbn [bind].
  set (aq := mm a Q). set (rhs := vsub b (mv (cols_to (nr c) aq) y)).
  destruct (HLS (cols_from (nr c) aq) rhs ltac:(unfold rhs; rewrite vsub_length, mv_length; cbn [cols_to cols_from aq mm nr]; lia)) as (Hz & _).
  set (z := fst (lstsq (cols_from (nr c) aq) rhs)) in *. cbn [cols_from mm nc aq] in Hz.
  exists (mv Q (y ++ z)). split; [reflexivity|]. split; [rewrite mv_length; lia|].
  apply (list_ext _ _ 0); [rewrite mv_length; lia|]. rewrite mv_length. intros i Hi.
  rewrite (c_times c Q R _ CJ HQ) by (rewrite ?mv_length; lia).
  rewrite (nsum_ext K (nr c) _ (fun k => conj (me R k i) * nth k y 0)).
  2:{ intros k Hk. f_equal. assert (E := QhQ (ctr conj c) Q R (y ++ z) HQ k ltac:(cbn [ctr nr]; lia)). cbn [ctr nr] in E.
      rewrite E. rewrite nth_app_cases. now rewrite (proj2 (Nat.ltb_lt k (length y)) ltac:(lia)). }
  rewrite <- Hrt by exact Hi. now rewrite Hyd.
Qed.

(** universal forms *)
Lemma backend_tri c (d : list K) : backend_ok le qr solve_triangular lstsq allclose0 -> length d = nr c -> (nr c <= nc c)%nat ->
  tri_spec solve_triangular (rows_to (length d) (snd (qr (ctr conj c)))) d.
Proof.
  intros (H1 & H2 & _) Hd HL. assert (HQ := H1 (ctr conj c)). destruct (qr (ctr conj c)) as [Q R].
  destruct HQ as (Q1 & Q2 & Q3 & Q4 & _ & _ & _ & Htri). cbn [ctr nr nc snd rows_to me] in *. apply H2; cbn [rows_to nr nc]; [lia|lia|].
  intros i j Hi Hj Hlt. cbn [rows_to me nr nc] in *. apply Htri; lia.
Qed.
Theorem lstsq_ec_full a b c d : backend_ok le qr solve_triangular lstsq allclose0 ->
  (0 < nr c)%nat -> nc c = nc a -> length b = nr a -> length d = nr c -> full_row_rank c ->
  exists x, lstsq_ec conj qr solve_triangular lstsq allclose0 a b c d = Ok x /\ length x = nc a /\
    mv c x = d /\
    forall x', length x' = nc a -> mv c x' = d -> le (vsub (mv a x) b) (vsub (mv a x') b).
Proof.
  intros HB HL HN Hb Hd HF. assert (HLN := full_rank_le c HF). assert (HB' := HB). destruct HB' as (H1 & H2 & H3 & H4 & H5).
  apply lstsq_ec_spec; auto. now apply backend_tri.
Qed.
Theorem lstsq_ec_consistent' a b c d : backend_ok le qr solve_triangular lstsq allclose0 ->
  (forall u v, le u v -> (forall i, nth i v 0 = 0) -> forall i, nth i u 0 = 0) ->
  (0 < nr c)%nat -> nc c = nc a -> length b = nr a -> length d = nr c -> (nr c <= nc c)%nat ->
  (exists x', length x' = nc a /\ mv c x' = d) ->
  exists x, lstsq_ec conj qr solve_triangular lstsq allclose0 a b c d = Ok x /\ length x = nc a /\ mv c x = d.
Proof.
  intros HB Hle HL HN Hb Hd HLN (x' & Hx' & Hc). assert (HB' := HB). destruct HB' as (H1 & H2 & H3 & H4 & H5).
  apply (lstsq_ec_consistent a b c d x'); auto. now apply backend_tri.
Qed.

Theorem lstsq_ec_unconstrained a b c : nr c = 0%nat -> nc a <> 0%nat ->
  lstsq_ec conj qr solve_triangular lstsq allclose0 a b c [] = Ok (fst (lstsq a b)).
Proof. intros H1 H2. unfold lstsq_ec. rewrite (proj2 (Nat.eqb_neq _ _) H2), H1. reflexivity. Qed.

(** np.linalg.lstsq returns no residuals for square systems, and allclose of nothing is true: for
    shapes that fit, no choice of constraints ever raises. *)
Theorem lstsq_ec_never_raises (a c : mat K) (b d : list K) :
  (forall A b', (nr A <= nc A)%nat -> snd (lstsq A b') = []) -> allclose0 [] = true ->
  nc c = nc a -> length d = nr c -> (nr c <= nc c)%nat ->
  qr_spec (ctr conj c) (qr (ctr conj c)) ->
  tri_spec solve_triangular (rows_to (length d) (snd (qr (ctr conj c)))) d ->
  exists x, lstsq_ec conj qr solve_triangular lstsq allclose0 a b c d = Ok x.
Proof.
  intros Hres Hall Ha Hd HL HQ HT. unfold lstsq_ec. 
  destruct (Nat.eqb_spec (nc a) 0) as [|N0]; [eauto|].
  destruct (Nat.eqb_spec (nr c) 0) as [E0|N1]; [rewrite Hd, E0; cbn; eauto|].
  destruct (qr (ctr conj c)) as [Q R] eqn:EQ. cbn [snd] in HT. 
  destruct HQ as (Q1 & Q2 & Q3 & Q4 & HA & HU & HU' & Htri). cbn [ctr nr nc me] in *.
  assert (Hr1 : nr (rows_to (length d) R) = nr c) by (cbn [rows_to nr]; lia).
  assert (Hr2 : nc (rows_to (length d) R) = nr c) by (cbn [rows_to nc]; lia).
  rewrite Hr1, Hr2, Hd, Nat.eqb_refl, Q1, Ha, Nat.eqb_refl. cbn [andb negb].
  rewrite Hd in HT, Hr1, Hr2. unfold tri_spec in HT. destruct (forallb _ _).
  - destruct HT as (y & -> & _). cbn [bind]. eauto.
  - rewrite HT. destruct (lstsq (ctr conj (rows_to (nr c) R)) d) as [y err] eqn:EL.
    assert (E := Hres (ctr conj (rows_to (nr c) R)) d). cbn [ctr nr nc] in E. rewrite Hr1, Hr2 in E. specialize (E (le_n _)).
    match type of EL with lstsq ?m _ = _ => change (snd (lstsq m d) = []) in E end. rewrite EL in E. cbn [snd] in E. subst err.
    rewrite Hall. cbn [bind]. eauto.
Qed.
End EC.
End S.
