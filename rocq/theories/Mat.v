(** * Finite matrices over a field: regular square systems, inverses, Vandermonde matrices.

    Library file (no gftool code). *)
From Coq Require Import List Arith Lia Bool Field.
From Verif Require Import Base FSum Herm_Model Herm_Spec Herm_Proofs Herm_Gauss Linalg_Model Linalg_Proofs.
Import ListNotations.
Local Open Scope fld_scope.

Section M.
Variable K : Fld.
Add Field KFmat : (Fth K).

(** A (n x n) has a trivial kernel *)
Definition inj (n : nat) (A : nat -> nat -> K) : Prop :=
  forall u : nat -> K, (forall i, (i < n)%nat -> nsum n (fun j => A i j * u j) = 0) -> forall j, (j < n)%nat -> u j = 0.

Lemma inj_surj n A (b : nat -> K) : inj n A -> exists x : nat -> K, forall i, (i < n)%nat -> nsum n (fun j => A i j * x j) = b i.
Proof.
  intros HI.
  destruct (wide_null K n (S n) (fun i j => if (j =? n)%nat then - b i else A i j) ltac:(lia)) as (u & (j0 & Hj0 & Hu) & _ & HZ).
  assert (HZ' : forall i, (i < n)%nat -> nsum n (fun j => A i j * u j) = b i * u n).
  { intros i Hi. assert (E := HZ i Hi). cbn [nsum] in E. rewrite Nat.eqb_refl in E.
    rewrite (nsum_ext K n _ (fun j => A i j * u j)) in E.
    2:{ intros j Hj. now rewrite (proj2 (Nat.eqb_neq j n)) by lia. }
    set (s := nsum n _) in *. transitivity (s + - b i * u n + b i * u n); [ring|]. rewrite E. ring. }
  assert (Hn : u n <> 0).
  { intros E. apply Hu. destruct (Nat.eq_dec j0 n) as [->|]; [exact E|]. apply HI; [|lia].
    intros i Hi. rewrite HZ' by exact Hi. rewrite E. ring. }
  exists (fun j => u j / u n). intros i Hi.
  rewrite (nsum_ext K n _ (fun j => A i j * u j * (1 / u n))) by (intros; field; exact Hn).
  rewrite nsum_mul_r, HZ' by exact Hi. field. exact Hn.
Qed.

(** a one-sided inverse is two-sided *)
Lemma inv_comm n (A B : nat -> nat -> K) :
  (forall i j, (i < n)%nat -> (j < n)%nat -> nsum n (fun k => A i k * B k j) = kron i j) ->
  forall i j, (i < n)%nat -> (j < n)%nat -> nsum n (fun k => B i k * A k j) = kron i j.
Proof.
  intros HAB i j Hi Hj.
  assert (HI : inj n B).
  { intros u Hz k Hk. transitivity (nsum n (fun m => nsum n (fun l => A k l * B l m) * u m)).
    - rewrite (nsum_ext K n _ (fun m => kron k m * u m)) by (intros m Hm; now rewrite HAB by lia).
      symmetry. now apply kron_sum.
    - rewrite (nsum_ext K n _ (fun m => nsum n (fun l => A k l * (B l m * u m)))).
      2:{ intros m Hm. rewrite <- nsum_mul_r. apply nsum_ext. intros; ring. }
      rewrite nsum_swap. apply nsum_0'. intros l Hl. rewrite nsum_mul_l, Hz by exact Hl. ring. }
  destruct (inj_surj n B (fun i => kron i j) HI) as (x & Hx).
  assert (Ex : forall k, (k < n)%nat -> x k = A k j).
  { intros k Hk. transitivity (nsum n (fun m => nsum n (fun l => A k l * B l m) * x m)).
    - rewrite (nsum_ext K n _ (fun m => kron k m * x m)) by (intros m Hm; now rewrite HAB by lia).
      symmetry. now apply kron_sum.
    - rewrite (nsum_ext K n _ (fun m => nsum n (fun l => A k l * (B l m * x m)))).
      2:{ intros m Hm. rewrite <- nsum_mul_r. apply nsum_ext. intros; ring. }
      rewrite nsum_swap. rewrite (nsum_ext K n _ (fun l => kron j l * A k l)).
      2:{ intros l Hl. rewrite nsum_mul_l, Hx by exact Hl. unfold kron. rewrite (Nat.eqb_sym l j). ring. }
      now rewrite kron_sum. }
  rewrite <- (Hx i Hi). apply nsum_ext. intros k Hk. now rewrite Ex.
Qed.

(** ** Vandermonde matrices *)
Definition distinct (n : nat) (p : nat -> K) : Prop := forall i j, (i < n)%nat -> (j < n)%nat -> p i = p j -> i = j.

Definition prodsub (l : list K) (x : K) : K := fold_right (fun a r => (x - a) * r) 1 l.
Lemma prodsub_eq0 l x : prodsub l x = 0 <-> In x l.
Proof.
  induction l as [|a l IH]; cbn.
  - split; [intros H; exfalso; exact (F1_neq_0 K H)|tauto].
  - split.
    + intros H. destruct (fmul_eq0 K _ _ H) as [E|E]; [left; symmetry; now apply fsub_eq0|right; now apply IH].
    + intros [->|H]; [ring|]. apply IH in H. unfold prodsub in H. rewrite H. ring.
Qed.

Lemma power_sums n (p x : nat -> K) :
  (forall i, (i < n)%nat -> nsum n (fun j => x j * fpow (p j) i) = 0) ->
  forall l m, (m + length l < n)%nat -> nsum n (fun j => x j * (fpow (p j) m * prodsub l (p j))) = 0.
Proof.
  intros H l; induction l as [|a l IH]; intros m Hm.
  - refine (eq_trans _ (H m ltac:(cbn in Hm; lia))). apply nsum_ext. intros; cbn; ring.
  - cbn [length] in Hm. change (prodsub (a :: l)) with (fun y => (y - a) * prodsub l y). cbv beta.
    rewrite (nsum_ext K n _ (fun j => x j * (fpow (p j) (S m) * prodsub l (p j)) - a * (x j * (fpow (p j) m * prodsub l (p j))))).
    2:{ intros; cbn [fpow]; ring. }
    rewrite nsum_sub, nsum_mul_l, !IH by lia. ring.
Qed.

(** sum_j x_j p_j^i = 0 for all i < n forces x = 0 *)
Theorem vander_inj n p : distinct n p -> inj n (fun i j => fpow (p j) i).
Proof.
  intros HD x Hz j Hj.
  assert (Hz' : forall i, (i < n)%nat -> nsum n (fun j => x j * fpow (p j) i) = 0).
  { intros i Hi. refine (eq_trans _ (Hz i Hi)). apply nsum_ext. intros; ring. }
  set (l := map p (filter (fun k => negb (k =? j)%nat) (seq 0 n))).
  assert (Hl : length l = (n - 1)%nat).
  { unfold l. rewrite map_length.
    assert (E : forall s m, (s <= j < s + m)%nat -> length (filter (fun k => negb (k =? j)%nat) (seq s m)) = (m - 1)%nat).
    { intros s m; revert s. induction m as [|m IH]; intros s Hs; [lia|]. cbn [seq filter].
      destruct (Nat.eqb_spec s j) as [->|N]; cbn [negb].
      - cbn. assert (E : forall t q, (j < t)%nat -> length (filter (fun k => negb (k =? j)%nat) (seq t q)) = q).
        { intros t q; revert t; induction q as [|q IHq]; intros t Ht; [reflexivity|]. cbn [seq filter].
          rewrite (proj2 (Nat.eqb_neq t j)) by lia. cbn. now rewrite IHq by lia. }
        rewrite E by lia. lia.
      - cbn [length]. rewrite IH by lia. lia. }
    now rewrite E by lia. }
  assert (E := power_sums n p x Hz' l 0 ltac:(lia)).
  rewrite (nsum_single K n j) in E; [|exact Hj|].
  - destruct (fmul_eq0 K _ _ E) as [|E2]; [assumption|]. exfalso. cbn [fpow] in E2.
    assert (E3 : prodsub l (p j) = 0) by (rewrite <- E2; ring).
    apply prodsub_eq0 in E3. unfold l in E3. apply in_map_iff in E3. destruct E3 as (k & Ek & Hk).
    apply filter_In in Hk. destruct Hk as (Hk1 & Hk2). apply in_seq in Hk1.
    rewrite (HD k j) in Hk2 by (try lia; exact Ek). rewrite Nat.eqb_refl in Hk2. discriminate.
  - intros k Hk Hne. assert (Z : prodsub l (p k) = 0).
    { apply prodsub_eq0. unfold l. apply in_map. apply filter_In. split; [apply in_seq; lia|].
      now rewrite (proj2 (Nat.eqb_neq k j)) by lia. }
    rewrite Z. ring.
Qed.

(** a polynomial with more distinct roots than its degree is zero *)
Theorem poly_roots L n (p u : nat -> K) : distinct n p -> (L <= n)%nat ->
  (forall j, (j < n)%nat -> nsum L (fun i => u i * fpow (p j) i) = 0) -> forall i, (i < L)%nat -> u i = 0.
Proof.
  intros HD HL HZ i Hi.
  assert (HDL : distinct L p) by (intros a b Ha Hb; apply HD; lia).
  destruct (inj_surj L _ (fun k => kron k i) (vander_inj L p HDL)) as (x & Hx).
  transitivity (nsum L (fun k => kron i k * u k)); [symmetry; now apply kron_sum|].
  rewrite (nsum_ext K L _ (fun k => nsum L (fun j => x j * (u k * fpow (p j) k)))).
  2:{ intros k Hk. replace (@kron K i k) with (@kron K k i) by (unfold kron; now rewrite Nat.eqb_sym).
      rewrite <- Hx by exact Hk. rewrite <- nsum_mul_r. apply nsum_ext. intros; ring. }
  rewrite nsum_swap. apply nsum_0'. intros j Hj. rewrite nsum_mul_l, HZ by lia. ring.
Qed.

(** ** np.linalg.solve *)
Definition regular (A : mat K) : Prop := nr A = nc A /\ inj (nr A) (me A).
Definition solve_spec (solve : mat K -> list K -> result (list K)) : Prop :=
  forall A b, nr A = nc A -> length b = nr A ->
    (regular A -> exists x, solve A b = Ok x /\ length x = nc A /\ mv A x = b) /\
    (~ regular A -> solve A b = Err LinAlgError).

(** an instance: invert column by column *)
Definition rowsof (A : mat K) : list (list K) := map (fun i => map (fun j => me A i j) (seq 0 (nc A))) (seq 0 (nr A)).
Definition invcols (A : mat K) : list (list K) :=
  map (fun j => gauss_lstsq (rowsof A) (map (fun i => kron i j) (seq 0 (nr A)))) (seq 0 (nr A)).
Definition mat_solve (A : mat K) (b : list K) : result (list K) :=
  let X := invcols A in
  if forallb (fun i => forallb (fun j => feqb (nsum (nr A) (fun k => me A i k * nth k (nth j X []) 0)) (kron i j)) (seq 0 (nr A))) (seq 0 (nr A))
  then Ok (map (fun k => nsum (nr A) (fun j => nth k (nth j X []) 0 * nth j b 0)) (seq 0 (nr A)))
  else Err LinAlgError.

Lemma feqb_true (x y : K) : feqb x y = true <-> x = y.
Proof. unfold feqb. destruct (Feq_dec x y); split; congruence. Qed.

Lemma forallb_seq2 n (f : nat -> nat -> bool) :
  forallb (fun i => forallb (fun j => f i j) (seq 0 n)) (seq 0 n) = true <-> forall i j, (i < n)%nat -> (j < n)%nat -> f i j = true.
Proof.
  rewrite forallb_forall. split.
  - intros H i j Hi Hj. assert (E := H i ltac:(apply in_seq; lia)). rewrite forallb_forall in E. apply E. apply in_seq; lia.
  - intros H i Hi. apply forallb_forall. intros j Hj. apply in_seq in Hi, Hj. apply H; lia.
Qed.

Theorem mat_solve_spec : solve_spec mat_solve.
Proof.
  intros A b Hsq Hb. set (n := nr A) in *. set (X := invcols A).
  assert (Hrl : length (rowsof A) = n) by (unfold rowsof; now rewrite map_length, seq_length).
  assert (Hrr : forall row, In row (rowsof A) -> length row = n).
  { intros row Hin. apply in_map_iff in Hin. destruct Hin as (i & <- & _). rewrite map_length, seq_length. lia. }
  assert (Hmv : forall (v : list K) i, length v = n -> (i < n)%nat -> nth i (matvec (rowsof A) v) 0 = nsum n (fun j => me A i j * nth j v 0)).
  { intros v i Hv Hi. unfold matvec. rewrite (nth_map_in _ _ _ _ []) by lia.
    rewrite (dot_nsum K _ _ n) by (try exact Hv; apply Hrr, nth_In; lia). apply nsum_ext. intros j Hj. f_equal.
    unfold rowsof. rewrite nth_map_seq by exact Hi. now rewrite nth_map_seq by lia. }
  split.
  - intros (_ & HI). fold n in HI. unfold mat_solve. fold X n.
    assert (HX : forall i j, (i < n)%nat -> (j < n)%nat -> nsum n (fun k => me A i k * nth k (nth j X []) 0) = kron i j).
    { intros i j Hi Hj. unfold X, invcols. fold n. rewrite nth_map_seq by exact Hj.
      set (e := map (fun i0 => kron i0 j) (seq 0 n)).
      destruct (gauss_lstsq_ok (rowsof A) e n) as (L & HS).
      { intros E. rewrite E in Hrl. cbn in Hrl. lia. }
      { unfold e. rewrite map_length, seq_length. lia. }
      { exact Hrr. }
      destruct (inj_surj n (me A) (fun i0 => kron i0 j) HI) as (x & Hx).
      assert (E : matvec (rowsof A) (gauss_lstsq (rowsof A) e) = e).
      { apply (HS (map x (seq 0 n))); [now rewrite map_length, seq_length|].
        apply (list_ext _ _ 0).
        - unfold matvec, e. rewrite !map_length, seq_length. exact Hrl.
        - intros k Hk. unfold matvec in Hk. rewrite map_length, Hrl in Hk. rewrite Hmv by (try lia; now rewrite map_length, seq_length).
          unfold e. rewrite nth_map_seq by exact Hk. rewrite <- Hx by exact Hk. apply nsum_ext. intros m Hm. now rewrite nth_map_seq by lia. }
      rewrite <- Hmv by assumption. rewrite E. unfold e. now rewrite nth_map_seq. }
    rewrite (proj2 (forallb_seq2 n _)).
    2:{ intros i j Hi Hj. apply feqb_true. now apply HX. }
    eexists. split; [reflexivity|]. split; [rewrite map_length, seq_length; lia|].
    apply (list_ext _ _ 0); [rewrite mv_length; lia|]. rewrite mv_length. fold n. intros i Hi.
    rewrite mv_nth by exact Hi. rewrite <- Hsq.
    rewrite (nsum_ext K n _ (fun j => nsum n (fun k => me A i j * nth j (nth k X []) 0 * nth k b 0))).
    2:{ intros j Hj. rewrite nth_map_seq by lia. rewrite <- nsum_mul_l. apply nsum_ext. intros; ring. }
    rewrite nsum_swap. rewrite (nsum_ext K n _ (fun k => kron i k * nth k b 0)).
    2:{ intros k Hk. rewrite nsum_mul_r, HX by lia. reflexivity. }
    now apply kron_sum.
  - intros HN. unfold mat_solve. fold X n. destruct (forallb _ _) eqn:EF; [|reflexivity]. exfalso. apply HN.
    split; [exact Hsq|]. fold n. rewrite forallb_seq2 in EF.
    assert (HX : forall i j, (i < n)%nat -> (j < n)%nat -> nsum n (fun k => me A i k * nth k (nth j X []) 0) = kron i j).
    { intros i j Hi Hj. apply feqb_true. now apply EF. }
    assert (HY := inv_comm n (me A) (fun k j => nth k (nth j X []) 0) HX). cbv beta in HY.
    intros u Hz k Hk. transitivity (nsum n (fun m => nsum n (fun l => nth k (nth l X []) 0 * me A l m) * u m)).
    + rewrite (nsum_ext K n _ (fun m => kron k m * u m)) by (intros m Hm; now rewrite HY by lia).
      symmetry. now apply kron_sum.
    + rewrite (nsum_ext K n _ (fun m => nsum n (fun l => nth k (nth l X []) 0 * (me A l m * u m)))).
      2:{ intros m Hm. rewrite <- nsum_mul_r. apply nsum_ext. intros; ring. }
      rewrite nsum_swap. apply nsum_0'. intros l Hl. rewrite nsum_mul_l, Hz by exact Hl. ring.
Qed.
End M.
