(** * Proofs about linear prediction (predict, companion, pcoeff_covar, stable prediction). *)
From Coq Require Import List Arith ZArith Lia Bool Field Reals.
From Verif Require Import Base FSum Herm_Model Herm_Spec Herm_Proofs LinPred_Model.
Import ListNotations.
Local Open Scope fld_scope.

(** Contract of the eigendecomposition used by the stable prediction: M = rv diag(eig) rv_inv and
    rv_inv rv = 1 (as maps on vectors of the right length). *)
Definition decomp_ok {K : Fld} (M : list (list K)) (d : decomp) : Prop :=
  let n := length M in
  length (d_rv d) = n /\ length (d_eig d) = n /\ length (d_rv_inv d) = n /\
  (forall row, In row (d_rv d) -> length row = n) /\
  (forall v, length v = n ->
     matvec M v = matvec (d_rv d) (map (fun p => fst p * snd p) (combine (d_eig d) (matvec (d_rv_inv d) v)))) /\
  (forall v, length v = n -> matvec (d_rv_inv d) (matvec (d_rv d) v) = v).

Section P.
Variable K : Fld.
Add Field KFl : (Fth K).
Implicit Types (x y pc xs : list K).

Lemma lastn_length {A} n (l : list A) : (n <= length l)%nat -> length (lastn n l) = n.
Proof. intros H. unfold lastn. rewrite skipn_length. lia. Qed.

Lemma lastn_nth n (l : list K) i : nth i (lastn n l) 0 = nth (length l - n + i) l 0.
Proof. unfold lastn. apply nth_skipn'. Qed.

Lemma pred_sum pc xs : (length pc <= length xs)%nat ->
  dot (rev pc) (lastn (length pc) xs) = nsum (length pc) (fun k => nth k pc 0 * nth (length xs - 1 - k) xs 0).
Proof.
  intros H. rewrite (dot_nsum K _ _ (length pc)); [|apply rev_length|now apply lastn_length].
  rewrite nsum_rev. apply nsum_ext. intros i Hi. rewrite rev_nth by lia. rewrite lastn_nth.
  f_equal; f_equal; lia.
Qed.

Definition rec_at pc (y : list K) l : Prop :=
  nth l y 0 = - nsum (length pc) (fun k => nth k pc 0 * nth (l - 1 - k) y 0).

Lemma predict_loop_spec num : forall pc xs y, predict_loop num pc xs = Ok y ->
  length y = (length xs + num)%nat /\ firstn (length xs) y = xs /\
  forall l, (length xs <= l)%nat -> (l < length y)%nat -> rec_at pc y l.
Proof.
  induction num as [|n IH]; intros pc xs y; cbn [predict_loop].
  - intros [= <-]. split; [lia|]. split; [apply firstn_all|]. intros; lia.
  - destruct (Nat.ltb_spec (length xs) (length pc)) as [|HL]; [discriminate|].
    set (v := - dot _ _). intros E. destruct (IH _ _ _ E) as (H1 & H2 & H3).
    rewrite app_length in *. cbn [length] in *. split; [lia|].
    assert (Hpre : firstn (length xs) y = xs).
    { assert (E2 := f_equal (firstn (length xs)) H2). rewrite firstn_firstn in E2.
      replace (Nat.min (length xs) (length xs + 1)) with (length xs) in E2 by lia.
      rewrite E2, firstn_app, firstn_all, Nat.sub_diag. cbn. apply app_nil_r. }
    split; [exact Hpre|].
    intros l Hl Hl2. destruct (Nat.eq_dec l (length xs)) as [->|]; [|apply H3; lia].
    unfold rec_at.
    assert (Hnth : forall i, (i < length xs)%nat -> nth i y 0 = nth i xs 0).
    { intros i Hi. transitivity (nth i (firstn (length xs) y) 0); [symmetry; now apply nth_firstn'|now rewrite Hpre]. }
    assert (Hv : nth (length xs) y 0 = v).
    { transitivity (nth (length xs) (firstn (length xs + 1) y) 0); [symmetry; apply nth_firstn'; lia|].
      rewrite H2, app_nth2 by lia. now rewrite Nat.sub_diag. }
    rewrite Hv. unfold v. rewrite pred_sum by exact HL. f_equal. apply nsum_ext. intros i Hi.
    rewrite Hnth by lia. reflexivity.
Qed.

Lemma predict_loop_total num : forall pc xs, (length pc <= length xs)%nat -> exists y, predict_loop num pc xs = Ok y.
Proof.
  induction num as [|n IH]; intros pc xs H; cbn [predict_loop]; [eauto|].
  rewrite (proj2 (Nat.ltb_ge _ _) H). apply IH. rewrite app_length. lia.
Qed.

Section Or.
Variable decompose : list (list K) -> decomp (K := K).
Variable bad : K -> bool.

Theorem predict_spec x pc (num : Z) : (length pc <= length x)%nat -> (0 <= num)%Z ->
  exists y, predict decompose bad x pc num false = Ok y /\
    length y = (length x + Z.to_nat num)%nat /\ firstn (length x) y = x /\
    forall l, (length x <= l)%nat -> (l < length y)%nat ->
      nth l y 0 = - nsum (length pc) (fun k => nth k pc 0 * nth (l - 1 - k) y 0).
Proof.
  intros H Hn. unfold predict. rewrite (proj2 (Z.ltb_ge num 0)) by lia.
  destruct (predict_loop_total (Z.to_nat num) pc x H) as (y & E). exists y. split; [exact E|].
  exact (predict_loop_spec _ _ _ _ E).
Qed.

Theorem predict_negative x pc num stable : (num < 0)%Z -> predict decompose bad x pc num stable = Err ValueError.
Proof. intros H. unfold predict. now rewrite (proj2 (Z.ltb_lt num 0) H). Qed.

(** A series obeying the recurrence is reproduced from any prefix. *)
Lemma firstn_S_nth (z : list K) m : (m < length z)%nat -> firstn (S m) z = firstn m z ++ [nth m z 0].
Proof.
  revert m. induction z as [|a z IH]; intros m H; cbn in *; [lia|]. destruct m as [|m]; [reflexivity|].
  cbn [firstn nth app]. f_equal. apply IH. lia.
Qed.

Lemma predict_unique num : forall pc (z : list K) m, (length pc <= m)%nat -> (m + num = length z)%nat ->
  (forall l, (m <= l)%nat -> (l < length z)%nat -> rec_at pc z l) ->
  predict_loop num pc (firstn m z) = Ok z.
Proof.
  induction num as [|n IH]; intros pc z m H1 H2 H3; cbn [predict_loop].
  - rewrite firstn_all2 by lia. reflexivity.
  - assert (Hl : length (firstn m z) = m) by (rewrite firstn_length; lia). rewrite Hl.
    rewrite (proj2 (Nat.ltb_ge _ _) H1).
    assert (E : - dot (rev pc) (lastn (length pc) (firstn m z)) = nth m z 0).
    { rewrite pred_sum by lia. rewrite (H3 m) by lia. f_equal. apply nsum_ext. intros i Hi. rewrite Hl.
      f_equal. apply nth_firstn'. lia. }
    rewrite E, <- firstn_S_nth by lia. apply IH; try lia. intros l Hl1 Hl2. apply H3; lia.
Qed.

(** ** Covariance method *)
Variable lstsq : list (list K) -> list K -> list K.

Lemma covar_row x order i : (0 < order)%nat -> (order < length x)%nat -> (i < length x - order)%nat ->
  nth i (toeplitz (firstn (length x - order) (skipn (order - 1) x)) (rev (firstn order x))) []
  = map (fun j => nth (order - 1 + i - j) x 0) (seq 0 order).
Proof.
  intros H0 H1 Hi. rewrite toeplitz_row by (rewrite firstn_length, skipn_length; lia).
  rewrite rev_length, firstn_length. replace (Nat.min order (length x)) with order by lia.
  apply map_ext_in. intros j Hj. apply in_seq in Hj. destruct (Nat.leb_spec j i).
  - rewrite nth_firstn' by lia. rewrite nth_skipn'. f_equal. lia.
  - rewrite rev_nth by (rewrite firstn_length; lia). rewrite firstn_length.
    rewrite nth_firstn' by lia. f_equal. lia.
Qed.

Theorem covar_reproduces x order coeff res m :
  (0 < order)%nat -> lstsq_ok lstsq ->
  pcoeff_covar lstsq x order = Ok (coeff, res) ->
  (forall r, In r res -> r = 0) ->
  (order <= m)%nat -> (m <= length x)%nat ->
  predict decompose bad (firstn m x) coeff (Z.of_nat (length x - m)) false = Ok x.
Proof.
  intros H0 Hls. unfold pcoeff_covar. destruct (Nat.leb_spec (length x) order) as [|HL]; [discriminate|].
  set (X := toeplitz _ _). intros [= <- <-] Hres Hm1 Hm2.
  set (coeff := lstsq X (map Fopp (skipn order x))) in *.
  assert (HX : length X = (length x - order)%nat) by (unfold X; rewrite toeplitz_length, firstn_length, skipn_length; lia).
  assert (Hrow : forall i, (i < length x - order)%nat -> nth i X [] = map (fun j => nth (order - 1 + i - j) x 0) (seq 0 order)).
  { intros i Hi. apply covar_row; lia. }
  assert (Hc : length coeff = order).
  { apply Hls.
    - intros E. rewrite E in HX. cbn in HX. lia.
    - rewrite map_length, skipn_length. lia.
    - intros row Hin. destruct (In_nth X row [] Hin) as (i & Hi & <-). rewrite Hrow by lia.
      now rewrite map_length, seq_length. }
  unfold predict. rewrite (proj2 (Z.ltb_ge (Z.of_nat (length x - m)) 0)) by lia. rewrite Nat2Z.id.
  apply predict_unique; [lia|lia|]. intros l Hl1 Hl2. unfold rec_at. rewrite Hc.
  assert (Hz : nth l x 0 + dot (nth (l - order) X []) coeff = 0).
  { apply Hres. apply in_map_iff. exists (nth l x 0, dot (nth (l - order) X []) coeff). split; [reflexivity|].
    assert (E : (nth l x 0, dot (nth (l - order) X []) coeff) = nth (l - order) (combine (skipn order x) (matvec X coeff)) (0, 0)).
    { rewrite combine_nth by (unfold matvec; rewrite skipn_length, map_length; lia). f_equal.
      - rewrite nth_skipn'. f_equal. lia.
      - unfold matvec. rewrite (nth_map_in _ _ _ _ []) by lia. reflexivity. }
    rewrite E. apply nth_In. unfold matvec. rewrite combine_length, skipn_length, map_length. lia. }
  assert (Hd : dot (nth (l - order) X []) coeff = nsum order (fun k => nth k coeff 0 * nth (l - 1 - k) x 0)).
  { rewrite Hrow by lia. rewrite (dot_nsum K _ _ order); [|now rewrite map_length, seq_length|exact Hc].
    apply nsum_ext. intros k Hk. rewrite nth_map_seq by lia. replace (order - 1 + (l - order) - k)%nat with (l - 1 - k)%nat by lia. ring. }
  rewrite Hd in Hz. set (s := nsum order _) in *.
  transitivity (nth l x 0 + s - s); [ring|]. rewrite Hz. ring.
Qed.

Theorem covar_rejects x order : (length x <= order)%nat -> pcoeff_covar lstsq x order = Err ValueError.
Proof. intros H. unfold pcoeff_covar. now rewrite (proj2 (Nat.leb_le _ _) H). Qed.

(** ** Companion matrix *)
Lemma companion_ok (a : list K) M : companion a = Ok M ->
  (2 <= length a)%nat /\ nth 0 a 0 <> 0 /\ length M = (length a - 1)%nat /\
  nth 0 M [] = map (fun c => - c / nth 0 a 0) (tl a) /\
  forall i, (S i < length a - 1)%nat -> nth (S i) M [] = map (fun j => if (j =? i)%nat then 1 else 0) (seq 0 (length a - 1)).
Proof.
  unfold companion. destruct (Nat.ltb_spec (length a) 2) as [|HL]; [discriminate|]. unfold feqb.
  destruct (Feq_dec (nth 0 a 0) 0) as [|Ha]; [discriminate|]. intros [= <-].
  split; [exact HL|]. split; [exact Ha|]. split; [cbn [length]; rewrite map_length, seq_length; lia|].
  split; [reflexivity|]. intros i Hi. cbn [nth]. now rewrite nth_map_seq by lia.
Qed.

Lemma unit_row_dot n i (v : list K) : length v = n -> (i < n)%nat ->
  dot (map (fun j => if (j =? i)%nat then 1 else 0) (seq 0 n)) v = nth i v 0.
Proof.
  intros Hv Hi. rewrite (dot_nsum K _ _ n); [|now rewrite map_length, seq_length|exact Hv].
  rewrite (nsum_single K n i); [|exact Hi|].
  - rewrite nth_map_seq by lia. rewrite Nat.eqb_refl. ring.
  - intros j Hj Hne. rewrite nth_map_seq by lia. destruct (Nat.eqb_spec j i); [contradiction|ring].
Qed.

Lemma companion_matvec (a : list K) M v : companion a = Ok M -> length v = (length a - 1)%nat ->
  matvec M v = dot (map (fun c => - c / nth 0 a 0) (tl a)) v :: removelast v.
Proof.
  intros E Hv. destruct (companion_ok a M E) as (H1 & H2 & H3 & H4 & H5).
  apply (list_ext _ _ 0).
  { unfold matvec. rewrite map_length. cbn [length]. rewrite H3.
    rewrite removelast_firstn_len, firstn_length. lia. }
  unfold matvec. intros i Hi. rewrite map_length in Hi. rewrite (nth_map_in _ _ _ _ []) by exact Hi.
  destruct i as [|i]; [now rewrite H4|]. cbn [nth]. rewrite H5 by lia.
  rewrite unit_row_dot by lia. rewrite removelast_firstn_len. symmetry. apply nth_firstn'. lia.
Qed.

Lemma tl_length {A} (l : list A) : length (tl l) = (length l - 1)%nat.
Proof. destruct l; cbn; lia. Qed.

Theorem companion_eigen (a : list K) M lam : companion a = Ok M ->
  (exists v, length v = (length a - 1)%nat /\ nonzero v /\ matvec M v = map (Fmul lam) v) <->
  nsum (length a) (fun k => nth k a 0 * fpow lam (length a - 1 - k)) = 0.
Proof.
  intros E. destruct (companion_ok a M E) as (H1 & H2 & H3 & _ & _).
  destruct a as [|a0 a]; [cbn in H1; lia|]. cbn [length] in *. change (nth 0 (a0 :: a) 0) with a0 in H2.
  set (n := length a) in *. replace (S n - 1)%nat with n in * by lia.
  assert (Hpoly : nsum (S n) (fun k => nth k (a0 :: a) 0 * fpow lam (n - k))
                  = a0 * fpow lam n + nsum n (fun k => nth k a 0 * fpow lam (n - 1 - k))).
  { rewrite nsum_S_l. cbn [nth]. rewrite Nat.sub_0_r. f_equal. apply nsum_ext. intros i Hi. f_equal. f_equal. lia. }
  rewrite Hpoly.
  assert (Hfirst : forall v, length v = n ->
     dot (map (fun c => - c / a0) a) v = - (nsum n (fun k => nth k a 0 * nth k v 0)) / a0).
  { intros v Hv. rewrite (dot_nsum K _ _ n); [|now rewrite map_length|exact Hv].
    transitivity (nsum n (fun k => (- (1) / a0) * (nth k a 0 * nth k v 0))).
    - apply nsum_ext. intros k Hk. rewrite (nth_map_in _ _ _ _ 0) by exact Hk. field. exact H2.
    - rewrite nsum_mul_l. field. exact H2. }
  split.
  - intros (v & Hv & Hnz & Hev). rewrite (companion_matvec _ _ _ E) in Hev by (cbn [length]; fold n; lia).
    cbn [nth tl] in Hev.
    (* v_i = lam^(n-1-i) * v_(n-1) *)
    assert (Hstep : forall i, (S i < n)%nat -> nth i v 0 = lam * nth (S i) v 0).
    { intros i Hi. assert (E2 := f_equal (fun l => nth (S i) l 0) Hev). cbn [nth] in E2.
      rewrite removelast_firstn_len in E2. rewrite nth_firstn' in E2 by lia.
      rewrite (nth_map_in _ _ _ _ 0) in E2 by lia. exact E2. }
    assert (Hall : forall d, (d < n)%nat -> nth (n - 1 - d) v 0 = fpow lam d * nth (n - 1) v 0).
    { induction d as [|d IH]; intros Hd; cbn [fpow].
      - rewrite Nat.sub_0_r. ring.
      - rewrite Hstep by lia. replace (S (n - 1 - S d)) with (n - 1 - d)%nat by lia. rewrite IH by lia. ring. }
    assert (Hlast : nth (n - 1) v 0 <> 0).
    { intros Hz. destruct Hnz as (c & Hin & Hc). destruct (In_nth v c 0 Hin) as (i & Hi & <-). apply Hc.
      assert (E3 := Hall (n - 1 - i)%nat ltac:(lia)). replace (n - 1 - (n - 1 - i))%nat with i in E3 by lia.
      rewrite E3, Hz. ring. }
    assert (E4 := f_equal (fun l => nth 0 l 0) Hev). cbn [nth] in E4. rewrite (nth_map_in _ _ _ _ 0) in E4 by lia.
    rewrite Hfirst in E4 by exact Hv.
    assert (E5 : nsum n (fun k => nth k a 0 * nth k v 0) = nsum n (fun k => nth k a 0 * fpow lam (n - 1 - k)) * nth (n - 1) v 0).
    { rewrite <- nsum_mul_r. apply nsum_ext. intros k Hk. assert (E6 := Hall (n - 1 - k)%nat ltac:(lia)).
      replace (n - 1 - (n - 1 - k))%nat with k in E6 by lia. rewrite E6. ring. }
    rewrite E5 in E4.
    assert (E7 := Hall (n - 1)%nat ltac:(lia)). rewrite Nat.sub_diag in E7. rewrite E7 in E4.
    set (S := nsum n _) in *. set (w := nth (n - 1) v 0) in *.
    apply (fmul_cancel_l K w); [exact Hlast|].
    replace (fpow lam n) with (lam * fpow lam (n - 1)).
    2:{ replace n with (Datatypes.S (n - 1)) at 2 by lia. reflexivity. }
    transitivity (a0 * (lam * (fpow lam (n - 1) * w)) + S * w); [ring|]. rewrite <- E4. field. exact H2.
  - intros Hz. exists (map (fun k => fpow lam (n - 1 - k)) (seq 0 n)).
    assert (Hl : length (map (fun k => fpow lam (n - 1 - k)) (seq 0 n)) = n) by now rewrite map_length, seq_length.
    split; [exact Hl|]. split.
    { exists 1. split; [|apply F1_neq_0]. apply in_map_iff. exists (n - 1)%nat. split; [rewrite Nat.sub_diag; reflexivity|apply in_seq; lia]. }
    rewrite (companion_matvec _ _ _ E) by (cbn [length]; fold n; lia). cbn [nth tl].
    apply (list_ext _ _ 0). { cbn [length]. rewrite removelast_firstn_len, firstn_length, Hl, map_length, Hl. lia. }
    intros i Hi. cbn [length] in Hi. rewrite removelast_firstn_len, firstn_length, Hl in Hi.
    rewrite (nth_map_in _ _ _ _ 0) by (rewrite Hl; lia). rewrite nth_map_seq by lia.
    destruct i as [|i]; cbn [nth].
    + rewrite Hfirst by exact Hl.
      rewrite (nsum_ext K n _ (fun k => nth k a 0 * fpow lam (n - 1 - k))) by (intros k Hk; now rewrite nth_map_seq by lia).
      rewrite Nat.sub_0_r. set (S := nsum n _) in *.
      replace (fpow lam n) with (lam * fpow lam (n - 1)) in Hz.
      2:{ replace n with (Datatypes.S (n - 1)) at 2 by lia. reflexivity. }
      transitivity (- (a0 * (lam * fpow lam (n - 1)) + S - a0 * (lam * fpow lam (n - 1))) / a0); [field; exact H2|].
      rewrite Hz. field. exact H2.
    + rewrite removelast_firstn_len. rewrite nth_firstn' by (rewrite Hl; lia). rewrite nth_map_seq by lia.
      replace (n - 1 - i)%nat with (Datatypes.S (n - 1 - Datatypes.S i)) by lia. reflexivity.
Qed.

Theorem companion_rejects (a : list K) :
  companion a = Err ValueError <-> ((length a < 2)%nat \/ nth 0 a 0 = 0).
Proof.
  unfold companion, feqb. destruct (Nat.ltb_spec (length a) 2); [intuition lia|].
  destruct (Feq_dec (nth 0 a 0) 0); [intuition|]. split; [discriminate|]. intros [|]; [lia|contradiction].
Qed.


Lemma tl_skipn {A} k (l : list A) : tl (skipn k l) = skipn (S k) l.
Proof. revert l; induction k as [|k IH]; intros [|a l]; try reflexivity. cbn [skipn]. rewrite IH. destruct l; reflexivity. Qed.

Lemma lastn_app1 (xs : list K) c n : (n <= length xs)%nat -> (0 < n)%nat ->
  lastn n (xs ++ [c]) = tl (lastn n xs) ++ [c].
Proof.
  intros H H0. unfold lastn. rewrite app_length. cbn [length].
  replace (length xs + 1 - n)%nat with (S (length xs - n)) by lia.
  rewrite skipn_app. replace (S (length xs - n) - length xs)%nat with 0%nat by lia. cbn [skipn].
  rewrite tl_skipn. reflexivity.
Qed.

Lemma removelast_rev {A} (l : list A) : removelast (rev l) = rev (tl l).
Proof. destruct l as [|a l]; [reflexivity|]. cbn [rev tl]. apply removelast_last. Qed.

Theorem companion_step pc xs M ys : companion (1 :: pc) = Ok M -> (length pc <= length xs)%nat ->
  predict_loop 1 pc xs = Ok ys ->
  matvec M (rev (lastn (length pc) xs)) = rev (lastn (length pc) ys).
Proof.
  intros E H. cbn [predict_loop]. rewrite (proj2 (Nat.ltb_ge _ _) H). intros [= <-].
  destruct (companion_ok _ _ E) as (H1 & _). cbn [length] in H1.
  rewrite lastn_app1 by lia. rewrite rev_app_distr. cbn [rev app].
  rewrite (companion_matvec _ _ _ E) by (rewrite rev_length, lastn_length by lia; cbn [length]; lia).
  cbn [nth tl]. rewrite removelast_rev. f_equal.
  set (u := lastn (length pc) xs). assert (Hu : length u = length pc) by (apply lastn_length; lia).
  rewrite (dot_nsum K _ _ (length pc)); [|now rewrite map_length|now rewrite rev_length].
  rewrite (dot_nsum K _ _ (length pc)); [|now rewrite rev_length|exact Hu].
  rewrite <- nsum_opp, nsum_rev. apply nsum_ext. intros i Hi.
  rewrite (nth_map_in _ _ _ _ 0) by lia. rewrite !rev_nth by lia. rewrite Hu.
  replace (length pc - S (length pc - 1 - i))%nat with i by lia.
  replace (length pc - 1 - i)%nat with (length pc - S i)%nat by lia. field. apply F1_neq_0.
Qed.

(** ** Stable prediction *)
Definition zmul (u v : list K) : list K := map (fun p => fst p * snd p) (combine u v).
Lemma zmul_length u v : length (zmul u v) = Nat.min (length u) (length v).
Proof. unfold zmul. now rewrite map_length, combine_length. Qed.
Lemma zmul_nth u v i : (i < length u)%nat -> length u = length v -> nth i (zmul u v) 0 = nth i u 0 * nth i v 0.
Proof.
  intros H1 H2. unfold zmul. rewrite (nth_map_in _ _ _ _ (0, 0)) by (rewrite combine_length; lia).
  now rewrite combine_nth by exact H2.
Qed.

Lemma stable_loop_eq num : forall pc M d xs,
  companion (1 :: pc) = Ok M -> decomp_ok M d -> (length pc <= length xs)%nat ->
  predict_loop num pc xs
  = Ok (stable_loop num (d_eig d) (zmul (nth 0 (d_rv d) []) (matvec (d_rv_inv d) (rev (lastn (length pc) xs)))) xs).
Proof.
  induction num as [|n IH]; intros pc M d xs E D H; cbn [stable_loop]; [reflexivity|].
  destruct (companion_ok _ _ E) as (H1 & _ & H3 & _). cbn [length] in H1, H3.
  destruct D as (D1 & D2 & D3 & D4 & D5 & D6).
  assert (Hn : length M = length pc) by lia. rewrite Hn in *.
  cbn [predict_loop]. rewrite (proj2 (Nat.ltb_ge _ _) H).
  set (p := - dot (rev pc) (lastn (length pc) xs)).
  set (V := rev (lastn (length pc) xs)). assert (HV : length V = length pc) by (unfold V; rewrite rev_length; now apply lastn_length).
  set (w := matvec (d_rv_inv d) V). assert (Hw : length w = length pc) by (unfold w, matvec; now rewrite map_length).
  assert (Hstep : matvec M V = rev (lastn (length pc) (xs ++ [p]))).
  { apply companion_step; [exact E|exact H|]. cbn [predict_loop]. now rewrite (proj2 (Nat.ltb_ge _ _) H). }
  assert (Hw' : matvec (d_rv_inv d) (rev (lastn (length pc) (xs ++ [p]))) = zmul (d_eig d) w).
  { rewrite <- Hstep, D5 by exact HV. apply D6. fold w. fold (zmul (d_eig d) w). rewrite zmul_length. lia. }
  set (r0 := nth 0 (d_rv d) []). assert (Hr0 : length r0 = length pc).
  { apply D4. apply nth_In. lia. }
  fold (zmul (zmul r0 w) (d_eig d)).
  assert (Hres : zmul (zmul r0 w) (d_eig d) = zmul r0 (zmul (d_eig d) w)).
  { apply (list_ext _ _ 0); [rewrite !zmul_length; lia|]. intros i Hi. rewrite !zmul_length in Hi.
    rewrite !zmul_nth by (rewrite ?zmul_length; lia). ring. }
  rewrite Hres.
  assert (Hsum : lsum (zmul r0 (zmul (d_eig d) w)) = p).
  { change (lsum (zmul r0 (zmul (d_eig d) w))) with (dot r0 (zmul (d_eig d) w)).
    assert (E2 : nth 0 (matvec (d_rv d) (zmul (d_eig d) w)) 0 = dot r0 (zmul (d_eig d) w)).
    { unfold matvec. rewrite (nth_map_in _ _ _ _ []) by lia. reflexivity. }
    rewrite <- E2. unfold zmul at 1. unfold w. rewrite <- D5 by exact HV. rewrite Hstep.
    rewrite lastn_app1 by lia. rewrite rev_app_distr. reflexivity. }
  rewrite Hsum, <- Hw'. apply (IH pc M d (xs ++ [p])); [exact E| |rewrite app_length; cbn; lia].
  unfold decomp_ok. rewrite Hn. repeat split; assumption.
Qed.

Theorem predict_stable_eq x pc num M :
  companion (1 :: pc) = Ok M -> decomp_ok M (decompose M) ->
  (forall e, In e (d_eig (decompose M)) -> bad e = false) ->
  (length pc <= length x)%nat ->
  predict decompose bad x pc num true = predict decompose bad x pc num false.
Proof.
  intros E D Hb H. unfold predict. destruct (num <? 0)%Z; [reflexivity|].
  rewrite (stable_loop_eq _ pc M (decompose M) x E D H).
  unfold predict_stable. rewrite E. cbn [bind]. rewrite (proj2 (Nat.ltb_ge _ _) H).
  f_equal. f_equal. fold (zmul (nth 0 (d_rv (decompose M)) []) (matvec (d_rv_inv (decompose M)) (rev (lastn (length pc) x)))).
  set (r := zmul _ _). set (e := d_eig (decompose M)) in *.
  destruct (companion_ok _ _ E) as (H1 & _ & H3 & _). cbn [length] in H1, H3.
  destruct D as (D1 & D2 & D3 & D4 & _ & _).
  assert (Hr : length r = length e).
  { unfold r. rewrite zmul_length. unfold matvec. rewrite map_length. unfold e. rewrite D2, D3.
    rewrite (D4 (nth 0 (d_rv (decompose M)) [])) by (apply nth_In; lia). lia. }
  apply (list_ext _ _ 0); [rewrite map_length, combine_length; lia|].
  intros i Hi. rewrite map_length, combine_length in Hi.
  rewrite (nth_map_in _ _ _ _ (0, 0)) by (rewrite combine_length; lia). rewrite combine_nth by exact Hr. cbn [fst snd].
  rewrite Hb; [reflexivity|]. apply nth_In. lia.
Qed.
End Or.
End P.
