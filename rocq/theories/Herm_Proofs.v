(** * Proofs about the (Hermite-)Padé models. *)
From Coq Require Import List Arith ZArith Lia Bool Field.
From Verif Require Import Base FSum Herm_Model Herm_Spec.
Import ListNotations.
Local Open Scope fld_scope.

Section LN.
Context {A B : Type}.
Lemma nth_map_seq (f : nat -> A) n i d : (i < n)%nat -> nth i (map f (seq 0 n)) d = f i.
Proof.
  intros H. rewrite nth_indep with (d' := f 0%nat) by (rewrite map_length, seq_length; lia).
  rewrite map_nth, seq_nth by lia. reflexivity.
Qed.
Lemma nth_map_in (f : A -> B) l i d d' : (i < length l)%nat -> nth i (map f l) d = f (nth i l d').
Proof.
  intros H. rewrite nth_indep with (d' := f d') by (rewrite map_length; lia). apply map_nth.
Qed.
Lemma nth_skipn' (l : list A) n i d : nth i (skipn n l) d = nth (n + i) l d.
Proof. revert n; induction l as [|x l IH]; intros [|n]; simpl; auto. now destruct i. Qed.
Lemma nth_firstn' (l : list A) n i d : (i < n)%nat -> nth i (firstn n l) d = nth i l d.
Proof. revert n i; induction l as [|x l IH]; intros [|n] [|i] H; simpl; auto; try lia. apply IH; lia. Qed.
Lemma list_ext (l l' : list A) d : length l = length l' ->
  (forall i, (i < length l)%nat -> nth i l d = nth i l' d) -> l = l'.
Proof. intros. eapply nth_ext; eauto. Qed.
Lemma firstn_map_seq (f : nat -> A) n m : (n <= m)%nat -> firstn n (map f (seq 0 m)) = map f (seq 0 n).
Proof.
  intros H. rewrite firstn_map. f_equal. replace m with (n + (m - n))%nat by lia.
  rewrite seq_app, firstn_app, seq_length, Nat.sub_diag. cbn. rewrite app_nil_r.
  rewrite firstn_all2; [reflexivity|rewrite seq_length; lia].
Qed.
End LN.

Section P.
Variable K : Fld.
Add Field KFh : (Fth K).
Implicit Types (an q p : list K) (f : nat -> K).

Lemma dot_nsum (u v : list K) n : length u = n -> length v = n ->
  dot u v = nsum n (fun j => nth j u 0 * nth j v 0).
Proof.
  intros Hu Hv. unfold dot. rewrite lsum_nth, map_length, combine_length.
  replace (Nat.min (length u) (length v)) with n by lia. apply nsum_ext. intros i Hi.
  rewrite (nth_map_in _ _ _ _ (0, 0)) by (rewrite combine_length; lia).
  rewrite combine_nth by congruence. reflexivity.
Qed.

(** A convolution row times q. *)
Definition crow f k n : list K := map (fun j => if (j <=? k)%nat then f (k - j)%nat else 0) (seq 0 n).

Lemma crow_length f k n : length (crow f k n) = n.
Proof. unfold crow. now rewrite map_length, seq_length. Qed.

Lemma conv_sum f q k n : (forall j, (n <= j)%nat -> nth j q 0 = 0) ->
  nsum n (fun j => (if (j <=? k)%nat then f (k - j)%nat else 0) * nth j q 0) = ser_mul (ser_of q) f k.
Proof.
  intros Hq. unfold ser_mul, ser_of.
  set (g := fun j => (if (j <=? k)%nat then f (k - j)%nat else 0) * nth j q 0).
  rewrite <- (nsum_extend K n (Nat.max n (S k)) g); [|lia|].
  2:{ intros i Hi. unfold g. rewrite (Hq i) by lia. ring. }
  rewrite (nsum_extend K (S k) (Nat.max n (S k)) g); [|lia|].
  2:{ intros i Hi. unfold g. destruct (Nat.leb_spec i k); [lia|ring]. }
  apply nsum_ext. intros i Hi. unfold g. destruct (Nat.leb_spec i k); [ring|lia].
Qed.

Lemma dot_crow f q k n : length q = n -> dot (crow f k n) q = ser_mul (ser_of q) f k.
Proof.
  intros Hq. rewrite (dot_nsum _ _ n) by (auto using crow_length).
  rewrite <- (conv_sum f q k n) by (intros j Hj; apply nth_overflow; lia).
  apply nsum_ext. intros j Hj. unfold crow. now rewrite nth_map_seq.
Qed.

Lemma ser_mul_ext f f' g k : (forall i, (i <= k)%nat -> f i = f' i) -> ser_mul g f k = ser_mul g f' k.
Proof. intros H. unfold ser_mul. apply nsum_ext. intros i Hi. rewrite H by lia. reflexivity. Qed.

Lemma crow_ext f f' k n : (forall i, (i <= k)%nat -> f i = f' i) -> crow f k n = crow f' k n.
Proof. intros H. unfold crow. apply map_ext. intros j. destruct (Nat.leb_spec j k); [apply H; lia|reflexivity]. Qed.

(** ** Rows of the Toeplitz matrices *)
Lemma toeplitz_length (c r : list K) : length (toeplitz c r) = length c.
Proof. unfold toeplitz. now rewrite map_length, seq_length. Qed.
Lemma toeplitz_row (c r : list K) i : (i < length c)%nat ->
  nth i (toeplitz c r) [] = map (fun j => if (j <=? i)%nat then nth (i - j) c 0 else nth (j - i) r 0) (seq 0 (length r)).
Proof. intros H. unfold toeplitz. now rewrite nth_map_seq. Qed.

Lemma toeplitz_lower_row (c : list K) i n : (i < length c)%nat ->
  nth i (toeplitz c (repeat 0 n)) [] = crow (ser_of c) i n.
Proof.
  intros H. rewrite toeplitz_row by exact H. rewrite repeat_length. unfold crow, ser_of.
  apply map_ext. intros j. destruct (Nat.leb_spec j i); [reflexivity|].
  destruct (Nat.ltb_spec (j - i) n).
  - apply nth_repeat.
  - apply nth_overflow. rewrite repeat_length. lia.
Qed.

Lemma pade_top_length an num den : (num + den + 1 <= length an)%nat -> (0 < den)%nat ->
  length (pade_top an num den) = S den.
Proof.
  intros H Hd. unfold pade_top. rewrite app_length, firstn_length, rev_length, firstn_length, repeat_length. lia.
Qed.

Lemma pade_top_nth an num den j : (num + den + 1 <= length an)%nat -> (0 < den)%nat -> (j <= den)%nat ->
  nth j (pade_top an num den) 0 = if (j <=? num + 1)%nat then nth (num + 1 - j) an 0 else 0.
Proof.
  intros H Hd Hj. unfold pade_top.
  assert (Hl : length (firstn (den + 1) (rev (firstn (num + 2) an))) = Nat.min (den + 1) (num + 2)).
  { rewrite firstn_length, rev_length, firstn_length. lia. }
  destruct (Nat.leb_spec j (num + 1)).
  - rewrite app_nth1 by lia. rewrite nth_firstn' by lia.
    rewrite rev_nth by (rewrite firstn_length; lia). rewrite firstn_length.
    replace (Nat.min (num + 2) (length an) - S j)%nat with (num + 1 - j)%nat by lia.
    apply nth_firstn'. lia.
  - rewrite app_nth2 by lia. apply nth_repeat.
Qed.

Lemma pade_rows an num den i : (num + den + 1 <= length an)%nat -> (0 < den)%nat ->
  (i < length an - (num + 1))%nat ->
  nth i (toeplitz (skipn (num + 1) an) (pade_top an num den)) [] = crow (ser_of an) (num + 1 + i) (S den).
Proof.
  intros H Hd Hi. rewrite toeplitz_row by (rewrite skipn_length; lia).
  rewrite pade_top_length by assumption. unfold crow, ser_of. apply map_ext_in. intros j Hj. apply in_seq in Hj.
  destruct (Nat.leb_spec j i).
  - rewrite nth_skipn'. destruct (Nat.leb_spec j (num + 1 + i)); [|lia]. f_equal. lia.
  - rewrite pade_top_nth by (auto; lia).
    destruct (Nat.leb_spec (j - i) (num + 1)); destruct (Nat.leb_spec j (num + 1 + i)); try lia; [|reflexivity].
    f_equal. lia.
Qed.

Lemma in_nth {T} (x : T) l d : In x l -> exists i, (i < length l)%nat /\ nth i l d = x.
Proof. apply In_nth. Qed.

(** numerator coefficients *)
Lemma numer_coeffs an num den q : (num + 1 <= length an)%nat -> length q = S den ->
  let p := matvec (toeplitz (firstn (num + 1) an) (repeat 0 (den + 1))) q in
  length p = S num /\ forall k, (k <= num)%nat -> nth k p 0 = ser_mul (ser_of q) (ser_of an) k.
Proof.
  intros Ha Hq p. unfold p, matvec. split.
  { rewrite map_length, toeplitz_length, firstn_length. lia. }
  intros k Hk.
  rewrite (nth_map_in _ _ _ _ []) by (rewrite toeplitz_length, firstn_length; lia).
  rewrite toeplitz_lower_row by (rewrite firstn_length; lia).
  replace (den + 1)%nat with (S den) by lia. rewrite dot_crow by exact Hq.
  apply ser_mul_ext. intros i Hi. unfold ser_of. apply nth_firstn'. lia.
Qed.

(** ** pade *)
Section Pade.
Variable nullvec : list (list K) -> list K.
Variable solve : list (list K) -> list K -> result (list K).
Hypothesis Hnull : nullvec_ok nullvec.
Hypothesis Hsolve : solve_ok solve.

Lemma nonzero_app1 (x : list K) : nonzero (x ++ [1]).
Proof. exists 1. split; [apply in_or_app; right; now left|apply F1_neq_0]. Qed.

Lemma fast_rows an num den q' : (num + den + 1 = length an)%nat -> (0 < den)%nat ->
  length q' = den ->
  matvec (toeplitz (skipn (num + 1) an) (removelast (pade_top an num den))) q'
    = map Fopp (rev (tl (pade_top an num den))) ->
  forall i, (i < den)%nat -> dot (crow (ser_of an) (num + 1 + i) (S den)) (q' ++ [1]) = 0.
Proof.
  intros H Hd Hq E i Hi.
  assert (Htl : length (pade_top an num den) = S den) by (apply pade_top_length; lia).
  assert (En : nth i (matvec (toeplitz (skipn (num + 1) an) (removelast (pade_top an num den))) q') 0
             = nth i (map Fopp (rev (tl (pade_top an num den)))) 0) by (rewrite E; reflexivity).
  assert (Hrl : removelast (pade_top an num den) = firstn den (pade_top an num den)).
  { rewrite removelast_firstn_len. rewrite Htl. reflexivity. }
  unfold matvec in En.
  rewrite (nth_map_in _ _ _ _ []) in En by (rewrite toeplitz_length, skipn_length; lia).
  rewrite (nth_map_in _ _ _ _ 0) in En.
  2:{ rewrite rev_length. destruct (pade_top an num den); [discriminate|]. simpl in *. lia. }
  rewrite toeplitz_row in En by (rewrite skipn_length; lia).
  rewrite Hrl in En.
  assert (Hfl : length (firstn den (pade_top an num den)) = den) by (rewrite firstn_length; lia).
  rewrite Hfl in En.
  rewrite (dot_nsum _ _ den) in En; [|rewrite map_length, seq_length; reflexivity|exact Hq].
  rewrite (dot_nsum _ _ (S den)); [|apply crow_length|rewrite app_length; simpl; lia].
  cbn [nsum]. rewrite (app_nth2 q') by lia. rewrite Hq, Nat.sub_diag. cbn [nth].
  assert (Er : nth i (rev (tl (pade_top an num den))) 0 = nth den (crow (ser_of an) (num + 1 + i) (S den)) 0).
  { rewrite rev_nth by (destruct (pade_top an num den); [discriminate|]; simpl in *; lia).
    assert (Hnt : forall j, nth j (tl (pade_top an num den)) 0 = nth (S j) (pade_top an num den) 0).
    { intros j. destruct (pade_top an num den); [destruct j; reflexivity|reflexivity]. }
    assert (Htll : length (tl (pade_top an num den)) = den).
    { destruct (pade_top an num den); [discriminate|]. simpl in *. lia. }
    rewrite Hnt, Htll. unfold crow. rewrite nth_map_seq by lia.
    rewrite pade_top_nth by lia. unfold ser_of.
    replace (S (den - S i)) with (den - i)%nat by lia.
    destruct (Nat.leb_spec (den - i) (num + 1)); destruct (Nat.leb_spec den (num + 1 + i)); try lia; [|reflexivity].
    f_equal. lia. }
  rewrite Er in En.
  rewrite (nsum_ext K den _ (fun j => nth j (map (fun j0 : nat => if (j0 <=? i)%nat then nth (i - j0) (skipn (num + 1) an) 0 else nth (j0 - i) (firstn den (pade_top an num den)) 0) (seq 0 den)) 0 * nth j q' 0)).
  { rewrite En. ring. }
  intros j Hj. rewrite (app_nth1 q') by lia. f_equal. unfold crow. rewrite !nth_map_seq by lia. unfold ser_of.
  destruct (Nat.leb_spec j i).
  - rewrite nth_skipn'. destruct (Nat.leb_spec j (num + 1 + i)); [|lia]. f_equal. lia.
  - rewrite nth_firstn' by lia. rewrite pade_top_nth by lia.
    destruct (Nat.leb_spec (j - i) (num + 1)); destruct (Nat.leb_spec j (num + 1 + i)); try lia; [|reflexivity].
    f_equal. lia.
Qed.

Lemma null_accurate (a qc : list K) num den : (num + 1 <= length a)%nat -> length qc = S den ->
  (forall i, (num + 1 + i < length a)%nat -> dot (crow (ser_of a) (num + 1 + i) (S den)) qc = 0) ->
  accurate (matvec (toeplitz (firstn (num + 1) a) (repeat 0 (den + 1))) qc) qc a (length a).
Proof.
  intros Ha Hq Hr f Hf k Hk.
  destruct (numer_coeffs a num den qc ltac:(lia) Hq) as [Hpl Hpk].
  assert (E : ser_mul (ser_of qc) f k = ser_mul (ser_of qc) (ser_of a) k).
  { apply ser_mul_ext. intros i Hi. apply Hf. lia. }
  rewrite E. destruct (Nat.leb_spec k num) as [L|L].
  - unfold ser_of at 3. now rewrite Hpk.
  - unfold ser_of at 3. rewrite (nth_overflow _ (n := k)) by (rewrite Hpl; lia).
    specialize (Hr (k - (num + 1))%nat ltac:(lia)). rewrite dot_crow in Hr by exact Hq.
    replace (num + 1 + (k - (num + 1)))%nat with k in Hr by lia. exact Hr.
Qed.

Theorem pade_accurate an num den fast p q :
  pade nullvec solve an num den fast = Ok (p, q) ->
  length p = S num /\ length q = S den /\ nonzero q /\ accurate p q an (num + den + 1).
Proof.
  unfold pade. destruct (Nat.ltb_spec (length an) (num + den + 1)) as [?|HL]; [discriminate|].
  set (a := firstn (num + den + 1) an).
  assert (Ha : length a = (num + den + 1)%nat) by (unfold a; rewrite firstn_length; lia).
  assert (Hacc : forall p q, accurate p q a (num + den + 1) -> accurate p q an (num + den + 1)).
  { intros p0 q0 H f Hf. apply H. intros i Hi. rewrite Hf by lia. unfold a. now rewrite nth_firstn' by lia. }
  destruct (Nat.eqb_spec den 0) as [->|Hd].
  - intros [= <- <-]. split; [lia|]. split; [reflexivity|]. split; [exists 1; split; [now left|apply F1_neq_0]|].
    apply Hacc. intros f Hf k Hk. unfold ser_mul, ser_of. rewrite nsum_S_l. cbn [nth].
    rewrite nsum_0'; [|intros i _; destruct i; cbn [nth]; ring].
    rewrite Hf by lia. rewrite Nat.sub_0_r. ring.
  - assert (Hrow : forall qc, length qc = S den ->
       (forall i, (i < den)%nat -> dot (crow (ser_of a) (num + 1 + i) (S den)) qc = 0) ->
       accurate (matvec (toeplitz (firstn (num + 1) a) (repeat 0 (den + 1))) qc) qc a (num + den + 1)).
    { intros qc Hq Hr. rewrite <- Ha. apply null_accurate; [lia|exact Hq|]. intros i Hi. apply Hr. lia. }
    destruct fast.
    + destruct (solve _ _) as [x|e] eqn:Es; [|discriminate]. cbn [bind].
      destruct (Nat.eqb_spec (length (x ++ [1])) (den + 1)) as [El|?]; [|discriminate]. cbn [negb].
      intros [= <- <-]. destruct (Hsolve _ _ _ Es) as [_ Es2].
      rewrite app_length in El. cbn in El.
      assert (Hq : length (x ++ [1]) = S den) by (rewrite app_length; simpl; lia).
      destruct (numer_coeffs a num den (x ++ [1]) ltac:(lia) Hq) as [Hpl Hpk].
      split; [exact Hpl|]. split; [exact Hq|]. split; [apply nonzero_app1|]. apply Hacc, Hrow; [exact Hq|].
      apply fast_rows; auto; lia.
    + cbn [bind]. set (A := toeplitz (skipn (num + 1) a) (pade_top a num den)).
      destruct (Nat.eqb_spec (length (nullvec A)) (den + 1)) as [El|?]; [|discriminate]. cbn [negb].
      intros [= <- <-].
      assert (HA : length A = den) by (unfold A; rewrite toeplitz_length, skipn_length; lia).
      assert (Hrl : forall row, In row A -> length row = S den).
      { intros row Hin. destruct (in_nth row A [] Hin) as (i & Hi & <-). unfold A. rewrite pade_rows by lia.
        apply crow_length. }
      destruct (Hnull A den HA Hrl ltac:(lia)) as (Hnl & Hn0 & Hnz).
      assert (Hq : length (nullvec A) = S den) by lia.
      destruct (numer_coeffs a num den (nullvec A) ltac:(lia) Hq) as [Hpl Hpk].
      split; [exact Hpl|]. split; [exact Hq|]. split; [exact Hnz|]. apply Hacc, Hrow; [exact Hq|].
      intros i Hi. rewrite <- (pade_rows a num den i) by lia. apply Hn0. apply nth_In. fold A. lia.
Qed.

Theorem pade_rejects an num den fast :
  (length an < num + den + 1)%nat -> pade nullvec solve an num den fast = Err ValueError.
Proof. intros H. unfold pade. now rewrite (proj2 (Nat.ltb_lt _ _) H). Qed.

Theorem pade_total an num den :
  (num + den + 1 <= length an)%nat -> exists p q, pade nullvec solve an num den false = Ok (p, q).
Proof.
  intros HL. unfold pade. rewrite (proj2 (Nat.ltb_ge _ _) HL).
  set (a := firstn (num + den + 1) an).
  assert (Ha : length a = (num + den + 1)%nat) by (unfold a; rewrite firstn_length; lia).
  destruct (Nat.eqb_spec den 0) as [->|Hd]; [eauto|]. cbn [bind].
  set (A := toeplitz (skipn (num + 1) a) (pade_top a num den)).
  assert (HA : length A = den) by (unfold A; rewrite toeplitz_length, skipn_length; lia).
  assert (Hrl : forall row, In row A -> length row = S den).
  { intros row Hin. destruct (in_nth row A [] Hin) as (i & Hi & <-). unfold A. rewrite pade_rows by lia.
    apply crow_length. }
  destruct (Hnull A den HA Hrl ltac:(lia)) as (Hnl & _ & _). rewrite Hnl.
  replace (den + 1)%nat with (S den) by lia. rewrite Nat.eqb_refl. cbn [negb]. eauto.
Qed.

(** ** hermite2 *)
Lemma ser_mul_comm f g k : ser_mul f g k = ser_mul g f k.
Proof.
  unfold ser_mul. rewrite nsum_rev. apply nsum_ext. intros i Hi.
  replace (S k - 1 - i)%nat with (k - i)%nat by lia. replace (k - (k - i))%nat with i by lia. ring.
Qed.

Lemma square_entry f k j L : (k < L)%nat ->
  nsum L (fun m => (if (m <=? k)%nat then f (k - m)%nat else 0) * (if (j <=? m)%nat then f (m - j)%nat else 0))
  = if (j <=? k)%nat then ser_mul f f (k - j) else 0.
Proof.
  intros Hk. destruct (Nat.leb_spec j k) as [Hj|Hj].
  - replace L with (j + (S (k - j) + (L - j - S (k - j))))%nat by lia.
    rewrite nsum_split. rewrite nsum_0'.
    2:{ intros i Hi. destruct (Nat.leb_spec j i); [lia|ring]. }
    rewrite nsum_split. rewrite (nsum_0' K (L - j - S (k - j))).
    2:{ intros i Hi. destruct (Nat.leb_spec (j + (S (k - j) + i)) k); [lia|ring]. }
    unfold ser_mul.
    rewrite (nsum_ext K (S (k - j)) _ (fun i => f i * f (k - j - i)%nat)).
    + ring.
    + intros i Hi. destruct (Nat.leb_spec (j + i) k); [|lia]. destruct (Nat.leb_spec j (j + i)); [|lia].
      replace (k - (j + i))%nat with (k - j - i)%nat by lia. replace (j + i - j)%nat with i by lia. ring.
  - apply nsum_0'. intros m Hm. destruct (Nat.leb_spec m k); destruct (Nat.leb_spec j m); try lia; ring.
Qed.

Lemma dot_app (u1 u2 v1 v2 : list K) : length u1 = length v1 -> dot (u1 ++ u2) (v1 ++ v2) = dot u1 v1 + dot u2 v2.
Proof.
  intros H. unfold dot. rewrite <- lsum_app, <- map_app. f_equal. f_equal.
  revert v1 H. induction u1 as [|x u1 IH]; intros [|y v1] H; try discriminate; [reflexivity|].
  cbn. f_equal. apply IH. now injection H.
Qed.

Definition hlower (a : list K) pd qd rd :=
  let F := toeplitz a (repeat 0 (length a)) in
  hcat (skipn (pd + 1) (cols_to (qd + 1) F)) (skipn (pd + 1) (matmul F (cols_to (rd + 1) F) (rd + 1))).
Definition hupper (a : list K) pd qd rd :=
  let F := toeplitz a (repeat 0 (length a)) in
  hcat (firstn (pd + 1) (cols_to (qd + 1) F)) (firstn (pd + 1) (matmul F (cols_to (rd + 1) F) (rd + 1))).
Definition hrow (a : list K) k qd rd :=
  crow (ser_of a) k (S qd) ++ crow (ser_mul (ser_of a) (ser_of a)) k (S rd).

Lemma herm_rows (a : list K) pd qd rd : (pd + qd + rd + 2 <= length a)%nat ->
  length (hlower a pd qd rd) = (length a - (pd + 1))%nat /\
  (forall i, (i < length a - (pd + 1))%nat -> nth i (hlower a pd qd rd) [] = hrow a (pd + 1 + i) qd rd) /\
  length (hupper a pd qd rd) = S pd /\
  (forall i, (i <= pd)%nat -> nth i (hupper a pd qd rd) [] = hrow a i qd rd).
Proof.
  intros HL. unfold hlower, hupper. cbv zeta. set (L := length a) in *. set (F := toeplitz a (repeat 0 L)).
  assert (HF : length F = L) by (unfold F; now rewrite toeplitz_length).
  assert (HFr : forall i, (i < L)%nat -> nth i F [] = crow (ser_of a) i L).
  { intros i Hi. unfold F. apply toeplitz_lower_row. exact Hi. }
  set (A1 := cols_to (qd + 1) F). set (A2 := matmul F (cols_to (rd + 1) F) (rd + 1)).
  assert (HA1 : length A1 = L) by (unfold A1, cols_to; now rewrite map_length).
  assert (HA2 : length A2 = L) by (unfold A2, matmul; now rewrite map_length).
  assert (HA1r : forall i, (i < L)%nat -> nth i A1 [] = crow (ser_of a) i (S qd)).
  { intros i Hi. unfold A1, cols_to. rewrite (nth_map_in _ _ _ _ []) by lia. rewrite HFr by lia.
    unfold crow. rewrite firstn_map_seq by lia. now replace (qd + 1)%nat with (S qd) by lia. }
  assert (HA2r : forall i, (i < L)%nat -> nth i A2 [] = crow (ser_mul (ser_of a) (ser_of a)) i (S rd)).
  { intros i Hi. unfold A2, matmul. rewrite (nth_map_in _ _ _ _ []) by lia. rewrite HFr by lia.
    unfold crow at 2. replace (rd + 1)%nat with (S rd) by lia. apply map_ext_in. intros j Hj. apply in_seq in Hj.
    rewrite (dot_nsum _ _ L); [|apply crow_length|unfold col, cols_to; now rewrite !map_length].
    rewrite <- (square_entry (ser_of a) i j L) by lia. apply nsum_ext. intros m Hm.
    unfold crow at 1. rewrite nth_map_seq by lia. f_equal.
    unfold col. rewrite (nth_map_in _ _ _ _ []) by (unfold cols_to; rewrite map_length; lia).
    unfold cols_to. rewrite (nth_map_in _ _ _ _ []) by lia. rewrite nth_firstn' by lia.
    rewrite HFr by lia. unfold crow. now rewrite nth_map_seq by lia. }
  split; [unfold hcat; rewrite map_length, combine_length, !skipn_length; lia|]. split.
  { intros i Hi. unfold hcat, hrow.
    rewrite (nth_map_in _ _ _ _ ([], [])) by (rewrite combine_length, !skipn_length; lia).
    rewrite combine_nth by (rewrite !skipn_length; lia).
    cbn [fst snd]. rewrite !nth_skipn', HA1r, HA2r by lia. reflexivity. }
  split; [unfold hcat; rewrite map_length, combine_length, !firstn_length; lia|].
  intros i Hi. unfold hcat, hrow.
  rewrite (nth_map_in _ _ _ _ ([], [])) by (rewrite combine_length, !firstn_length; lia).
  rewrite combine_nth by (rewrite !firstn_length; lia). cbn [fst snd].
  rewrite !nth_firstn' by lia. now rewrite HA1r, HA2r by lia.
Qed.

Lemma dot_hrow (a qr : list K) k qd rd : length qr = (qd + rd + 2)%nat ->
  dot (hrow a k qd rd) qr
  = ser_mul (ser_of (firstn (qd + 1) qr)) (ser_of a) k
    + ser_mul (ser_of (skipn (qd + 1) qr)) (ser_mul (ser_of a) (ser_of a)) k.
Proof.
  intros Hl. unfold hrow. rewrite <- (firstn_skipn (qd + 1) qr) at 1.
  assert (length (firstn (qd + 1) qr) = S qd) by (rewrite firstn_length; lia).
  assert (length (skipn (qd + 1) qr) = S rd) by (rewrite skipn_length; lia).
  rewrite dot_app by (rewrite crow_length; lia). now rewrite !dot_crow.
Qed.

Lemma herm_accurate (a qr : list K) pd qd rd : (pd + qd + rd + 2 <= length a)%nat -> length qr = (qd + rd + 2)%nat ->
  (forall row, In row (hlower a pd qd rd) -> dot row qr = 0) ->
  accurate2 (map Fopp (matvec (hupper a pd qd rd) qr)) (firstn (qd + 1) qr) (skipn (qd + 1) qr) a (length a).
Proof.
  intros HL Hqr Hn0. destruct (herm_rows a pd qd rd HL) as (Hll & Hlr & Hul & Hur).
  intros f Hf k Hk.
  assert (Ef : forall i, (i <= k)%nat -> f i = ser_of a i) by (intros i Hi; apply Hf; lia).
  rewrite (ser_mul_ext f (ser_of a) (ser_of (firstn (qd + 1) qr)) k Ef).
  rewrite (ser_mul_ext (ser_mul f f) (ser_mul (ser_of a) (ser_of a)) (ser_of (skipn (qd + 1) qr)) k).
  2:{ intros i Hi. unfold ser_mul. apply nsum_ext. intros j Hj. now rewrite !Ef by lia. }
  assert (E3 : forall x y z : K, y + z = - x -> x + y + z = 0).
  { intros x y z H. replace (x + y + z) with (x + (y + z)) by ring. rewrite H. ring. }
  apply E3. rewrite <- (dot_hrow a qr k qd rd Hqr). set (u := hupper a pd qd rd) in *.
  change (ser_of (map Fopp (matvec u qr)) k) with (nth k (map Fopp (matvec u qr)) 0).
  destruct (Nat.leb_spec k pd) as [Lk|Lk].
  - rewrite (nth_map_in _ _ _ _ 0) by (unfold matvec; rewrite map_length; lia).
    unfold matvec. rewrite (nth_map_in _ _ _ _ []) by lia. rewrite Hur by lia. ring.
  - rewrite (nth_overflow (map Fopp (matvec u qr))) by (unfold matvec; rewrite !map_length; lia).
    transitivity (0 : K); [|ring].
    replace k with (pd + 1 + (k - (pd + 1)))%nat by lia. rewrite <- Hlr by lia. apply Hn0. apply nth_In. lia.
Qed.

Theorem hermite2_accurate an pd qd rd p q r :
  hermite2 nullvec an pd qd rd = Ok (p, q, r) ->
  length p = S pd /\ length q = S qd /\ length r = S rd /\ (nonzero q \/ nonzero r) /\
  accurate2 p q r an (pd + qd + rd + 2).
Proof.
  unfold hermite2. destruct (Nat.ltb_spec (length an) (rd + qd + pd + 2)) as [?|HL]; [discriminate|].
  set (L := (rd + qd + pd + 2)%nat) in *. set (a := firstn L an).
  assert (Ha : length a = L) by (unfold a; rewrite firstn_length; lia).
  fold (hlower a pd qd rd). fold (hupper a pd qd rd).
  destruct (herm_rows a pd qd rd ltac:(lia)) as (Hll & Hlr & Hul & Hur).
  set (qr := nullvec (hlower a pd qd rd)).
  destruct (Nat.eqb_spec (length qr) (rd + qd + 2)) as [El|?]; [|discriminate]. cbn [negb].
  intros [= <- <- <-].
  assert (Hrows : forall row, In row (hlower a pd qd rd) -> length row = S (qd + rd + 1)).
  { intros row Hin. destruct (in_nth row _ [] Hin) as (i & Hi & <-). rewrite Hlr by lia.
    unfold hrow. rewrite app_length, !crow_length. lia. }
  destruct (Hnull (hlower a pd qd rd) (qd + rd + 1)%nat ltac:(lia) Hrows ltac:(lia)) as (_ & Hn0 & Hnz).
  fold qr in Hn0, Hnz.
  split; [unfold matvec; now rewrite !map_length|]. split; [rewrite firstn_length; lia|].
  split; [rewrite skipn_length; lia|]. split.
  { destruct Hnz as (c & Hin & Hc). rewrite <- (firstn_skipn (qd + 1) qr) in Hin. apply in_app_or in Hin.
    destruct Hin; [left|right]; exists c; auto. }
  intros f Hf k Hk. apply (herm_accurate a qr pd qd rd ltac:(lia) ltac:(lia) Hn0); [|lia].
  intros i Hi. rewrite Hf by lia. unfold a. now rewrite nth_firstn' by lia.
Qed.

Theorem hermite2_total an pd qd rd :
  (pd + qd + rd + 2 <= length an)%nat -> exists p q r, hermite2 nullvec an pd qd rd = Ok (p, q, r).
Proof.
  intros HL. unfold hermite2. rewrite (proj2 (Nat.ltb_ge _ _)) by lia.
  set (L := (rd + qd + pd + 2)%nat) in *. set (a := firstn L an).
  assert (Ha : length a = L) by (unfold a; rewrite firstn_length; lia).
  fold (hlower a pd qd rd). fold (hupper a pd qd rd).
  destruct (herm_rows a pd qd rd ltac:(lia)) as (Hll & Hlr & Hul & Hur).
  assert (Hrows : forall row, In row (hlower a pd qd rd) -> length row = S (qd + rd + 1)).
  { intros row Hin. destruct (in_nth row _ [] Hin) as (i & Hi & <-). rewrite Hlr by lia.
    unfold hrow. rewrite app_length, !crow_length. lia. }
  destruct (Hnull (hlower a pd qd rd) (qd + rd + 1)%nat ltac:(lia) Hrows ltac:(lia)) as (Hnl & _ & _).
  rewrite Hnl. replace (S (qd + rd + 1)) with (rd + qd + 2)%nat by lia. rewrite Nat.eqb_refl. cbn [negb]. eauto.
Qed.

Theorem hermite2_rejects an pd qd rd :
  (length an < pd + qd + rd + 2)%nat -> hermite2 nullvec an pd qd rd = Err ValueError.
Proof. intros H. unfold hermite2. rewrite (proj2 (Nat.ltb_lt _ _)); [reflexivity|lia]. Qed.
End Pade.
End P.
