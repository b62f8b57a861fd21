(** * Proofs about the least-squares and robust (Hermite-)Padé models. *)
From Coq Require Import List Arith ZArith Lia Bool Field.
From Verif Require Import Base FSum Herm_Model Herm_Spec Herm_Proofs.
Import ListNotations.
Local Open Scope fld_scope.

Section P.
Variable K : Fld.
Add Field KFh2 : (Fth K).
Implicit Types (an q p : list K) (f : nat -> K).

(** ** Guiding degrees *)
Lemma sqrt_mul_le (p r : Z) : (0 <= p)%Z -> (0 <= r)%Z -> (Z.sqrt (p * r) <= p + r)%Z.
Proof.
  intros Hp Hr. assert (H := Z.sqrt_spec (p * r) (Z.mul_nonneg_nonneg _ _ Hp Hr)).
  assert (H0 := Z.sqrt_nonneg (p * r)). cbv zeta in H. set (s := Z.sqrt (p * r)) in *.
  apply Z.square_le_simpl_nonneg; [lia|]. nia.
Qed.
Theorem guide_degrees_ok dp dq dr :
  let '(num, den) := guide_degrees dp dq dr in
  (0 <= num)%Z /\ (0 <= den)%Z /\ (num + den <= Z.of_nat dp + Z.of_nat dq + Z.of_nat dr)%Z.
Proof.
  unfold guide_degrees. set (p := Z.of_nat dp). set (q := Z.of_nat dq). set (r := Z.of_nat dr).
  assert (Hp : (0 <= p)%Z) by lia. assert (Hq : (0 <= q)%Z) by lia. assert (Hr : (0 <= r)%Z) by lia.
  assert (Hs0 := Z.sqrt_nonneg (p * r)).
  assert (Hs : (Z.sqrt (p * r) <= p + r)%Z).
  { now apply sqrt_mul_le. }
  set (s := Z.sqrt (p * r)) in *. set (m := Z.max q s).
  assert (Hm : (m <= p + q + r /\ 0 <= m)%Z) by lia.
  assert (H1 := Z.div_mod (r + q + p - (m - r)) 2 ltac:(lia)).
  assert (H2 := Z.mod_pos_bound (r + q + p - (m - r)) 2 ltac:(lia)).
  set (d := ((r + q + p - (m - r)) / 2)%Z) in *. lia.
Qed.

Theorem from_taylor_total nullvec solve an dp dq dr : nullvec_ok nullvec ->
  (dp + dq + dr + 2 <= length an)%nat ->
  exists pqr num den pq, from_taylor nullvec solve an dp dq dr = Ok (pqr, pq) /\
    hermite2 nullvec an dp dq dr = Ok pqr /\
    (num + den <= dp + dq + dr)%nat /\ pade nullvec solve an num den false = Ok pq.
Proof.
  intros Hn HL. unfold from_taylor.
  destruct (hermite2_total K nullvec Hn an dp dq dr HL) as (p & q & r & E). rewrite E. cbn [bind].
  assert (G := guide_degrees_ok dp dq dr). destruct (guide_degrees dp dq dr) as [num den].
  destruct G as (G1 & G2 & G3).
  rewrite (proj2 (Z.ltb_ge num 0)) by lia. rewrite (proj2 (Z.ltb_ge den 0)) by lia. cbn [orb].
  destruct (pade_total K nullvec solve Hn an (Z.to_nat num) (Z.to_nat den)) as (pp & qq & Ep); [lia|].
  rewrite Ep. cbn [bind]. exists (p, q, r), (Z.to_nat num), (Z.to_nat den), (pp, qq).
  repeat split; auto. lia.
Qed.

(** ** Least-squares null vectors *)
Lemma dot_insert (row vec : list K) n i : length row = S n -> length vec = n -> (i <= n)%nat ->
  dot row (firstn i vec ++ 1 :: skipn i vec) = nth i row 0 + dot (firstn i row ++ skipn (i + 1) row) vec.
Proof.
  intros Hr Hv Hi.
  assert (Er : row = firstn i row ++ nth i row 0 :: skipn (i + 1) row).
  { rewrite <- (firstn_skipn i row) at 1. f_equal. clear Hv vec. revert n i Hr Hi.
    induction row as [|x row IH]; intros n i Hr Hi; [discriminate|]. destruct i as [|i]; [reflexivity|].
    cbn [skipn nth Nat.add]. destruct n; [lia|]. apply (IH n); [now injection Hr|lia]. }
  rewrite Er at 1. rewrite dot_app by (rewrite !firstn_length; lia).
  rewrite <- (firstn_skipn i vec) at 3. rewrite dot_app by (rewrite !firstn_length; lia).
  unfold dot at 2. cbn [combine map lsum fold_right fst snd].
  change (fold_right Fadd 0 (map (fun p : K * K => fst p * snd p) (combine (skipn (i + 1) row) (skipn i vec))))
    with (dot (skipn (i + 1) row) (skipn i vec)). ring.
Qed.

Section Lst.
Variable lstsq : list (list K) -> list K -> list K.
Hypothesis Hlst : lstsq_ok lstsq.

Lemma nullvec_lst_ok mat ncol fix_ v : mat <> [] -> (0 < ncol)%nat ->
  (forall row, In row mat -> length row = ncol) ->
  nullvec_lst lstsq mat ncol fix_ = Ok v ->
  exists i, (i < ncol)%nat /\ (Z.of_nat i = fix_ \/ Z.of_nat i = (Z.of_nat ncol + fix_)%Z) /\
    length v = ncol /\ nth i v 0 = 1 /\
    ((exists y, length y = ncol /\ nth i y 0 = 1 /\ forall row, In row mat -> dot row y = 0) ->
     forall row, In row mat -> dot row v = 0).
Proof.
  intros Hne Hnc Hrows. unfold nullvec_lst.
  set (f := if (fix_ <? 0)%Z then (Z.of_nat ncol + fix_)%Z else fix_).
  destruct (Z.leb_spec (Z.of_nat ncol) f) as [?|Hf1]; [discriminate|].
  destruct (Z.ltb_spec f 0) as [?|Hf2]; [discriminate|]. intros [= <-].
  set (i := Z.to_nat f). set (A := map (fun row => firstn i row ++ skipn (i + 1) row) mat).
  set (b := map (fun row => - nth i row 0) mat).
  assert (HA : A <> []) by (unfold A; destruct mat; [congruence|discriminate]).
  assert (Hb : length b = length A) by (unfold A, b; now rewrite !map_length).
  destruct ncol as [|n]; [lia|].
  assert (HAr : forall row, In row A -> length row = n).
  { intros row Hin. apply in_map_iff in Hin. destruct Hin as (r & <- & Hin). apply Hrows in Hin.
    rewrite app_length, firstn_length, skipn_length. lia. }
  destruct (Hlst A b n HA Hb HAr) as [Hl Hs].
  exists i. split; [lia|]. split; [unfold i, f; destruct (Z.ltb_spec fix_ 0); lia|].
  set (vec := lstsq A b) in *.
  split; [rewrite app_length; cbn [length]; rewrite firstn_length, skipn_length; lia|].
  split; [rewrite app_nth2 by (rewrite firstn_length; lia); rewrite firstn_length;
          replace (i - Nat.min i (length vec))%nat with 0%nat by lia; reflexivity|].
  intros (y & Hyl & Hyi & Hy) row Hin.
  rewrite (dot_insert row vec n i) by (auto; lia).
  set (y' := firstn i y ++ skipn (i + 1) y).
  assert (Hy'l : length y' = n) by (unfold y'; rewrite app_length, firstn_length, skipn_length; lia).
  assert (Ey : y = firstn i y' ++ 1 :: skipn i y').
  { apply (list_ext _ _ 0); [rewrite app_length; cbn [length]; rewrite firstn_length, skipn_length; lia|].
    intros j Hj. unfold y'.
    assert (Hf : length (firstn i (firstn i y ++ skipn (i + 1) y)) = i).
    { rewrite firstn_length, app_length, firstn_length, skipn_length. lia. }
    destruct (Nat.lt_trichotomy j i) as [H|[H|H]].
    - rewrite app_nth1 by lia. rewrite nth_firstn' by lia.
      rewrite app_nth1 by (rewrite firstn_length; lia). now rewrite nth_firstn' by lia.
    - subst j. rewrite app_nth2 by lia. rewrite Hf, Nat.sub_diag. exact Hyi.
    - rewrite app_nth2 by lia. rewrite Hf. replace (j - i)%nat with (S (j - i - 1)) by lia. cbn [nth].
      rewrite nth_skipn'. rewrite app_nth2 by (rewrite firstn_length; lia). rewrite firstn_length, nth_skipn'.
      f_equal. lia. }
  assert (Hsy : matvec A y' = b).
  { unfold A, b, matvec. rewrite map_map. apply map_ext_in. intros r Hr.
    assert (E := Hy r Hr). rewrite Ey in E. rewrite (dot_insert r y' n i) in E by (auto; lia).
    transitivity (nth i r 0 + dot (firstn i r ++ skipn (i + 1) r) y' - nth i r 0); [ring|]. rewrite E. ring. }
  assert (E := Hs y' Hy'l Hsy). unfold A, b, matvec in E. rewrite map_map in E.
  assert (E2 : forall r, In r mat -> dot (firstn i r ++ skipn (i + 1) r) vec = - nth i r 0).
  { intros r Hr. destruct (In_nth mat r [] Hr) as (k & Hk & <-).
    assert (E3 : nth k (map (fun x => dot (firstn i x ++ skipn (i + 1) x) vec) mat) 0
                 = nth k (map (fun row0 => - nth i row0 0) mat) 0) by (rewrite <- E; reflexivity).
    rewrite !(nth_map_in _ _ _ _ []) in E3 by lia. exact E3. }
  rewrite E2 by exact Hin. ring.
Qed.

Theorem pade_lstsq_ok an num den fix_q p q : (0 < den)%nat ->
  pade_lstsq lstsq an num den fix_q = Ok (p, q) ->
  length p = S num /\ length q = S den /\ nth 0 q 0 = 1 /\
  ((exists p' q', length p' = S num /\ length q' = S den /\ nth 0 q' 0 = 1 /\ accurate p' q' an (length an)) ->
   accurate p q an (length an)).
Proof.
  intros Hd. unfold pade_lstsq. destruct (Nat.ltb_spec (length an) (num + den + 1)) as [?|HL]; [discriminate|].
  rewrite (proj2 (Nat.eqb_neq den 0)) by lia.
  set (top := pade_top an num den). set (A := toeplitz (skipn (num + 1) an) top).
  assert (Ht : length top = S den) by (apply pade_top_length; lia).
  assert (HA : length A = (length an - (num + 1))%nat) by (unfold A; rewrite toeplitz_length, skipn_length; lia).
  assert (HAr : forall i, (i < length an - (num + 1))%nat -> nth i A [] = crow K (ser_of an) (num + 1 + i) (S den)).
  { intros i Hi. unfold A, top. apply pade_rows; lia. }
  destruct (nullvec_lst lstsq A (length top) 0%Z) as [v|e] eqn:E; [|discriminate]. cbn [bind].
  destruct (Nat.eqb_spec (length v) (den + 1)) as [Hv|?]; [|discriminate]. cbn [negb]. intros [= <- <-].
  destruct (nullvec_lst_ok A (length top) 0%Z v) as (i & Hi & Hi2 & Hvl & Hv1 & Hv0); auto; try lia.
  { intros HE. rewrite HE in HA. cbn in HA. lia. }
  { intros row Hin. destruct (In_nth A row [] Hin) as (k & Hk & <-). rewrite HAr by lia.
    rewrite crow_length. lia. }
  assert (i = 0%nat) by lia. subst i.
  destruct (numer_coeffs K an num den v ltac:(lia) ltac:(lia)) as [Hpl Hpk].
  split; [exact Hpl|]. split; [lia|]. split; [exact Hv1|].
  intros (p' & q' & Hp' & Hq' & H1 & Hacc).
  apply null_accurate; [lia|lia|]. intros k Hk. rewrite <- HAr by lia. apply Hv0; [|apply nth_In; lia].
  exists q'. split; [lia|]. split; [exact H1|]. intros row Hin.
  destruct (In_nth A row [] Hin) as (j & Hj & <-). rewrite HAr by lia. rewrite dot_crow by exact Hq'.
  rewrite (Hacc (ser_of an)); [|intros t Ht'; reflexivity|lia]. unfold ser_of. apply nth_overflow. lia.
Qed.

Theorem hermite2_lstsq_ok svd_fix an pd qd rd fix_qr p q r :
  hermite2_lstsq lstsq svd_fix an pd qd rd fix_qr = Ok (p, q, r) ->
  length p = S pd /\ length q = S qd /\ length r = S rd /\ (nonzero q \/ nonzero r) /\
  (forall i, fix_qr = Some (Z.of_nat i) -> nonzero an ->
     nth i (q ++ r) 0 = 1 /\
     ((exists p' q' r', length p' = S pd /\ length q' = S qd /\ length r' = S rd /\
         nth i (q' ++ r') 0 = 1 /\ accurate2 p' q' r' an (length an)) ->
       accurate2 p q r an (length an))) /\
  (~ nonzero an -> accurate2 p q r an (length an)).
Proof.
  unfold hermite2_lstsq. destruct (Nat.ltb_spec (length an) (rd + qd + pd + 2)) as [?|HL]; [discriminate|].
  destruct (forallb (fun a => feqb a 0) an) eqn:Ez.
  - intros [= <- <- <-]. rewrite !repeat_length. cbn [length]. rewrite repeat_length.
    assert (Hz : forall i, nth i an 0 = 0).
    { intros i. destruct (Nat.ltb_spec i (length an)) as [H|H]; [|apply nth_overflow; lia].
      rewrite forallb_forall in Ez. specialize (Ez (nth i an 0) (nth_In _ _ H)). unfold feqb in Ez.
      destruct (Feq_dec (nth i an 0) 0); [assumption|discriminate]. }
    repeat split; try lia.
    + right. exists 1. split; [now left|apply F1_neq_0].
    + exfalso. destruct H0 as (c & Hin & Hc). destruct (In_nth an c 0 Hin) as (k & _ & <-). auto.
    + exfalso. destruct H0 as (c & Hin & Hc). destruct (In_nth an c 0 Hin) as (k & _ & <-). auto.
    + intros _ f Hf k Hk.
      assert (Hrep : forall n k, ser_of (repeat (0 : K) n) k = 0).
      { intros n j. unfold ser_of. destruct (Nat.ltb_spec j n); [apply nth_repeat|].
        apply nth_overflow. rewrite repeat_length. lia. }
      rewrite Hrep. unfold ser_mul. rewrite nsum_0'; [|intros j _; rewrite Hrep; ring].
      rewrite nsum_0'; [ring|]. intros j Hj. rewrite nsum_0'; [ring|]. intros t Ht.
      rewrite (Hf t) by lia. rewrite Hz. ring.
  - fold (hlower K an pd qd rd). fold (hupper K an pd qd rd).
    destruct (herm_rows K an pd qd rd ltac:(lia)) as (Hll & Hlr & Hul & Hur).
    set (A := hlower K an pd qd rd) in *.
    set (fx := match fix_qr with None => Z.of_nat (svd_fix A) | Some f => f end).
    destruct (nullvec_lst lstsq A (qd + 1 + (rd + 1)) fx) as [v|e] eqn:E; [|discriminate]. cbn [bind].
    destruct (Nat.eqb_spec (length v) (rd + qd + 2)) as [Hv|?]; [|discriminate]. cbn [negb]. intros [= <- <- <-].
    destruct (nullvec_lst_ok A (qd + 1 + (rd + 1)) fx v) as (i & Hi & Hi2 & Hvl & Hv1 & Hv0); auto; try lia.
    { intros HE. rewrite HE in Hll. cbn in Hll. lia. }
    { intros row Hin. destruct (In_nth A row [] Hin) as (k & Hk & <-). rewrite Hlr by lia.
      unfold hrow. rewrite app_length, !crow_length. lia. }
    split; [unfold matvec; now rewrite !map_length|]. split; [rewrite firstn_length; lia|].
    split; [rewrite skipn_length; lia|].
    assert (Hnz : nonzero v).
    { exists 1. split; [rewrite <- Hv1; apply nth_In; lia|apply F1_neq_0]. }
    split.
    { destruct Hnz as (c & Hin & Hc). rewrite <- (firstn_skipn (qd + 1) v) in Hin. apply in_app_or in Hin.
      destruct Hin; [left|right]; exists c; auto. }
    split.
    + intros i0 Hfix _. unfold fx in *. rewrite Hfix in *. cbn in Hi2.
      assert (i = i0) by lia. subst i0. rewrite firstn_skipn. split; [exact Hv1|].
      intros (p' & q' & r' & Hp' & Hq' & Hr' & H1 & Hacc).
      apply herm_accurate; [lia|lia|]. apply Hv0. exists (q' ++ r').
      split; [rewrite app_length; lia|]. split; [exact H1|]. intros row Hin.
      destruct (In_nth A row [] Hin) as (k & Hk & <-). rewrite Hlr by lia.
      rewrite dot_hrow by (rewrite app_length; lia).
      rewrite firstn_app, firstn_all2 by lia. replace (qd + 1 - length q')%nat with 0%nat by lia.
      cbn [firstn]. rewrite app_nil_r. rewrite skipn_app, skipn_all2 by lia.
      replace (qd + 1 - length q')%nat with 0%nat by lia. cbn [skipn app].
      assert (E2 := Hacc (ser_of an) (fun t _ => eq_refl) (pd + 1 + k)%nat ltac:(lia)).
      unfold ser_of in E2 at 1. rewrite (nth_overflow p') in E2 by lia. rewrite <- E2. ring.
    + intros Hz. exfalso. apply Hz. clear -Ez. induction an as [|x l IH]; [discriminate|]. cbn in Ez.
      unfold feqb in Ez at 1. destruct (Feq_dec x 0) as [->|Hx].
      * destruct (IH Ez) as (c & Hin & Hc). exists c. split; [now right|exact Hc].
      * exists x. split; [now left|exact Hx].
Qed.
End Lst.

(** ** pader *)
Lemma argmax_nonzero_ok (l : list K) t : argmax_nonzero l = Ok t ->
  (forall i, (i < t)%nat -> nth i l 0 = 0) /\ (nonzero l -> (t < length l)%nat /\ nth t l 0 <> 0).
Proof.
  intros H0. assert (H : Ok (match find (fun i => negb (feqb (nth i l 0) 0)) (seq 0 (length l)) with Some i => i | None => 0%nat end) = Ok t).
  { unfold argmax_nonzero in H0. destruct l as [|x l]; [discriminate|exact H0]. }
  injection H as <-. clear H0. rename l into l'.
  destruct (find _ _) as [i|] eqn:E.
  - assert (H := find_some _ _ E). destruct H as [Hin Hb]. apply in_seq in Hin.
    unfold feqb in Hb.
    match type of Hb with context [Feq_dec ?u ?w] => destruct (Feq_dec u w) as [|Hb'] end; [discriminate Hb|].
    split; [|intros _; split; [lia|exact Hb']].
    intros j Hj.
    assert (G : forall n s, find (fun i => negb (feqb (nth i l' 0) 0)) (seq s n) = Some i ->
              forall j, (s <= j < i)%nat -> nth j l' 0 = 0).
    { clear. induction n as [|n IH]; intros s; cbn [seq find]; [discriminate|].
      destruct (feqb (nth s l' 0) 0) eqn:Eb; cbn [negb].
      - intros H j Hj. destruct (Nat.eq_dec j s) as [->|]; [|apply (IH (S s)); auto; lia].
        unfold feqb in Eb. destruct (Feq_dec (nth s l' 0) 0); [assumption|discriminate].
      - intros [= <-] j Hj. lia. }
    apply (G _ _ E). lia.
  - split; [intros; lia|]. intros (c & Hin & Hc). exfalso.
    destruct (In_nth l' c 0 Hin) as (k & Hk & <-).
    assert (H := find_none _ _ E k). rewrite in_seq in H. specialize (H ltac:(lia)).
    unfold feqb in H. cbv beta in H.
    match type of H with context [Feq_dec ?u ?w] => destruct (Feq_dec u w) end; [contradiction|discriminate H].
Qed.

Lemma ser_of_trim (l : list K) t : (forall i, (i < t)%nat -> nth i (rev l) 0 = 0) ->
  forall k, ser_of (if (t =? 0)%nat then l else firstn (length l - t) l) k = ser_of l k.
Proof.
  intros H k. destruct (Nat.eqb_spec t 0) as [|Ht]; [reflexivity|]. unfold ser_of.
  destruct (Nat.ltb_spec k (length l - t)) as [Hk|Hk]; [now apply nth_firstn'|].
  rewrite nth_overflow by (rewrite firstn_length; lia).
  destruct (Nat.ltb_spec k (length l)) as [Hk2|Hk2]; [|now rewrite nth_overflow by lia].
  specialize (H (length l - S k)%nat ltac:(lia)). rewrite rev_nth in H by lia.
  replace (length l - S (length l - S k))%nat with k in H by lia. auto.
Qed.
Lemma trim_length (l : list K) t : (length (if (t =? 0)%nat then l else firstn (length l - t) l) <= length l)%nat.
Proof. destruct (t =? 0)%nat; [lia|]. rewrite firstn_length. lia. Qed.

Lemma strip_ok an p q p' q' N : (N <= length an)%nat -> nonzero q -> accurate p q an N ->
  strip_coeffs p q = Ok (p', q') ->
  exists lam, (lam + length q' <= length q)%nat /\ (length p' <= length p)%nat /\
    nth 0 q' 0 <> 0 /\ accurate p' q' an (N - lam).
Proof.
  intros HN Hnz Hacc. unfold strip_coeffs.
  destruct (argmax_nonzero q) as [lam|] eqn:E1; [|discriminate]. cbn [bind].
  destruct (argmax_nonzero (rev (skipn lam q))) as [tq|] eqn:E2; [|discriminate]. cbn [bind].
  destruct (argmax_nonzero (rev (skipn lam p))) as [tp|] eqn:E3; [|discriminate]. cbn [bind].
  intros [= <- <-]. destruct (argmax_nonzero_ok _ _ E1) as [A1 B1].
  destruct (argmax_nonzero_ok _ _ E2) as [A2 _]. destruct (argmax_nonzero_ok _ _ E3) as [A3 _].
  destruct (B1 Hnz) as [Hlam Hq0].
  assert (Sq := ser_of_trim (skipn lam q) tq A2). assert (Sp := ser_of_trim (skipn lam p) tp A3).
  assert (Lq := trim_length (skipn lam q) tq). assert (Lp := trim_length (skipn lam p) tp).
  set (q1 := if (tq =? 0)%nat then _ else _) in *. set (p1 := if (tp =? 0)%nat then _ else _) in *.
  rewrite skipn_length in Lq, Lp.
  exists lam. split; [lia|]. split; [lia|]. split.
  { change (ser_of q1 0 <> 0). rewrite Sq. unfold ser_of. rewrite nth_skipn', Nat.add_0_r. exact Hq0. }
  intros f Hf k Hk. rewrite Sp. unfold ser_of at 2. rewrite nth_skipn'.
  change (nth (lam + k) p 0) with (ser_of p (lam + k)). rewrite <- (Hacc f Hf) by lia.
  unfold ser_mul. replace (S (lam + k)) with (lam + S k)%nat by lia. rewrite nsum_split.
  rewrite (nsum_0' K lam). 2:{ intros i Hi. unfold ser_of. rewrite A1 by lia. ring. }
  transitivity (nsum (S k) (fun i => ser_of q (lam + i) * f (lam + k - (lam + i))%nat)); [|ring].
  apply nsum_ext. intros i Hi. rewrite Sq. unfold ser_of. rewrite nth_skipn'.
  replace (lam + k - (lam + i))%nat with (k - i)%nat by lia. reflexivity.
Qed.

Section Pader.
Variable nullvec : list (list K) -> list K.
Variable small : list K -> K -> bool.
Variable rank : list (list K) -> nat.
Hypothesis Hnull : nullvec_ok nullvec.

(** The Toeplitz block whose rank is determined. *)
Definition tblock an num den : list (list K) := map (fun i => crow K (ser_of an) (num + 1 + i) (S den)) (seq 0 den).

Lemma pader_block (a : list K) num den den0 : (num + den + 1 <= length a)%nat -> (den <= den0)%nat ->
  firstn den (skipn (num + 1) (toeplitz (firstn (num + den + 1) a) (firstn (den + 1) (nth 0 a 0 :: repeat 0 den0))))
  = tblock a num den.
Proof.
  intros HL Hd.
  set (T := toeplitz _ _).
  assert (HT : length T = (num + den + 1)%nat) by (unfold T; rewrite toeplitz_length, firstn_length; lia).
  apply (list_ext _ _ []).
  { unfold tblock. rewrite firstn_length, skipn_length, map_length, seq_length. lia. }
  intros i Hi. rewrite firstn_length, skipn_length in Hi.
  rewrite nth_firstn' by lia. rewrite nth_skipn'. unfold tblock. rewrite nth_map_seq by lia.
  unfold T. rewrite toeplitz_row by (rewrite firstn_length; lia).
  rewrite firstn_length. cbn [length]. rewrite repeat_length. replace (Nat.min (den + 1) (S den0)) with (S den) by lia.
  unfold crow. apply map_ext_in. intros j Hj. apply in_seq in Hj. unfold ser_of.
  destruct (Nat.leb_spec j (num + 1 + i)); [apply nth_firstn'; lia|].
  rewrite nth_firstn' by lia. replace (j - (num + 1 + i))%nat with (S (j - (num + 1 + i) - 1)) by lia. cbn [nth].
  destruct (Nat.ltb_spec (j - (num + 1 + i) - 1) den0); [apply nth_repeat|].
  apply nth_overflow. rewrite repeat_length. lia.
Qed.

Lemma pader_loop_ok fuel : forall (a0 : list K) den0 num den p q,
  (0 <= num)%Z -> (Z.to_nat num + den + 1 <= length a0)%nat -> (den <= den0)%nat ->
  pader_loop nullvec rank fuel a0 (firstn (Z.to_nat num + den + 1) a0) (nth 0 a0 0 :: repeat 0 den0) num den = Ok (p, q) ->
  p <> [] ->
  exists del, (del <= den)%nat /\ (del <= Z.to_nat num)%nat /\
    (rank (tblock a0 (Z.to_nat num) den) = den -> del = 0%nat) /\
    length p = S (Z.to_nat num - del) /\ length q = S (den - del) /\ nonzero q /\
    accurate p q a0 (Z.to_nat num + den + 1 - 2 * del).
Proof.
  induction fuel as [|fuel IH]; intros a0 den0 num den p q Hn HL Hd; cbn [pader_loop]; [discriminate|].
  destruct (Nat.eqb_spec den 0) as [->|Hden].
  { intros [= <- <-] H. exfalso. now apply H. }
  destruct (Z.ltb_spec num 0); [lia|]. set (n := Z.to_nat num) in *.
  rewrite pader_block by lia.
  destruct (Nat.ltb_spec (rank (tblock a0 n den)) den) as [Hr|Hr].
  - set (rho := rank (tblock a0 n den)) in *. set (num' := (num - (Z.of_nat den - Z.of_nat rho))%Z).
    intros E Hp. destruct (Z.ltb_spec num' 0) as [Hneg|Hpos].
    { exfalso. destruct fuel; [discriminate|]. cbn [pader_loop] in E.
      destruct (Nat.eqb_spec rho 0).
      - rewrite e in E. cbn [firstn] in E. injection E as <- <-. now apply Hp.
      - rewrite (proj2 (Z.ltb_lt _ _) Hneg) in E. discriminate. }
    rewrite firstn_firstn in E.
    replace (Nat.min (Z.to_nat (num' + Z.of_nat rho + 1)) (n + den + 1)) with (Z.to_nat num' + rho + 1)%nat in E by lia.
    destruct (IH a0 den0 num' rho p q Hpos ltac:(lia) ltac:(lia) E Hp) as (d & D1 & D2 & _ & D4 & D5 & D6 & D7).
    exists (den - rho + d)%nat. split; [lia|]. split; [lia|]. split; [lia|]. split; [lia|]. split; [lia|].
    split; [exact D6|]. replace (n + den + 1 - 2 * (den - rho + d))%nat with (Z.to_nat num' + rho + 1 - 2 * d)%nat by lia.
    exact D7.
  - set (A := tblock a0 n den).
    destruct (Nat.eqb_spec (length (nullvec A)) (den + 1)) as [Hl|?]; [|discriminate]. cbn [negb].
    intros [= <- <-] _. set (a := firstn (n + den + 1) a0).
    assert (Ha : length a = (n + den + 1)%nat) by (unfold a; rewrite firstn_length; lia).
    assert (HA : length A = den) by (unfold A, tblock; now rewrite map_length, seq_length).
    assert (HAr : forall i, (i < den)%nat -> nth i A [] = crow K (ser_of a) (n + 1 + i) (S den)).
    { intros i Hi. unfold A, tblock. rewrite nth_map_seq by lia. apply crow_ext. intros j Hj. unfold ser_of, a.
      now rewrite nth_firstn' by lia. }
    destruct (Hnull A den HA) as (N1 & N2 & N3); [|lia|].
    { intros row Hin. destruct (In_nth A row [] Hin) as (i & Hi & <-). rewrite HAr by lia. apply crow_length. }
    destruct (numer_coeffs K a n den (nullvec A) ltac:(lia) N1) as [Hpl _].
    exists 0%nat. split; [lia|]. split; [lia|]. split; [reflexivity|]. split; [lia|]. split; [lia|].
    split; [exact N3|]. intros f Hf k Hk.
    apply (null_accurate K a (nullvec A) n den); [lia|exact N1| | |lia].
    + intros i Hi. rewrite <- HAr by lia. apply N2, nth_In. lia.
    + intros i Hi. rewrite Hf by lia. unfold a. now rewrite nth_firstn' by lia.
Qed.

Theorem pader_accurate an num den p q :
  existsb (fun x => negb (small (firstn (num + den + 1) an) x)) (firstn num an) = true ->
  pader nullvec small rank an num den = Ok (p, q) ->
  exists del lam,
    (length p + del <= S num)%nat /\ (length q + del + lam <= S den)%nat /\ nth 0 q 0 <> 0 /\
    (rank (tblock (firstn (num + den + 1) an) num den) = den -> del = 0%nat) /\
    accurate p q an (num + den + 1 - 2 * del - lam).
Proof.
  intros Hsm. unfold pader. destruct (Nat.ltb_spec (length an) (num + den + 1)) as [?|HL]; [discriminate|].
  set (a := firstn (num + den + 1) an) in *.
  assert (Ha : length a = (num + den + 1)%nat) by (unfold a; rewrite firstn_length; lia).
  replace (forallb (small a) (firstn num a)) with false.
  2:{ symmetry. apply not_true_is_false. intros Hf. rewrite forallb_forall in Hf. apply existsb_exists in Hsm.
      destruct Hsm as (x & Hin & Hx). rewrite Hf in Hx; [discriminate|]. unfold a. rewrite firstn_firstn.
      now replace (Nat.min num (num + den + 1)) with num by lia. }
  destruct (pader_loop _ _ _ _ _ _ _ _) as [[p0 q0]|] eqn:E; [|discriminate]. cbn [bind fst snd]. intros Es.
  assert (Hp0 : p0 <> []).
  { intros ->. unfold strip_coeffs in Es. destruct (argmax_nonzero q0) as [l|]; [|discriminate].
    cbn [bind] in Es. rewrite skipn_nil in Es. cbn [rev] in Es.
    destruct (argmax_nonzero (rev (skipn l q0))); discriminate. }
  assert (E' : pader_loop nullvec rank (S den) a (firstn (Z.to_nat (Z.of_nat num) + den + 1) a) (nth 0 a 0 :: repeat 0 den) (Z.of_nat num) den = Ok (p0, q0)).
  { rewrite Nat2Z.id. rewrite firstn_all2 by lia. exact E. }
  destruct (pader_loop_ok (S den) a den (Z.of_nat num) den p0 q0 ltac:(lia) ltac:(lia) ltac:(lia) E' Hp0) as (d & D1 & D2 & D3 & D4 & D5 & D6 & D7).
  rewrite Nat2Z.id in *.
  destruct (strip_ok a p0 q0 p q (num + den + 1 - 2 * d) ltac:(lia) D6 D7 Es) as (lam & S1 & S2 & S3 & S4).
  exists d, lam. split; [lia|]. split; [lia|]. split; [exact S3|]. split; [exact D3|].
  intros f Hf. apply S4. intros i Hi. rewrite Hf by lia. unfold a. now rewrite nth_firstn' by lia.
Qed.

(** A polynomial request always fails or returns 0. *)
Theorem pader_den0 an num : (num + 1 <= length an)%nat ->
  pader nullvec small rank an num 0 = Ok ([0], [1]) \/ pader nullvec small rank an num 0 = Err ValueError.
Proof.
  intros HL. unfold pader. rewrite (proj2 (Nat.ltb_ge (length an) (num + 0 + 1)) ltac:(lia)).
  destruct (forallb _ _); [now left|right]. cbn [pader_loop Nat.eqb firstn bind fst snd].
  unfold strip_coeffs, argmax_nonzero. cbn [find seq length nth].
  assert (E : feqb (1 : K) 0 = false) by (unfold feqb; destruct (Feq_dec 1 0) as [e|]; [now destruct (F1_neq_0 K)|reflexivity]).
  rewrite E. cbn [negb bind skipn rev app find seq length nth]. rewrite ?E. reflexivity.
Qed.
End Pader.
End P.
