(** * Proofs about Padé averaging and filters. *)
From Coq Require Import List Arith ZArith QArith Qround Lia Bool Field Permutation Sorted.
From Verif Require Import Base FSum Pade_Model Pade_Spec Pade_Proofs PadeAvg_Model PadeKind_Proofs PadeAvg_Spec.
Import ListNotations.

(** ** averaged: how many approximants *)
Section Avg.
Variable K : Fld.
Add Field KF3 : (Fth K).
Local Open Scope fld_scope.

Lemma averaged_pades_length k (z : K) zin f pades :
  good_kind k -> averaged_pades z zin f k = Ok pades ->
  (k_stop k <= Z.of_nat (length zin))%Z ->
  Z.of_nat (length pades) = ((k_stop k - k_start k) / 2)%Z /\
  kind_len k = ((k_stop k - k_start k + 1) / 2)%Z.
Proof.
  intros Hg H Hl. unfold averaged_pades in H.
  destruct (coefficients _ _) as [c|] eqn:Ec; [|discriminate]. cbn [bind] in H.
  destruct (calc_iterator _ _ _) as [it|] eqn:Ei; [|discriminate]. injection H as <-.
  destruct (calc_iterator_length _ _ _ _ _ Ei) as (L1 & L2 & _).
  rewrite islice_length by exact Hg. rewrite kind_len_spec by exact Hg. unfold half_up.
  rewrite firstn_length in L2. destruct Hg as (G0 & G1 & G2).
  rewrite <- L2 in L1. split; [|f_equal; lia].
  assert (Z.of_nat (length it) = k_stop k - 1)%Z by lia.
  rewrite H, Z.min_r by lia.
  assert (k_stop k - 1 - k_start k + 1 = k_stop k - k_start k)%Z by lia.
  rewrite H0. assert (0 <= (k_stop k - k_start k) / 2)%Z by (apply Z.div_pos; lia). lia.
Qed.

Theorem averaged_count_iff k (z : K) zin f pades :
  good_kind k -> averaged_pades z zin f k = Ok pades ->
  (k_stop k <= Z.of_nat (length zin))%Z ->
  (Z.of_nat (length pades) = kind_len k <-> Z.even (k_stop k - k_start k) = true) /\
  (length pades <> 0%nat <-> (k_start k + 2 <= k_stop k)%Z).
Proof.
  intros Hg H Hl. destruct (averaged_pades_length _ _ _ _ _ Hg H Hl) as (E1 & E2).
  destruct Hg as (G0 & G1 & G2). rewrite Zeven_mod.
  set (d := (k_stop k - k_start k)%Z) in *.
  assert (Hd : (0 < d)%Z) by (unfold d; lia).
  split.
  - rewrite E1, E2. rewrite <- Zeq_is_eq_bool.
    pose proof (Z.div_mod d 2 ltac:(lia)). pose proof (Z.mod_pos_bound d 2 ltac:(lia)).
    pose proof (Z.div_mod (d+1) 2 ltac:(lia)). pose proof (Z.mod_pos_bound (d+1) 2 ltac:(lia)). lia.
  - assert ((k_start k + 2 <= k_stop k)%Z <-> (2 <= d)%Z) by (unfold d; lia). rewrite H0.
    pose proof (Z.div_mod d 2 ltac:(lia)). pose proof (Z.mod_pos_bound d 2 ltac:(lia)). lia.
Qed.

(** ** Averager *)
Lemma finites_map_Some (l : list K) : finites (map Some l) = l.
Proof. induction l as [|x l IH]; [reflexivity|]. cbn. unfold finites in IH. now rewrite IH. Qed.
Lemma no_none (l : list K) : existsb is_none (map Some l) = false.
Proof. induction l; auto. Qed.

Lemma kept_map_Some (valid : list bool) (ps : list K) :
  map fst (filter snd (combine (map Some ps) valid)) = map Some (map fst (filter snd (combine ps valid))).
Proof.
  revert valid. induction ps as [|p ps IH]; intros [|v valid]; auto.
  cbn [map combine filter snd]. destruct v; cbn [map fst]; now rewrite IH.
Qed.

Lemma kept_sum (ps : list K) : forall valid,
  lsum (map fst (filter snd (combine ps valid))) = valid_sum valid ps.
Proof.
  unfold valid_sum. induction ps as [|p ps IH]; intros [|v valid]; try reflexivity.
  cbn [length Nat.min]. rewrite nsum_S_l. cbn [nth combine filter snd].
  rewrite <- IH. destruct v; cbn [map fst lsum fold_right]; unfold lsum; ring.
Qed.
Lemma kept_count ps : forall valid,
  length (map fst (filter snd (combine ps valid))) = valid_count valid (@length K ps).
Proof.
  unfold valid_count. induction ps as [|p ps IH]; intros [|v valid]; try reflexivity.
  cbn [length firstn combine filter snd]. destruct v; cbn [map length]; now rewrite IH.
Qed.

Theorem average_1d_mean valid (ps : list K) (Hchar : forall n, fnat (S n) <> (0 : K)) :
  average_1d valid (map Some ps)
  = if existsb (fun b => b) valid
    then match valid_count valid (length ps) with
         | O => Err NonFinite
         | S n => Ok (valid_sum valid ps / fnat (S n))
         end
    else Err RuntimeError.
Proof.
  unfold average_1d. destruct (existsb (fun b => b) valid); [|reflexivity]. cbn [negb].
  rewrite kept_map_Some, no_none, finites_map_Some. unfold mean, fdiv.
  rewrite kept_sum, kept_count. destruct (valid_count valid (length ps)) as [|n].
  - destruct (Feq_dec (fnat 0) 0); [reflexivity|]. exfalso; apply n; reflexivity.
  - destruct (Feq_dec (fnat (S n)) 0) as [E|E]; [exfalso; now apply (Hchar n)|reflexivity].
Qed.

(** Only entries at valid positions matter, finite or not. *)
Theorem average_1d_only_valid valid (p p' : list (ext K)) :
  length p = length p' ->
  (forall i, nth i valid false = true -> nth_error p i = nth_error p' i) ->
  average_1d valid p = average_1d valid p'.
Proof.
  intros Hl H. unfold average_1d.
  assert (E : map fst (filter snd (combine p valid)) = map fst (filter snd (combine p' valid))).
  { revert valid p' Hl H. induction p as [|x p IH]; intros [|v valid] [|y p'] Hl H; try discriminate; auto.
    cbn [combine filter snd]. injection Hl as Hl.
    assert (IH' := IH valid p' Hl (fun i Hi => H (S i) Hi)).
    destruct v; cbn [map fst]; [|exact IH'].
    specialize (H 0%nat eq_refl). injection H as ->. now rewrite IH'. }
  now rewrite E.
Qed.

Theorem average_nd_mean (cols : list (list bool * list K)) (Hchar : forall n, fnat (S n) <> (0 : K)) :
  Forall (fun c => length (fst c) = length (snd c)) cols ->
  average_nd (map (fun c => (fst c, map Some (snd c))) cols)
  = if forallb (fun c => existsb (fun b => b) (fst c)) cols
    then Ok (map (fun c => valid_sum (fst c) (snd c) / fnat (valid_count (fst c) (length (snd c)))) cols)
    else Err RuntimeError.
Proof.
  intros Hl. unfold average_nd. unfold ext.
  assert (E1 : existsb (fun c => negb (existsb (fun b => b) (fst c)))
                       (map (fun c => (fst c, map Some (snd c))) cols)
               = negb (forallb (fun c : list bool * list K => existsb (fun b => b) (fst c)) cols)).
  { clear Hl. induction cols as [|c cols IH]; [reflexivity|]. cbn [map existsb forallb fst]. rewrite IH.
    now rewrite negb_andb. }
  rewrite E1. destruct (forallb _ cols) eqn:EF; [|reflexivity]. cbn [negb].
  assert (E2 : existsb (fun c : list bool * list (option K) => existsb is_none (snd c))
                       (map (fun c => (fst c, map Some (snd c))) cols) = false).
  { clear. induction cols as [|c cols IH]; [reflexivity|]. cbn [map existsb snd]. now rewrite no_none. }
  match goal with |- (if ?b then _ else _) = _ => replace b with false by (symmetry; exact E2) end.
  assert (E3 : existsb (fun c : list bool * list (option K) => negb (length (fst c) =? length (snd c))%nat)
                       (map (fun c => (fst c, map Some (snd c))) cols) = false).
  { clear - Hl. induction cols as [|c cols IH]; [reflexivity|]. inversion Hl; subst. cbn [map existsb fst snd].
    rewrite map_length, H1, Nat.eqb_refl. cbn. now apply IH. }
  match goal with |- (if ?b then _ else _) = _ => replace b with false by (symmetry; exact E3) end. clear E1 E2 E3.
  induction cols as [|c cols IH]; [reflexivity|]. inversion Hl; subst.
  cbn [forallb] in EF. apply andb_true_iff in EF. destruct EF as [EFc EF].
  cbn [map fold_right]. rewrite IH by assumption. cbn [bind fst snd].
  rewrite kept_map_Some, finites_map_Some. unfold mean, fdiv. rewrite kept_sum, kept_count.
  assert (Hc : valid_count (fst c) (length (snd c)) <> 0%nat).
  { unfold valid_count. rewrite <- H1, firstn_all. intros E. apply length_zero_iff_nil in E.
    apply existsb_exists in EFc. destruct EFc as (b & Hin & Hb). subst b.
    assert (In true (filter (fun b => b) (fst c))) by (apply filter_In; auto). rewrite E in H. exact H. }
  destruct (valid_count (fst c) (length (snd c))) as [|n]; [contradiction|].
  destruct (Feq_dec (fnat (S n)) 0) as [E|E]; [exfalso; now apply (Hchar n)|reflexivity].
Qed.
End Avg.

(** ** Filters *)
Lemma Qltb_lt x y : Qltb x y = true <-> (x < y)%Q.
Proof.
  unfold Qltb. rewrite negb_true_iff. split; intros H.
  - apply Qnot_le_lt. intros L. apply Qle_bool_iff in L. congruence.
  - destruct (Qle_bool y x) eqn:E; [|reflexivity]. apply Qle_bool_iff in E. exfalso. now apply (Qlt_not_le x y).
Qed.

Theorem filter_neg_imag_spec th pades :
  length (filter_neg_imag th pades) = length pades /\
  forall i pade, nth_error pades i = Some pade ->
    (nth_error (filter_neg_imag th pades) i = Some true <-> forall v, In v pade -> (snd v < th)%Q).
Proof.
  unfold filter_neg_imag. split; [apply map_length|].
  intros i pade Hi. rewrite (map_nth_error _ _ _ Hi). split.
  - intros [= H] v Hv. rewrite forallb_forall in H. apply Qltb_lt. now apply H.
  - intros H. f_equal. apply forallb_forall. intros v Hv. apply Qltb_lt. now apply H.
Qed.

Lemma qmax_spec l m : qmax l = Some m -> In m l /\ forall x, In x l -> (x <= m)%Q.
Proof.
  revert m. induction l as [|x l IH]; intros m H; [discriminate|]. cbn [qmax] in H.
  destruct (qmax l) as [m'|] eqn:E.
  - destruct (IH m' eq_refl) as [Hin Hle]. destruct (Qle_bool x m') eqn:Eq; injection H as <-.
    + split; [now right|]. intros y [<-|Hy]; [now apply Qle_bool_iff|now apply Hle].
    + split; [now left|]. assert (Hlt : (m' < x)%Q).
      { apply Qnot_le_lt. intros L. apply Qle_bool_iff in L. congruence. }
      intros y [<-|Hy]; [apply Qle_refl|]. eapply Qle_trans; [apply Hle; exact Hy|]. now apply Qlt_le_weak.
  - injection H as <-. destruct l; [|cbn in E; destruct (qmax l); discriminate].
    split; [now left|]. intros y [<-|[]]. apply Qle_refl.
Qed.
Lemma qmax_some l : l <> [] -> exists m, qmax l = Some m.
Proof. destruct l as [|x l]; [congruence|]. intros _. cbn. destruct (qmax l); eauto. Qed.

Lemma map_result_ok {A B} (f : A -> result B) l :
  (forall x, In x l -> exists y, f x = Ok y) ->
  exists r, map_result f l = Ok r /\ length r = length l /\
    forall i x, nth_error l i = Some x -> exists y, nth_error r i = Some y /\ f x = Ok y.
Proof.
  induction l as [|x l IH]; intros H.
  - exists []. repeat split; auto. intros [|i] x; discriminate.
  - destruct (H x (or_introl eq_refl)) as [y Hy].
    destruct IH as (r & Hr & Hlr & Hn); [intros z Hz; apply H; now right|].
    exists (y :: r). cbn [map_result]. rewrite Hy, Hr. cbn [bind]. repeat split; [simpl; lia|].
    intros [|i] z Hz; cbn [nth_error] in *; [injection Hz as <-; eauto|auto].
Qed.

Lemma set_at_length idx v m : length (set_at idx v m) = length m.
Proof. unfold set_at. rewrite map_length, combine_length, seq_length. lia. Qed.
Lemma combine_seq_nth {A} (l : list A) s i x :
  nth_error l i = Some x -> nth_error (combine (seq s (length l)) l) i = Some ((s + i)%nat, x).
Proof.
  revert s i. induction l as [|y l IH]; intros s [|i] H; try discriminate; cbn in *.
  - injection H as ->. f_equal. f_equal. lia.
  - rewrite IH by exact H. f_equal. f_equal. lia.
Qed.
Lemma set_at_nth idx v m i b : nth_error m i = Some b ->
  nth_error (set_at idx v m) i = Some (if existsb (Nat.eqb i) idx then v else b).
Proof.
  intros H. unfold set_at. rewrite (map_nth_error _ i _ (combine_seq_nth m 0 i b H)). reflexivity.
Qed.
Lemma existsb_eqb i l : existsb (Nat.eqb i) l = true <-> In i l.
Proof.
  rewrite existsb_exists. split; [intros (x & Hx & E); apply Nat.eqb_eq in E; now subst|].
  intros H. exists i. split; [exact H|apply Nat.eqb_refl].
Qed.

Lemma nth_error_repeat {A} (x : A) n i : (i < n)%nat -> nth_error (repeat x n) i = Some x.
Proof. revert i. induction n as [|n IH]; intros [|i] H; try lia; cbn; auto. apply IH. lia. Qed.

(** counting true entries: at least as many as a duplicate-free list of true positions *)
Lemma count_true_ge (m : list bool) (idx : list nat) :
  NoDup idx -> (forall i, In i idx -> nth_error m i = Some true) -> (length idx <= count_true m)%nat.
Proof.
  intros Hd H. unfold count_true.
  set (pos := map fst (filter snd (combine (seq 0 (length m)) m))).
  assert (Hlen : length pos = length (filter (fun b => b) m)).
  { unfold pos. rewrite map_length. generalize 0%nat. clear. induction m as [|b m IH]; intros s; [reflexivity|].
    cbn [length seq combine filter snd]. destruct b; cbn [length]; now rewrite IH. }
  rewrite <- Hlen. apply NoDup_incl_length; [exact Hd|].
  intros i Hi. specialize (H i Hi). unfold pos. apply in_map_iff. exists (i, true). split; [reflexivity|].
  apply filter_In. split; [|reflexivity]. apply (nth_error_In _ i). apply (combine_seq_nth m 0 i true H).
Qed.

Lemma firstn_In_nth {A} (l : list A) n x : In x (firstn n l) -> exists a, (a < n)%nat /\ nth_error l a = Some x.
Proof.
  revert l. induction n as [|n IH]; intros [|y l] H; try (destruct H; fail).
  cbn in H. destruct H as [<-|H]; [exists 0%nat; split; [lia|reflexivity]|].
  destruct (IH l H) as (a & Ha & Hn). exists (S a). split; [lia|exact Hn].
Qed.
Lemma nth_firstn_In {A} (l : list A) n a x : (a < n)%nat -> nth_error l a = Some x -> In x (firstn n l).
Proof.
  revert n a. induction l as [|y l IH]; intros [|n] [|a] Ha H; try lia; try discriminate; cbn in *.
  - left. now injection H.
  - right. apply (IH n a); [lia|exact H].
Qed.

Lemma combine_nth_error {A B} (l : list A) : forall (l' : list B) i a b,
  nth_error l i = Some a -> nth_error l' i = Some b -> nth_error (combine l l') i = Some (a, b).
Proof.
  induction l as [|x l IH]; intros [|y l'] [|i] a b H1 H2; try discriminate; cbn in *.
  - injection H1 as ->. injection H2 as ->. reflexivity.
  - now apply IH.
Qed.

Section NegNum.
Variable argsort : list Q -> list nat.
Hypothesis Hsort : argsort_ok argsort.

Definition neg_num_badness (pades : list (list cQ)) : result (list Q) :=
  map_result (fun pade => match qmax (map snd pade) with Some m => Ok m | None => Err ValueError end) pades.

Lemma badness_ok pades : (forall p, In p pades -> p <> []) ->
  exists bd, neg_num_badness pades = Ok bd /\ length bd = length pades /\
    forall i p, nth_error pades i = Some p -> exists m, nth_error bd i = Some m /\ is_max_imag p m.
Proof.
  intros H. unfold neg_num_badness.
  destruct (map_result_ok (fun pade => match qmax (map snd pade) with Some m => Ok m | None => Err ValueError end) pades)
    as (bd & E & Hl & Hn).
  { intros p Hp. destruct (qmax_some (map snd p)) as [m Hm].
    { specialize (H p Hp). destruct p; [exfalso; now apply H|discriminate]. }
    exists m. now rewrite Hm. }
  exists bd. split; [exact E|]. split; [exact Hl|]. intros i p Hp.
  destruct (Hn i p Hp) as (m & Hm & Hq). exists m. split; [exact Hm|].
  destruct (qmax (map snd p)) as [m'|] eqn:Eq; [|discriminate]. injection Hq as ->.
  destruct (qmax_spec _ _ Eq) as [Hin Hle]. split.
  - apply in_map_iff in Hin. destruct Hin as (v & Hv & Hiv). exists v. auto.
  - intros v Hv. apply Hle. now apply in_map.
Qed.

Theorem filter_neg_imag_num_spec (n : nat) (pades : list (list cQ)) :
  (forall p, In p pades -> p <> []) ->
  exists mask, filter_neg_imag_num argsort (AbsNum (Z.of_nat n)) pades = Ok mask /\
    length mask = length pades /\
    (Nat.min n (length pades) <= count_true mask)%nat /\
    (forall i p m, nth_error pades i = Some p -> is_max_imag p m -> (m <= 0)%Q -> nth_error mask i = Some true) /\
    (forall i j p q mp mq, nth_error pades i = Some p -> nth_error pades j = Some q ->
       is_max_imag p mp -> is_max_imag q mq ->
       nth_error mask i = Some false -> nth_error mask j = Some true -> (0 < mq)%Q -> (mq <= mp)%Q).
Proof.
  intros Hne. destruct (badness_ok pades Hne) as (bd & Eb & Hlb & Hnb).
  assert (Huniq : forall p m m', is_max_imag p m -> is_max_imag p m' -> (m == m')%Q).
  { intros p m m' [(v & Hv & <-) H1] [(w & Hw & <-) H2]. apply Qle_antisym; auto. }
  unfold filter_neg_imag_num. fold (neg_num_badness pades). rewrite Eb. cbn [bind]. rewrite Hlb.
  destruct (Z.leb_spec (Z.of_nat (length pades)) (Z.of_nat n)) as [L|L].
  - exists (repeat true (length pades)). split; [reflexivity|]. split; [apply repeat_length|]. split.
    + unfold count_true. assert (E : forall k, filter (fun b => b) (repeat true k) = repeat true k).
      { induction k; cbn; congruence. } rewrite E, repeat_length. lia.
    + split.
      * intros i p m Hp _ _. apply nth_error_repeat. apply nth_error_Some. congruence.
      * intros i j p q mp mq Hp _ _ _ Hf. rewrite nth_error_repeat in Hf; [discriminate|].
        apply nth_error_Some. congruence.
  - destruct (Hsort bd) as [Hperm Hord].
    unfold py_take. destruct (Z.ltb_spec (Z.of_nat n) 0) as [?|_]; [lia|]. rewrite Nat2Z.id.
    set (keep := firstn n (argsort bd)).
    set (v1 := set_at keep true (repeat false (length pades))).
    set (mask := map (fun vb => (fst vb || Qle_bool (snd vb) 0)%bool) (combine v1 bd)).
    assert (Hv1 : length v1 = length pades) by (unfold v1; now rewrite set_at_length, repeat_length).
    assert (Hml : length mask = length pades).
    { unfold mask. rewrite map_length, combine_length, Hv1, Hlb. lia. }
    assert (Hmask : forall i m, nth_error bd i = Some m ->
              nth_error mask i = Some (existsb (Nat.eqb i) keep || Qle_bool m 0)%bool).
    { intros i m Hi.
      assert (Hi2 : (i < length pades)%nat) by (rewrite <- Hlb; apply nth_error_Some; congruence).
      assert (H1 : nth_error v1 i = Some (if existsb (Nat.eqb i) keep then true else false)).
      { unfold v1. apply set_at_nth. now apply nth_error_repeat. }
      unfold mask. rewrite (map_nth_error _ i (combine v1 bd) (d := (if existsb (Nat.eqb i) keep then true else false, m))).
      - cbn. now destruct (existsb (Nat.eqb i) keep).
      - now apply combine_nth_error. }
    assert (Hnd : NoDup (argsort bd)).
    { eapply Permutation_NoDup; [apply Permutation_sym; exact Hperm|apply seq_NoDup]. }
    assert (Hrange : forall i, In i (argsort bd) -> (i < length bd)%nat).
    { intros i Hi. apply (Permutation_in _ Hperm) in Hi. apply in_seq in Hi. lia. }
    assert (Hkl : length keep = n).
    { unfold keep. rewrite firstn_length. rewrite (Permutation_length Hperm), seq_length. lia. }
    assert (Hcount : (n <= count_true mask)%nat).
    { rewrite <- Hkl. apply count_true_ge.
      - unfold keep. rewrite <- (firstn_skipn n (argsort bd)) in Hnd. clear - Hnd.
        revert Hnd. generalize (firstn n (argsort bd)). intros l. induction l as [|x l IH]; intros H; [constructor|].
        inversion H; subst. constructor; [intros Hx; apply H2; apply in_or_app; now left|now apply IH].
      - intros i Hi. assert (Hi2 : (i < length bd)%nat).
        { apply Hrange. unfold keep in Hi. destruct (firstn_In_nth _ _ _ Hi) as (a & _ & Ha). eapply nth_error_In; eauto. }
        destruct (nth_error bd i) as [m|] eqn:Em; [|apply nth_error_None in Em; lia].
        rewrite (Hmask i m Em). f_equal. apply orb_true_iff. left. now apply existsb_eqb. }
    exists mask. fold (count_true mask).
    destruct (Z.ltb_spec (Z.of_nat (count_true mask)) (Z.of_nat n)) as [?|_]; [lia|].
    split; [reflexivity|]. split; [exact Hml|]. split; [lia|]. split.
    + intros i p m Hp Hm Hm0. destruct (Hnb i p Hp) as (m' & Hm' & Hmax).
      rewrite (Hmask i m' Hm'). f_equal. apply orb_true_iff. right. apply Qle_bool_iff.
      rewrite (Huniq p m' m Hmax Hm). exact Hm0.
    + intros i j p q mp mq Hp Hq Hmp Hmq Hfi Htj Hpos.
      destruct (Hnb i p Hp) as (bi & Hbi & Hmaxi). destruct (Hnb j q Hq) as (bj & Hbj & Hmaxj).
      rewrite (Hmask i bi Hbi) in Hfi. rewrite (Hmask j bj Hbj) in Htj.
      injection Hfi as Hfi. injection Htj as Htj.
      apply orb_false_iff in Hfi. destruct Hfi as [Hfi _]. apply orb_true_iff in Htj.
      destruct Htj as [Htj|Htj].
      2:{ apply Qle_bool_iff in Htj. rewrite (Huniq q bj mq Hmaxj Hmq) in Htj. exfalso. now apply (Qlt_not_le 0 mq). }
      apply existsb_eqb in Htj. destruct (firstn_In_nth _ _ _ Htj) as (a & Ha & Hna).
      assert (Hi : In i (argsort bd)).
      { apply (Permutation_in _ (Permutation_sym Hperm)). apply in_seq.
        assert (i < length bd)%nat by (apply nth_error_Some; congruence). lia. }
      apply In_nth_error in Hi. destruct Hi as [b Hb].
      assert (Hab : (n <= b)%nat).
      { destruct (Nat.le_gt_cases n b); [auto|]. exfalso.
        assert (In i keep) by (unfold keep; eapply nth_firstn_In; eauto).
        apply existsb_eqb in H0. congruence. }
      pose proof (Hord a b j i ltac:(lia) Hna Hb) as Hle.
      rewrite (nth_error_nth _ _ _ Hbj) in Hle. rewrite (nth_error_nth _ _ _ Hbi) in Hle.
      rewrite <- (Huniq q bj mq Hmaxj Hmq), <- (Huniq p bi mp Hmaxi Hmp). exact Hle.
Qed.

(** rel_num < 1 always ends in a TypeError for non-empty input *)
Theorem filter_neg_imag_num_rel (q : Q) (pades : list (list cQ)) :
  (forall p, In p pades -> p <> []) -> pades <> [] -> (q < 1)%Q ->
  filter_neg_imag_num argsort (RelNum q) pades = Err TypeError.
Proof.
  intros Hne Hp Hq. destruct (badness_ok pades Hne) as (bd & Eb & Hlb & _).
  unfold filter_neg_imag_num. fold (neg_num_badness pades). rewrite Eb. cbn [bind]. rewrite Hlb.
  destruct (Qle_bool _ _) eqn:E; [|reflexivity]. exfalso. apply Qle_bool_iff in E.
  set (N := inject_Z (Z.of_nat (length pades))) in *.
  assert (HN : (0 < N)%Q).
  { unfold N, Qlt, inject_Z. cbn. destruct pades; [congruence|]. cbn [length]. lia. }
  assert (q * N < 1 * N)%Q by (apply Qmult_lt_r; assumption).
  rewrite Qmult_1_l in H. now apply (Qlt_not_le (q * N) N).
Qed.

(** ** FilterHighVariance *)
Lemma hv_loop_spec steps : forall nn pade s bd bad r,
  hv_loop argsort steps nn pade s bd bad = Ok r ->
  match fst r with
  | None => steps = 0%nat /\ bd = None
  | Some b => (steps = 0%nat /\ bd = Some b) \/ (steps <> 0%nat /\ Permutation b (seq 0 (length pade)))
  end /\ (length (snd r) = length bad + steps)%nat.
Proof.
  induction steps as [|steps IH]; intros nn pade s bd bad r H.
  - injection H as <-. cbn. split; [|lia]. destruct bd; auto.
  - cbn [hv_loop] in H. destruct (filter _ _) as [|nb rest]; [discriminate|].
    apply IH in H. destruct H as [H1 H2]. rewrite app_length in H2. cbn in H2. split; [|lia].
    destruct (fst r) as [b|]; [|destruct H1; discriminate].
    right. split; [lia|]. destruct H1 as [[_ E]|[_ E]]; [|exact E]. injection E as <-.
    destruct (Hsort (distances nn pade s)) as [Hp _]. unfold distances in Hp at 2. rewrite map_length in Hp.
    eapply Permutation_trans; [apply Permutation_sym, Permutation_rev|exact Hp].
Qed.

Lemma filter_le_length {A} (f : A -> bool) l : (length (filter f l) <= length l)%nat.
Proof. induction l as [|x l IH]; cbn; [lia|]. destruct (f x); cbn; lia. Qed.

Lemma hv_loop_total steps : forall nn pade s bd bad,
  (length bad + steps <= length pade)%nat ->
  exists r, hv_loop argsort steps nn pade s bd bad = Ok r.
Proof.
  induction steps as [|steps IH]; intros nn pade s bd bad Hle; [cbn; eauto|].
  cbn [hv_loop]. destruct (filter _ _) as [|nb rest] eqn:E.
  - exfalso. destruct (Hsort (distances nn pade s)) as [Hp _]. unfold distances in Hp at 2. rewrite map_length in Hp.
    assert (Hi : incl (seq 0 (length pade)) bad).
    { intros i Hi. destruct (existsb (Nat.eqb i) bad) eqn:Eb; [now apply existsb_eqb|].
      assert (In i (filter (fun i => negb (existsb (Nat.eqb i) bad)) (rev (argsort (distances nn pade s))))).
      { apply filter_In. split; [|now rewrite Eb]. apply -> in_rev.
        apply (Permutation_in _ (Permutation_sym Hp)). exact Hi. }
      rewrite E in H. destruct H. }
    apply NoDup_incl_length in Hi; [|apply seq_NoDup]. rewrite seq_length in Hi. lia.
  - apply IH. rewrite app_length. cbn. lia.
Qed.

Lemma count_set_false (idx : list nat) N :
  NoDup idx -> (forall i, In i idx -> (i < N)%nat) ->
  count_true (set_at idx false (repeat true N)) = (N - length idx)%nat.
Proof.
  intros Hd Hr. unfold count_true.
  assert (H : forall s n, length (filter (fun b => b) (map (fun ib => if existsb (Nat.eqb (fst ib)) idx then false else snd ib)
                 (combine (seq s n) (repeat true n))))
              = (n - length (filter (fun i => existsb (Nat.eqb i) idx) (seq s n)))%nat).
  { intros s n. revert s. induction n as [|n IH]; intros s; [reflexivity|].
    cbn [seq repeat combine map filter fst snd].
    assert (Hle := filter_le_length (fun i => existsb (Nat.eqb i) idx) (seq (S s) n)). rewrite seq_length in Hle.
    destruct (existsb (Nat.eqb s) idx); cbn [length]; rewrite IH; lia. }
  unfold set_at. rewrite repeat_length, H. f_equal.
  apply Permutation_length. apply NoDup_Permutation.
  - apply NoDup_filter, seq_NoDup.
  - exact Hd.
  - intros i. rewrite filter_In, in_seq, existsb_eqb. split; [tauto|]. intros Hi. split; [|exact Hi].
    specialize (Hr i Hi). lia.
Qed.

Theorem filter_high_variance_count (n nz : nat) pades :
  (0 < n)%nat -> (n < length pades)%nat ->
  exists mask bad, filter_high_variance argsort (AbsNum (Z.of_nat n)) nz pades = Ok (mask, bad) /\
    length mask = length pades /\ count_true mask = n /\ length bad = (length pades - n)%nat.
Proof.
  intros Hn HN. unfold filter_high_variance.
  destruct (Z.ltb_spec 0 (Z.of_nat n)) as [_|?]; [|lia]. rewrite Nat2Z.id.
  destruct (hv_loop_total (length pades - n) (length pades) pades (vsum nz pades) None [] ltac:(cbn; lia)) as [[ob bad] Hr].
  rewrite Hr. cbn [bind fst snd].
  destruct (hv_loop_spec _ _ _ _ _ _ _ Hr) as [H1 H2]. cbn [fst snd length] in *.
  destruct ob as [b|]; [|lia]. destruct H1 as [[? _]|[_ Hp]]; [lia|].
  unfold py_take. destruct (Z.ltb_spec (- Z.of_nat n) 0) as [_|?]; [|lia].
  assert (Hlb : length b = length pades) by (rewrite (Permutation_length Hp), seq_length; reflexivity).
  set (drop := firstn _ b).
  assert (Hld : length drop = (length pades - n)%nat) by (unfold drop; rewrite firstn_length, Hlb; lia).
  eexists _, _. split; [reflexivity|]. split; [now rewrite set_at_length, repeat_length|]. split; [|lia].
  assert (Hnd : NoDup b) by (eapply Permutation_NoDup; [apply Permutation_sym; exact Hp|apply seq_NoDup]).
  rewrite count_set_false.
  - rewrite Hld. lia.
  - unfold drop. rewrite <- (firstn_skipn (Z.to_nat (Z.of_nat (length b) + - Z.of_nat n)) b) in Hnd. revert Hnd.
    generalize (firstn (Z.to_nat (Z.of_nat (length b) + - Z.of_nat n)) b). intros l.
    induction l as [|x l IH]; intros H; [constructor|]. inversion H; subst.
    constructor; [intros Hx; apply H3; apply in_or_app; now left|now apply IH].
  - intros i Hi. unfold drop in Hi. destruct (firstn_In_nth _ _ _ Hi) as (a & _ & Ha).
    apply nth_error_In in Ha. apply (Permutation_in _ Hp) in Ha. apply in_seq in Ha. lia.
Qed.
End NegNum.

(** ** argsort_ins satisfies the numpy contract *)
Lemma insert_idx_perm key i l : Permutation (insert_idx key i l) (i :: l).
Proof.
  induction l as [|j l IH]; cbn; [auto|]. destruct (Qle_bool (key i) (key j)); [auto|].
  eapply Permutation_trans; [apply perm_skip; exact IH|apply perm_swap].
Qed.
Definition keyle (key : nat -> Q) (i j : nat) : Prop := (key i <= key j)%Q.
Lemma insert_idx_sorted key i l : StronglySorted (keyle key) l -> StronglySorted (keyle key) (insert_idx key i l).
Proof.
  induction l as [|j l IH]; intros H; cbn; [repeat constructor|].
  inversion H as [|? ? Hs Hf]; subst. destruct (Qle_bool (key i) (key j)) eqn:E.
  - apply Qle_bool_iff in E. constructor; [exact H|]. constructor; [exact E|].
    rewrite Forall_forall in *. intros x Hx. eapply Qle_trans; [exact E|now apply Hf].
  - assert (Hlt : (key j <= key i)%Q).
    { apply Qlt_le_weak, Qnot_le_lt. intros L. apply Qle_bool_iff in L. congruence. }
    constructor; [now apply IH|]. rewrite Forall_forall in *. intros x Hx.
    apply (Permutation_in _ (insert_idx_perm key i l)) in Hx. destruct Hx as [<-|Hx]; [exact Hlt|now apply Hf].
Qed.
Lemma argsort_ins_ok : argsort_ok argsort_ins.
Proof.
  intros l. unfold argsort_ins. set (key := fun i => nth i l 0%Q).
  assert (Hp : forall s, Permutation (fold_right (insert_idx key) [] s) s).
  { induction s as [|i s IH]; cbn; [constructor|]. eapply Permutation_trans; [apply insert_idx_perm|].
    now apply perm_skip. }
  split; [apply Hp|].
  assert (Hs : forall s, StronglySorted (keyle key) (fold_right (insert_idx key) [] s)).
  { induction s as [|i s IH]; cbn; [constructor|]. now apply insert_idx_sorted. }
  specialize (Hs (seq 0 (length l))). revert Hs. generalize (fold_right (insert_idx key) [] (seq 0 (length l))).
  intros s Hs. induction Hs as [|x s Hs IH Hf]; intros a b i j Hab Ha Hb; [destruct a; discriminate|].
  destruct a as [|a].
  - injection Ha as ->. destruct b as [|b]; [injection Hb as ->; apply Qle_refl|].
    rewrite Forall_forall in Hf. apply (Hf j). eapply nth_error_In; eauto.
  - destruct b as [|b]; [lia|]. apply (IH a b i j); [lia|exact Ha|exact Hb].
Qed.

(** ** apply_filter *)
Section Apply.
Context {A : Type}.
Implicit Types (fs : list (list A -> result (list bool))) (l : list A).

(** masked labelled list *)
Definition labelled (mask : list bool) (l : list A) (s : nat) : list (nat * A) :=
  map snd (filter fst (combine mask (combine (seq s (length l)) l))).

Lemma labelled_snd mask l s : length mask = length l -> map snd (labelled mask l s) = select mask l.
Proof.
  unfold labelled, select. revert l s. induction mask as [|b m IH]; intros [|x l] s H; try discriminate; auto.
  injection H as H. cbn [length seq combine filter fst]. destruct b; cbn [map snd]; now rewrite IH.
Qed.
Lemma labelled_fst mask l : length mask = length l -> map fst (labelled mask l 0) = true_positions mask.
Proof.
  intros H. unfold labelled, true_positions. rewrite H. generalize 0%nat. revert l H.
  induction mask as [|b m IH]; intros [|x l] H s; try discriminate; auto.
  injection H as H. cbn [length seq combine filter fst snd]. destruct b; cbn [map fst snd]; now rewrite IH.
Qed.

Lemma mask_assign_ok mask : forall new, length new = count_true mask ->
  exists m', mask_assign mask new = Ok m' /\ length m' = length mask /\
    forall l s, length l = length mask ->
      labelled m' l s = map snd (filter fst (combine new (labelled mask l s))).
Proof.
  induction mask as [|b mask IH]; intros new H.
  - destruct new; [|discriminate]. exists []. cbn. repeat split. 
  - destruct b.
    + destruct new as [|c new]; [discriminate|]. injection H as H. fold (count_true mask) in H.
      destruct (IH new H) as (m' & E & L & P). exists (c :: m'). cbn [mask_assign]. rewrite E. cbn [bind].
      repeat split; [cbn; lia|]. intros [|x l] s Hl; [discriminate|]. injection Hl as Hl.
      specialize (P l (S s) Hl). unfold labelled in *. cbn [length seq combine filter fst map snd] in *.
      destruct c; cbn [map snd]; now rewrite P.
    + destruct (IH new H) as (m' & E & L & P). exists (false :: m'). cbn [mask_assign]. rewrite E. cbn [bind].
      repeat split; [cbn; lia|]. intros [|x l] s Hl; [discriminate|]. injection Hl as Hl.
      specialize (P l (S s) Hl). unfold labelled in *. cbn [length seq combine filter fst map snd] in *. exact P.
Qed.

Lemma select_length mask l : length mask = length l -> length (select mask l) = count_true mask.
Proof.
  unfold select, count_true. rewrite map_length. revert l. induction mask as [|b m IH]; intros [|x l] H; try discriminate; auto.
  injection H as H. cbn [combine filter fst]. destruct b; cbn [length]; now rewrite IH.
Qed.
Lemma true_pos_nil mask : existsb (fun b => b) mask = false <-> true_positions mask = [].
Proof.
  unfold true_positions. generalize 0%nat at 1. induction mask as [|b m IH]; intros s; [cbn; tauto|].
  cbn [existsb length seq combine filter snd]. destruct b; cbn [orb map]; [split; discriminate|]. apply IH.
Qed.

Lemma apply_loop_spec fs : forall l mask, Forall well_behaved fs -> length mask = length l ->
  match apply_loop fs l mask with
  | Ok m' => exists sv, survivors fs (labelled mask l 0) = Some sv /\ true_positions m' = map fst sv /\ length m' = length l
  | Err _ => survivors fs (labelled mask l 0) = None
  end.
Proof.
  induction fs as [|f fs IH]; intros l mask Hw Hl; cbn [apply_loop survivors].
  - eexists. split; [reflexivity|]. split; [|exact Hl]. now rewrite labelled_fst.
  - inversion Hw as [|? ? Hf Hw']; subst. rewrite labelled_snd by exact Hl.
    destruct (f (select mask l)) as [new|e] eqn:Ef; cbn [bind]; [|reflexivity].
    assert (Hnew : length new = count_true mask) by (rewrite (Hf _ _ Ef); now apply select_length).
    destruct (mask_assign_ok mask new Hnew) as (m' & E & L & P). rewrite E. cbn [bind].
    rewrite <- P by congruence.
    assert (Hl' : length m' = length l) by congruence.
    specialize (IH l m' Hw' Hl').
    destruct (existsb (fun b => b) m') eqn:Ee.
    + destruct (labelled m' l 0) as [|a rest] eqn:El.
      { exfalso. assert (true_positions m' = []) by (rewrite <- (labelled_fst m' l Hl'), El; reflexivity).
        apply true_pos_nil in H. congruence. }
      exact IH.
    + apply true_pos_nil in Ee. rewrite <- (labelled_fst m' l Hl') in Ee.
      destruct (labelled m' l 0); [reflexivity|discriminate].
Qed.

Lemma labelled_all l s : labelled (repeat true (length l)) l s = combine (seq s (length l)) l.
Proof.
  unfold labelled. revert s. induction l as [|x l IH]; intros s; [reflexivity|].
  cbn [length repeat seq combine filter fst map snd]. now rewrite IH.
Qed.

Theorem apply_filter_spec fs l : Forall well_behaved fs -> length fs <> 1%nat ->
  match apply_filter fs l with
  | Ok m => exists sv, survivors fs (combine (seq 0 (length l)) l) = Some sv /\
              true_positions m = map fst sv /\ length m = length l
  | Err _ => survivors fs (combine (seq 0 (length l)) l) = None
  end.
Proof.
  intros Hw H1.
  assert (E : apply_filter fs l = apply_loop fs l (repeat true (length l))).
  { destruct fs as [|f [|g fs]]; try reflexivity. exfalso; now apply H1. }
  rewrite E. rewrite <- labelled_all. apply apply_loop_spec; [exact Hw|apply repeat_length].
Qed.

Theorem apply_filter_single (f : list A -> result (list bool)) l : apply_filter [f] l = f l.
Proof. reflexivity. Qed.
End Apply.
