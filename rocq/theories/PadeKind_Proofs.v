(** * Proofs about kind selectors and tails of the approximants. *)
From Coq Require Import List Arith ZArith Lia Bool Field Permutation QArith.
From Verif Require Import Base FSum Pade_Model Pade_Spec Pade_Proofs PadeAvg_Model PadeAvg_Spec.
Import ListNotations.
From Coq Require Import ZifyBool ZifyNat.
Ltac Zify.zify_post_hook ::= Z.to_euclidean_division_equations.

(** ** Selectors *)
Lemma kind_init_spec a b s :
  kind_init a b s = (if (a <? 1)%Z || (b <=? a)%Z then Err ValueError else Ok (mkKind (a - 1) (b - 1) s)).
Proof. unfold kind_init. destruct (a <? 1)%Z, (b <=? a)%Z; reflexivity. Qed.

Definition round_odd (n : Z) : Z := if Z.even n then (n + 1)%Z else n.
Definition round_even (n : Z) : Z := if Z.even n then n else (n + 1)%Z.

Lemma even_mod n : Z.even n = (n mod 2 =? 0)%Z.
Proof. rewrite Zmod_even. now destruct (Z.even n). Qed.

Lemma KindGf_spec a b :
  KindGf a b = (if (round_odd a <? 1)%Z || (b <=? round_odd a)%Z then Err ValueError
                else Ok (mkKind (round_odd a - 1) (b - 1) 2)).
Proof. unfold KindGf, round_odd. rewrite even_mod. apply kind_init_spec. Qed.

Lemma KindSelf_spec a b :
  KindSelf a b = (if (round_even a <? 1)%Z || (b <=? round_even a)%Z then Err ValueError
                else Ok (mkKind (round_even a - 1) (b - 1) 2)).
Proof. unfold KindSelf, round_even. rewrite even_mod. destruct (a mod 2 =? 0)%Z; apply kind_init_spec. Qed.

Lemma islice_go_nth {A} (stop step : Z) (Hs : (0 < step)%Z) : forall (l : list A) idx next i,
  (idx <= next)%Z ->
  nth_error (islice_go idx next stop step l) i
  = if (next + Z.of_nat i * step <? stop)%Z
    then nth_error l (Z.to_nat (next - idx + Z.of_nat i * step)) else None.
Proof.
  induction l as [|x l IH]; intros idx next i Hle.
  - simpl. rewrite !(proj2 (nth_error_None _ _)); simpl; try lia.
    destruct (_ <? _)%Z; reflexivity.
  - cbn [islice_go]. destruct (Z.leb_spec stop next).
    + destruct (Z.ltb_spec (next + Z.of_nat i * step) stop); [nia|]. now destruct i.
    + destruct (Z.eqb_spec idx next) as [->|Hne].
      * destruct i as [|i].
        -- simpl nth_error at 1. destruct (Z.ltb_spec (next + Z.of_nat 0 * step) stop); [|lia].
           replace (Z.to_nat _) with 0%nat by lia. reflexivity.
        -- cbn [nth_error]. rewrite IH by lia.
           replace (next + step + Z.of_nat i * step)%Z with (next + Z.of_nat (S i) * step)%Z by lia.
           destruct (Z.ltb_spec (next + Z.of_nat (S i) * step) stop); [|reflexivity].
           replace (Z.to_nat (next - next + Z.of_nat (S i) * step))
             with (S (Z.to_nat (next + step - (next + 1) + Z.of_nat i * step))) by nia.
           reflexivity.
      * rewrite IH by lia. destruct (Z.ltb_spec (next + Z.of_nat i * step) stop); [|reflexivity].
        replace (Z.to_nat (next - idx + Z.of_nat i * step))
          with (S (Z.to_nat (next - (idx + 1) + Z.of_nat i * step))) by nia.
        reflexivity.
Qed.

Lemma islice_nth {A} k (l : list A) i :
  (0 < k_step k)%Z -> (0 <= k_start k)%Z ->
  nth_error (islice k l) i
  = if (k_start k + Z.of_nat i * k_step k <? k_stop k)%Z
    then nth_error l (Z.to_nat (k_start k + Z.of_nat i * k_step k)) else None.
Proof.
  intros Hs H0. unfold islice. rewrite islice_go_nth by lia.
  replace (k_start k - 0)%Z with (k_start k) by lia. reflexivity.
Qed.

Lemma py_range_nth start stop step i : (0 < step)%Z ->
  nth_error (py_range start stop step) i
  = if (start + Z.of_nat i * step <? stop)%Z then Some (start + Z.of_nat i * step)%Z else None.
Proof.
  intros Hs. unfold py_range, py_range_len.
  assert (Hlen : forall n, nth_error (map (fun i => (start + Z.of_nat i * step)%Z) (seq 0 n)) i
                = if (i <? n)%nat then Some (start + Z.of_nat i * step)%Z else None).
  { intros n. destruct (Nat.ltb_spec i n).
    - rewrite (map_nth_error _ i (seq 0 n) (d := i)); [reflexivity|].
      rewrite nth_error_nth' with (d := 0%nat) by (rewrite seq_length; lia).
      rewrite seq_nth by lia. reflexivity.
    - apply nth_error_None. rewrite map_length, seq_length. lia. }
  rewrite Hlen. clear Hlen.
  destruct (Z.ltb_spec start stop).
  - assert (Hq : (0 <= (stop - start - 1) / step)%Z) by (apply Z.div_pos; lia).
    pose proof (Z.div_mod (stop - start - 1) step ltac:(lia)) as D.
    pose proof (Z.mod_pos_bound (stop - start - 1) step Hs) as M.
    destruct (Nat.ltb_spec i (Z.to_nat ((stop - start - 1) / step + 1)));
    destruct (Z.ltb_spec (start + Z.of_nat i * step) stop); try reflexivity; exfalso.
    + assert (Z.of_nat i <= (stop - start - 1) / step)%Z by lia. nia.
    + assert ((stop - start - 1) / step + 1 <= Z.of_nat i)%Z by lia. nia.
  - destruct (Nat.ltb_spec i (Z.to_nat 0)); [lia|].
    destruct (Z.ltb_spec (start + Z.of_nat i * step) stop); [nia|reflexivity].
Qed.

Lemma kind_getitem_spec k i : (0 < k_step k)%Z ->
  kind_getitem k i = if (k_start k + Z.of_nat i * k_step k <? k_stop k)%Z
                     then Ok (k_start k + Z.of_nat i * k_step k)%Z else Err IndexError.
Proof.
  intros Hs. unfold kind_getitem. rewrite py_range_nth by exact Hs.
  destruct (_ <? _)%Z; reflexivity.
Qed.

Lemma nth_error_ext_len {A} (l : list A) (P : nat -> bool) :
  (forall i, is_ok (match nth_error l i with Some _ => Ok tt | None => Err IndexError end) = P i) ->
  forall n, (forall i, P i = (i <? n)%nat) -> length l = n.
Proof.
  intros H n Hn. destruct (Nat.lt_trichotomy (length l) n) as [L|[L|L]]; [|exact L|].
  - specialize (H (length l)). rewrite Hn in H. destruct (Nat.ltb_spec (length l) n); [|lia].
    rewrite (proj2 (nth_error_None l (length l))) in H by lia. discriminate.
  - specialize (H n). rewrite Hn in H. destruct (Nat.ltb_spec n n); [lia|].
    destruct (nth_error l n) eqn:E; [discriminate|]. apply nth_error_None in E. lia.
Qed.

Lemma list_eq_nth_error {A} (l l' : list A) : (forall i, nth_error l i = nth_error l' i) -> l = l'.
Proof.
  revert l'. induction l as [|x l IH]; intros [|y l'] H; auto.
  - specialize (H 0%nat); discriminate.
  - specialize (H 0%nat); discriminate.
  - assert (H0 := H 0%nat). injection H0 as ->. f_equal. apply IH. intros i. exact (H (S i)).
Qed.

Lemma flat_map_total {A B} (g : A -> option B) (l : list A) :
  (forall x, In x l -> g x <> None) ->
  forall i, nth_error (flat_map (fun x => match g x with Some y => [y] | None => [] end) l) i
          = match nth_error l i with Some x => g x | None => None end.
Proof.
  induction l as [|x l IH]; intros H i.
  - destruct i; reflexivity.
  - cbn [flat_map]. destruct (g x) as [y|] eqn:E; [|exfalso; apply (H x); [now left|exact E]].
    destruct i as [|i]; cbn [nth_error app]; [now rewrite E|]. apply IH. intros a Ha. apply H. now right.
Qed.

Lemma kind_slice_nth {A} k (l : list A) i :
  (0 < k_step k)%Z -> (0 <= k_start k)%Z ->
  nth_error (kind_slice k l) i
  = if (k_start k + Z.of_nat i * k_step k <? k_stop k)%Z
    then nth_error l (Z.to_nat (k_start k + Z.of_nat i * k_step k)) else None.
Proof.
  intros Hs H0. unfold kind_slice. rewrite flat_map_total.
  - rewrite py_range_nth by exact Hs.
    destruct (Z.ltb_spec (k_start k + Z.of_nat i * k_step k) (Z.min (k_stop k) (Z.of_nat (length l))));
    destruct (Z.ltb_spec (k_start k + Z.of_nat i * k_step k) (k_stop k)); try reflexivity; try lia.
    symmetry. apply nth_error_None. lia.
  - intros x Hx. apply In_nth_error in Hx. destruct Hx as [j Hj]. rewrite py_range_nth in Hj by exact Hs.
    destruct (Z.ltb_spec (k_start k + Z.of_nat j * k_step k) (Z.min (k_stop k) (Z.of_nat (length l)))); [|discriminate].
    injection Hj as <-. apply nth_error_Some. nia.
Qed.

Lemma islice_slice {A} k (l : list A) :
  (0 < k_step k)%Z -> (0 <= k_start k)%Z -> islice k l = kind_slice k l.
Proof. intros. apply list_eq_nth_error. intros i. now rewrite islice_nth, kind_slice_nth. Qed.

Definition good_kind (k : kind) : Prop := (0 <= k_start k)%Z /\ (k_start k < k_stop k)%Z /\ k_step k = 2%Z.

Lemma KindGf_good a b k : KindGf a b = Ok k ->
  good_kind k /\ k_start k = (round_odd a - 1)%Z /\ k_stop k = (b - 1)%Z /\ Z.even (k_start k) = true.
Proof.
  rewrite KindGf_spec. destruct (Z.ltb_spec (round_odd a) 1); cbn [orb]; [discriminate|].
  destruct (Z.leb_spec b (round_odd a)); [discriminate|]. intros [= <-].
  unfold good_kind; cbn. repeat split; try lia.
  unfold round_odd. destruct (Z.even a) eqn:E.
  - replace (a + 1 - 1)%Z with a by lia. exact E.
  - rewrite Z.sub_1_r, Z.even_pred, <- Z.negb_even, E. reflexivity.
Qed.

Lemma KindSelf_good a b k : KindSelf a b = Ok k ->
  good_kind k /\ k_start k = (round_even a - 1)%Z /\ k_stop k = (b - 1)%Z /\ Z.even (k_start k) = false.
Proof.
  rewrite KindSelf_spec. destruct (Z.ltb_spec (round_even a) 1); cbn [orb]; [discriminate|].
  destruct (Z.leb_spec b (round_even a)); [discriminate|]. intros [= <-].
  unfold good_kind; cbn. repeat split; try lia.
  unfold round_even. destruct (Z.even a) eqn:E.
  - rewrite Z.sub_1_r, Z.even_pred, <- Z.negb_even, E. reflexivity.
  - replace (a + 1 - 1)%Z with a by lia. exact E.
Qed.

(** number of selected elements *)
Definition half_up (n : Z) : Z := ((n + 1) / 2)%Z.

Lemma kind_len_spec k : good_kind k -> kind_len k = half_up (k_stop k - k_start k).
Proof.
  intros (H0 & H1 & H2). unfold kind_len, py_range, py_range_len, half_up.
  rewrite map_length, seq_length, H2. destruct (Z.ltb_spec (k_start k) (k_stop k)); [|lia]. lia.
Qed.

Lemma islice_length {A} k (l : list A) : good_kind k ->
  Z.of_nat (length (islice k l)) = Z.max 0 (half_up (Z.min (k_stop k) (Z.of_nat (length l)) - k_start k)).
Proof.
  intros (H0 & H1 & H2).
  rewrite islice_slice by lia. unfold kind_slice.
  assert (Hl : length (flat_map (fun i => match nth_error l (Z.to_nat i) with Some x => [x] | None => [] end)
              (py_range (k_start k) (Z.min (k_stop k) (Z.of_nat (length l))) (k_step k)))
          = length (py_range (k_start k) (Z.min (k_stop k) (Z.of_nat (length l))) (k_step k))).
  { assert (Hin : forall x, In x (py_range (k_start k) (Z.min (k_stop k) (Z.of_nat (length l))) (k_step k)) ->
       nth_error l (Z.to_nat x) <> None).
    { intros x Hx. apply In_nth_error in Hx. destruct Hx as [j Hj]. rewrite py_range_nth in Hj by lia.
      destruct (Z.ltb_spec (k_start k + Z.of_nat j * k_step k) (Z.min (k_stop k) (Z.of_nat (length l)))); [|discriminate].
      injection Hj as <-. apply nth_error_Some. nia. }
    revert Hin. generalize (py_range (k_start k) (Z.min (k_stop k) (Z.of_nat (length l))) (k_step k)).
    induction l0 as [|x l0 IH]; intros Hin; [reflexivity|]. cbn [flat_map length]. rewrite app_length, IH.
    - destruct (nth_error l (Z.to_nat x)) eqn:E; [reflexivity|]. exfalso. apply (Hin x); [now left|exact E].
    - intros y Hy. apply Hin. now right. }
  rewrite Hl. unfold py_range, py_range_len, half_up. rewrite map_length, seq_length, H2.
  destruct (Z.ltb_spec (k_start k) (Z.min (k_stop k) (Z.of_nat (length l)))); lia.
Qed.

(** ** Degrees of the approximants *)
Section Deg.
Variable K : Fld.
Add Field KF2 : (Fth K).
Local Open Scope fld_scope.

Fixpoint padd (p q : list K) : list K :=
  match p, q with
  | [], _ => q
  | _, [] => p
  | a :: p', b :: q' => (a + b) :: padd p' q'
  end.
Definition pscale (c : K) (p : list K) : list K := map (Fmul c) p.
(** (x - c) p *)
Definition plin (c : K) (p : list K) : list K := padd (pscale (- c) p) (0 :: p).

Lemma peval_padd p : forall q x, peval (padd p q) x = peval p x + peval q x.
Proof. induction p as [|a p IH]; intros [|b q] x; simpl; try ring. rewrite IH. ring. Qed.
Lemma peval_pscale c p x : peval (pscale c p) x = c * peval p x.
Proof. unfold pscale. induction p as [|a p IH]; cbn [map peval]; [ring|]. rewrite IH. ring. Qed.
Lemma peval_plin c p x : peval (plin c p) x = (x - c) * peval p x.
Proof. unfold plin. rewrite peval_padd, peval_pscale. cbn [peval]. ring. Qed.
Lemma padd_length p : forall q, length (padd p q) = Nat.max (length p) (length q).
Proof. induction p as [|a p IH]; intros [|b q]; simpl; auto. Qed.
Lemma pscale_length c p : length (pscale c p) = length p.
Proof. apply map_length. Qed.
Lemma plin_length c p : length (plin c p) = S (length p).
Proof. unfold plin. rewrite padd_length, pscale_length. simpl. lia. Qed.

(** coefficient access *)
Lemma nth_padd p : forall q i, nth i (padd p q) 0 = nth i p 0 + nth i q 0.
Proof.
  induction p as [|a p IH]; intros [|b q] [|i]; simpl; try ring; auto.
Qed.
Lemma nth_pscale c p i : nth i (pscale c p) 0 = c * nth i p 0.
Proof.
  unfold pscale. revert i. induction p as [|a p IH]; intros [|i]; simpl; try ring; auto.
Qed.
Lemma nth_plin_top c p : nth (length p) (plin c p) 0 = nth (length p - 1) p 0.
Proof.
  unfold plin. rewrite nth_padd, nth_pscale, (nth_overflow p) by lia.
  destruct p as [|a p]; [simpl; ring|]. cbn [length nth]. rewrite Nat.sub_0_r || idtac.
  replace (S (length p) - 1)%nat with (length p) by lia. ring.
Qed.

(** a0 a2 a4 ... *)
Fixpoint even_prod (a : list K) : K :=
  match a with
  | [] => 1
  | [a0] => a0
  | a0 :: _ :: a' => a0 * even_prod a'
  end.
Lemma even_odd_prod a0 a : even_prod (a0 :: a) = a0 * odd_prod a /\ odd_prod (a0 :: a) = match a with [] => 1 | _ => even_prod a end.
Proof.
  assert (H : forall n a, (length a <= n)%nat -> forall a0, even_prod (a0 :: a) = a0 * odd_prod a /\ odd_prod (a0 :: a) = match a with [] => 1 | _ => even_prod a end).
  { clear. induction n as [|n IH]; intros [|a1 a] Hl a0; simpl in Hl; try lia.
    - simpl. split; [ring|reflexivity].
    - simpl. split; [ring|reflexivity].
    - destruct (IH a ltac:(lia) a1) as [E1 E2]. split.
      + cbn [even_prod]. f_equal. destruct a as [|a2 a]; [reflexivity|]. rewrite E2.
        reflexivity.
      + cbn [odd_prod]. rewrite E1. reflexivity. }
  eapply H; eauto.
Qed.

Lemma cf_degrees : forall n (a zs : list K), length a = n -> length zs = (n - 1)%nat -> (0 < n)%nat ->
  exists p q : list K,
    (forall z, cf_frac z a zs = (peval p z, peval q z)) /\
    (if Nat.even n
     then length p = (n / 2)%nat /\ length q = (n / 2 + 1)%nat /\ nth (n / 2) q 0 = odd_prod a
     else length p = (n / 2 + 1)%nat /\ length q = (n / 2 + 1)%nat /\ nth (n / 2) p 0 = even_prod a).
Proof.
  induction n as [|n IH]; intros a zs Ha Hz Hn; [lia|].
  destruct a as [|a0 a]; [discriminate|]. injection Ha as Ha.
  destruct n as [|n].
  - destruct a; [|discriminate]. destruct zs; [|discriminate].
    exists [a0], [1]. split; [intros z; simpl; f_equal; ring|]. simpl. repeat split.
  - destruct zs as [|z0 zs]; [discriminate|]. simpl in Hz.
    destruct (IH a zs Ha ltac:(simpl; lia) ltac:(lia)) as (p & q & Hpq & Hd).
    exists (pscale a0 q), (padd q (plin z0 p)). split.
    { intros z. cbn [cf_frac]. rewrite Hpq. f_equal; [now rewrite peval_pscale|].
      rewrite peval_padd, peval_plin. reflexivity. }
    rewrite Nat.even_succ, <- Nat.negb_even. destruct (Nat.even (S n)) eqn:E; cbn [negb].
    + destruct Hd as (Lp & Lq & Lt).
      assert (E2 : (S (S n) / 2 = S n / 2)%nat).
      { apply Nat.even_spec in E. destruct E as [m Em]. lia. }
      rewrite pscale_length, padd_length, plin_length, nth_pscale. rewrite E2, Lt, Lp, Lq.
      repeat split; try lia. now rewrite (proj1 (even_odd_prod a0 a)).
    + destruct Hd as (Lp & Lq & Lt).
      assert (E2 : (S (S n) / 2 = S n / 2 + 1)%nat).
      { rewrite <- Nat.negb_odd in E. apply negb_false_iff in E. apply Nat.odd_spec in E.
        destruct E as [m Em]. lia. }
      rewrite pscale_length, padd_length, plin_length, nth_padd. rewrite E2, Lp, Lq.
      repeat split; try lia.
      rewrite (nth_overflow q) by lia.
      replace (S n / 2 + 1)%nat with (length p) by lia. rewrite nth_plin_top, Lp.
      replace (S n / 2 + 1 - 1)%nat with (S n / 2)%nat by lia. rewrite Lt.
      destruct a as [|a1 a]; [discriminate|].
      rewrite (proj2 (even_odd_prod a0 (a1 :: a))). ring.
Qed.

Lemma firstn_map_Some_inv (b b' : list K) n :
  firstn n (map Some b) = map Some b' -> b' = firstn n b.
Proof. rewrite firstn_map. intros H. symmetry. apply map_Some_inj. exact H. Qed.

(** The i-th approximant selected by a good kind. *)
Lemma selected_cf k z zin (b : list K) l i v :
  good_kind k ->
  calc_iterator z zin (map Some b) = Ok l ->
  nth_error (islice k l) i = Some (Some v) ->
  let j := Z.to_nat (k_start k + 2 * Z.of_nat i) in
  (j + 2 <= length zin)%nat /\ length (firstn (j + 2) b) = (j + 2)%nat /\
  let '(n, d) := cf_frac z (firstn (j + 2) b) (firstn (j + 1) zin) in d <> 0 /\ v = n / d.
Proof.
  intros (H0 & H1 & H2) Hc Hv. rewrite islice_nth in Hv by lia. rewrite H2 in Hv.
  destruct (_ <? _)%Z; [|discriminate].
  replace (Z.to_nat (k_start k + Z.of_nat i * 2)) with (Z.to_nat (k_start k + 2 * Z.of_nat i)) in Hv by lia.
  intros j. destruct (calc_iterator_yield _ _ _ _ _ _ _ Hc Hv) as (b' & Hb & Hlb & Hlz & Hr).
  apply firstn_map_Some_inv in Hb. subst b'. fold j in Hlb, Hlz, Hr. auto.
Qed.

Theorem kindgf_tail n_min n_max k (zin b : list K) i m :
  KindGf n_min n_max = Ok k ->
  (2 * Z.of_nat m = k_start k + 2 * Z.of_nat i + 2)%Z ->
  (2 * m <= length b)%nat -> length zin = length b ->
  exists p q,
    length p = m /\ length q = S m /\ nth m q 0 = odd_prod (firstn (2 * m) b) /\
    forall z l v, calc_iterator z zin (map Some b) = Ok l ->
      nth_error (islice k l) i = Some (Some v) -> peval q z <> 0 /\ v = peval p z / peval q z.
Proof.
  intros Hk Hm L Hlen. destruct (KindGf_good _ _ _ Hk) as (Hg & _ & _ & He).
  set (j := Z.to_nat (k_start k + 2 * Z.of_nat i)).
  assert (Hj : (j + 2 = 2 * m)%nat) by (unfold j; destruct Hg; lia).
  destruct (cf_degrees (j + 2) (firstn (j + 2) b) (firstn (j + 1) zin)) as (p & q & Hpq & Hd).
  { rewrite firstn_length; lia. } { rewrite firstn_length; lia. } { lia. }
  assert (Ej : Nat.even (j + 2) = true). { apply Nat.even_spec. exists m. lia. }
  rewrite Ej in Hd. destruct Hd as (Lp & Lq & Lt).
  assert (E2 : ((j + 2) / 2 = m)%nat) by lia. rewrite E2 in *. rewrite Hj in Lt.
  exists p, q. split; [exact Lp|]. split; [lia|]. split; [exact Lt|].
  intros z l v Hc Hv. apply (selected_cf _ _ _ _ _ _ _ Hg Hc) in Hv. fold j in Hv.
  destruct Hv as (_ & _ & Hv). rewrite Hpq in Hv. exact Hv.
Qed.

Theorem kindself_tail n_min n_max k (zin b : list K) i m :
  KindSelf n_min n_max = Ok k ->
  (2 * Z.of_nat m + 1 = k_start k + 2 * Z.of_nat i + 2)%Z ->
  (2 * m + 1 <= length b)%nat -> length zin = length b ->
  exists p q,
    length p = S m /\ length q = S m /\
    forall z l v, calc_iterator z zin (map Some b) = Ok l ->
      nth_error (islice k l) i = Some (Some v) -> peval q z <> 0 /\ v = peval p z / peval q z.
Proof.
  intros Hk Hm L Hlen. destruct (KindSelf_good _ _ _ Hk) as (Hg & _ & _ & He).
  set (j := Z.to_nat (k_start k + 2 * Z.of_nat i)).
  assert (Hj : (j + 2 = 2 * m + 1)%nat) by (unfold j; destruct Hg; lia).
  destruct (cf_degrees (j + 2) (firstn (j + 2) b) (firstn (j + 1) zin)) as (p & q & Hpq & Hd).
  { rewrite firstn_length; lia. } { rewrite firstn_length; lia. } { lia. }
  assert (Ej : Nat.even (j + 2) = false).
  { destruct (Nat.even _) eqn:E; [|reflexivity]. apply Nat.even_spec in E. destruct E as [t Ht]. lia. }
  rewrite Ej in Hd. destruct Hd as (Lp & Lq & Lt).
  assert (E2 : ((j + 2) / 2 = m)%nat) by lia. rewrite E2 in *.
  exists p, q. split; [lia|]. split; [lia|].
  intros z l v Hc Hv. apply (selected_cf _ _ _ _ _ _ _ Hg Hc) in Hv. fold j in Hv.
  destruct Hv as (_ & _ & Hv). rewrite Hpq in Hv. exact Hv.
Qed.

(** every accepted selector's approximant number is of this form *)
Lemma kindgf_even n_min n_max k i :
  KindGf n_min n_max = Ok k -> exists m, (2 * Z.of_nat m = k_start k + 2 * Z.of_nat i + 2)%Z.
Proof.
  intros Hk. destruct (KindGf_good _ _ _ Hk) as ((Hg & _) & _ & _ & He).
  apply Z.even_spec in He. destruct He as [t Ht]. exists (Z.to_nat t + i + 1)%nat. lia.
Qed.
Lemma kindself_odd n_min n_max k i :
  KindSelf n_min n_max = Ok k -> exists m, (2 * Z.of_nat m + 1 = k_start k + 2 * Z.of_nat i + 2)%Z.
Proof.
  intros Hk. destruct (KindSelf_good _ _ _ Hk) as ((Hg & _) & _ & _ & He).
  assert (Ho : Z.odd (k_start k) = true) by (rewrite <- Z.negb_even, He; reflexivity).
  apply Z.odd_spec in Ho. destruct Ho as [t Ht]. exists (Z.to_nat t + i + 1)%nat. lia.
Qed.
End Deg.

(** ** Statements in terms of the rounded minimum *)
Lemma round_odd_uniq n m : Z.odd m = true -> (n <= m <= n + 1)%Z -> round_odd n = m.
Proof.
  intros Ho Hm. unfold round_odd. destruct (Z.even n) eqn:E.
  - assert (m <> n) by (intros ->; rewrite <- Z.negb_even, E in Ho; discriminate). lia.
  - assert (m <> n + 1)%Z; [|lia]. intros ->. rewrite Z.odd_add, <- Z.negb_even, E in Ho. discriminate.
Qed.
Lemma round_even_uniq n m : Z.even m = true -> (n <= m <= n + 1)%Z -> round_even n = m.
Proof.
  intros Ho Hm. unfold round_even. destruct (Z.even n) eqn:E.
  - assert (m <> n + 1)%Z; [|lia]. intros ->. rewrite Z.even_add, E in Ho. discriminate.
  - assert (m <> n) by (intros ->; congruence). lia.
Qed.

Lemma window_ok m n_max :
  window_spec (if (m <? 1)%Z || (n_max <=? m)%Z then Err ValueError else Ok (mkKind (m - 1) (n_max - 1) 2)) m n_max.
Proof.
  unfold window_spec. split.
  - intros [H|H]; [rewrite (proj2 (Z.ltb_lt _ _) H); reflexivity|].
    rewrite (proj2 (Z.leb_le _ _) H), orb_true_r. reflexivity.
  - intros H1 H2. rewrite (proj2 (Z.ltb_ge m 1)), (proj2 (Z.leb_gt n_max m)) by lia. cbn [orb].
    eexists. split; [reflexivity|]. set (k := mkKind (m - 1) (n_max - 1) 2).
    assert (Hg : good_kind k) by (unfold good_kind, k; cbn; lia).
    assert (Hs : (0 < k_step k)%Z) by (cbn; lia). assert (H0 : (0 <= k_start k)%Z) by (cbn; lia).
    split; [|split; [|split]].
    + intros i. rewrite kind_getitem_spec by exact Hs. cbn [k k_start k_stop k_step].
      replace (Z.of_nat i * 2)%Z with (2 * Z.of_nat i)%Z by lia. reflexivity.
    + intros A l i. rewrite islice_nth by assumption. cbn [k k_start k_stop k_step].
      replace (Z.of_nat i * 2)%Z with (2 * Z.of_nat i)%Z by lia. reflexivity.
    + intros A l. symmetry. now apply islice_slice.
    + intros A l Hl. rewrite islice_length, kind_len_spec by exact Hg. cbn [k k_start k_stop k_step] in *.
      unfold half_up. lia.
Qed.

Theorem KindGf_window n_min n_max m :
  Z.odd m = true -> (n_min <= m <= n_min + 1)%Z -> window_spec (KindGf n_min n_max) m n_max.
Proof. intros Ho Hm. rewrite KindGf_spec, (round_odd_uniq _ _ Ho Hm). apply window_ok. Qed.
Theorem KindSelf_window n_min n_max m :
  Z.even m = true -> (n_min <= m <= n_min + 1)%Z -> window_spec (KindSelf n_min n_max) m n_max.
Proof. intros Ho Hm. rewrite KindSelf_spec, (round_even_uniq _ _ Ho Hm). apply window_ok. Qed.
