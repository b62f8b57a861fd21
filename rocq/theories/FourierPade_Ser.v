(** * Power series that are sums of geometric series: uniqueness of Padé approximants *)
From Coq Require Import List Arith ZArith Lia Bool Field.
From Verif Require Import Base FSum Herm_Model Herm_Spec Herm_Proofs Mat.
Import ListNotations.

Section Ser.
Context {K : Fld}.
Add Field ser_field : (Fth K).
Local Open Scope fld_scope.

(** evaluation of a coefficient list *)
Definition pv (p : list K) (y : K) : K := nsum (length p) (fun i => nth i p 0 * fpow y i).
(** d + sum_k c_k/(1 - x_k y) as power series and as function of y; a term is the pair (c_k, x_k) *)
Definition gser (l : list (K * K)) (d : K) (j : nat) : K :=
  lsum (map (fun t => fst t * fpow (snd t) j) l) + (if (j =? 0)%nat then d else 0).
Definition gval (l : list (K * K)) (d y : K) : K := d + lsum (map (fun t => fst t / (1 - snd t * y)) l).
Definition regular (l : list (K * K)) (y : K) : Prop := forall t, In t l -> 1 - snd t * y <> 0.

Lemma pv_ext_len p y n : (length p <= n)%nat -> pv p y = nsum n (fun i => nth i p 0 * fpow y i).
Proof.
  intros H. unfold pv. symmetry. apply nsum_extend; [exact H|]. intros i Hi. rewrite nth_overflow by lia. ring.
Qed.
Lemma ser_swap (a b f : nat -> K) k : ser_mul a (ser_mul b f) k = ser_mul b (ser_mul a f) k.
Proof.
  assert (G : forall a b : nat -> K, ser_mul a (ser_mul b f) k = nsum (S k) (fun i => nsum (S k) (fun j => if (i + j <=? k)%nat then a i * b j * f (k - i - j)%nat else 0))).
  { intros a' b'. unfold ser_mul. apply nsum_ext. intros i Hi. rewrite <- nsum_mul_l. rewrite (nsum_extend K (S (k - i)) (S k)).
    - apply nsum_ext. intros j Hj. rewrite (proj2 (Nat.leb_le (i + j) k)) by lia. ring.
    - lia.
    - intros j Hj. rewrite (proj2 (Nat.leb_gt (i + j) k)) by lia. reflexivity. }
  rewrite (G a b), (G b a). rewrite nsum_swap. apply nsum_ext. intros i Hi. apply nsum_ext. intros j Hj. rewrite (Nat.add_comm j i).
  destruct (Nat.leb_spec (i + j) k); [|reflexivity]. replace (k - j - i)%nat with (k - i - j)%nat by lia. ring.
Qed.
Lemma ser_mul_long (p q : list K) k : (length p + length q <= S k)%nat -> ser_mul (ser_of p) (ser_of q) k = 0.
Proof.
  intros H. unfold ser_mul, ser_of. apply nsum_0'. intros j Hj. destruct (Nat.lt_ge_cases j (length p)).
  - rewrite (nth_overflow q) by lia. ring.
  - rewrite (nth_overflow p) by lia. ring.
Qed.
Lemma pv_mul (p q : list K) y L : (length p + length q <= S L)%nat -> pv p y * pv q y = nsum L (fun k => ser_mul (ser_of p) (ser_of q) k * fpow y k).
Proof.
  intros H. destruct q as [|q0 q'].
  { unfold pv at 2. cbn [length nsum]. rewrite nsum_0'; [ring|]. intros k Hk. unfold ser_mul, ser_of. rewrite nsum_0'; [ring|]. intros j Hj. rewrite (nth_overflow []) by (cbn; lia). ring. }
  destruct p as [|p0 p'].
  { unfold pv at 1. cbn [length nsum]. rewrite nsum_0'; [ring|]. intros k Hk. unfold ser_mul, ser_of. rewrite nsum_0'; [ring|]. intros j Hj. rewrite (nth_overflow []) by (cbn; lia). ring. }
  set (p := p0 :: p') in *. set (q := q0 :: q') in *. assert (1 <= length q)%nat by (cbn; lia). assert (1 <= length p)%nat by (cbn; lia).
  rewrite (pv_ext_len p y L) by lia. rewrite <- nsum_mul_r.
  transitivity (nsum L (fun i => nsum L (fun k => if (i <=? k)%nat then nth i p 0 * nth (k - i) q 0 * fpow y k else 0))).
  - apply nsum_ext. intros i Hi. destruct (Nat.lt_ge_cases i (length p)) as [Hp|Hp].
    + assert (Hs : nsum L (fun k => if (i <=? k)%nat then nth i p 0 * nth (k - i) q 0 * fpow y k else 0) = nsum (L - i) (fun m => nth i p 0 * nth m q 0 * fpow y (i + m))).
      { replace L with (i + (L - i))%nat at 1 by lia. rewrite nsum_split. rewrite nsum_0'.
        - transitivity (nsum (L - i) (fun m => nth i p 0 * nth m q 0 * fpow y (i + m)) + 0); [|ring].
          rewrite (nsum_ext K (L - i) _ (fun m => nth i p 0 * nth m q 0 * fpow y (i + m))); [ring|]. intros m Hm.
          rewrite (proj2 (Nat.leb_le i (i + m))) by lia. now replace (i + m - i)%nat with m by lia.
        - intros k Hk. now rewrite (proj2 (Nat.leb_gt i k)) by lia. }
      rewrite Hs. rewrite (pv_ext_len q y (L - i)) by lia. rewrite <- nsum_mul_l. apply nsum_ext. intros m Hm. rewrite fpow_add. ring.
    + rewrite (nth_overflow p) by exact Hp. rewrite nsum_0'; [ring|]. intros k Hk. destruct (i <=? k)%nat; ring.
  - rewrite nsum_swap. apply nsum_ext. intros k Hk. unfold ser_mul, ser_of. rewrite <- nsum_mul_r. rewrite (nsum_extend K (S k) L).
    + apply nsum_ext. intros i Hi. now rewrite (proj2 (Nat.leb_le i k)) by lia.
    + lia.
    + intros i Hi. now rewrite (proj2 (Nat.leb_gt i k)) by lia.
Qed.

(** multiplication of a coefficient list by 1 - x y *)
Definition lin_mul (x : K) (p : list K) : list K := map (fun k => nth k p 0 - (if (k =? 0)%nat then 0 else x * nth (k - 1) p 0)) (seq 0 (S (length p))).
Lemma lin_mul_nth x p k : nth k (lin_mul x p) 0 = nth k p 0 - (if (k =? 0)%nat then 0 else x * nth (k - 1) p 0).
Proof.
  destruct (Nat.lt_ge_cases k (S (length p))) as [H|H].
  - unfold lin_mul. now rewrite nth_map_seq by exact H.
  - rewrite nth_overflow by (unfold lin_mul; rewrite map_length, seq_length; exact H). rewrite !nth_overflow by lia. destruct (k =? 0)%nat; ring.
Qed.
Lemma lin_mul_len x p : length (lin_mul x p) = S (length p).
Proof. unfold lin_mul. now rewrite map_length, seq_length. Qed.
Lemma lin_mul_ser (x : K) (p : list K) (f : nat -> K) k : ser_mul (ser_of (lin_mul x p)) f k = ser_mul (ser_of p) f k - (if (k =? 0)%nat then 0 else x * ser_mul (ser_of p) f (k - 1)).
Proof.
  unfold ser_mul, ser_of.
  rewrite (nsum_ext K (S k) _ (fun j => nth j p 0 * f (k - j)%nat - (if (j =? 0)%nat then 0 else x * nth (j - 1) p 0 * f (k - j)%nat))).
  2:{ intros j Hj. rewrite lin_mul_nth. destruct (j =? 0)%nat; ring. }
  rewrite nsum_sub. f_equal. rewrite nsum_S_l. cbn [Nat.eqb]. destruct k as [|k]; cbn [Nat.eqb].
  - cbn [nsum]. ring.
  - replace (S k - 1)%nat with k by lia. rewrite <- nsum_mul_l. match goal with |- 0 + ?a = ?b => transitivity a; [ring|] end.
    apply nsum_ext. intros j Hj. replace (S j - 1)%nat with j by lia. replace (S k - S j)%nat with (k - j)%nat by lia. ring.
Qed.
Lemma lin_mul_pv x p y : pv (lin_mul x p) y = (1 - x * y) * pv p y.
Proof.
  unfold pv. rewrite lin_mul_len.
  rewrite (nsum_ext K _ _ (fun j => nth j p 0 * fpow y j - (if (j =? 0)%nat then 0 else x * nth (j - 1) p 0 * fpow y j))).
  2:{ intros j Hj. rewrite lin_mul_nth. destruct (j =? 0)%nat; ring. }
  rewrite nsum_sub. rewrite (nsum_S_l K (length p) (fun j => if (j =? 0)%nat then 0 else x * nth (j - 1) p 0 * fpow y j)). cbn [Nat.eqb].
  cbn [nsum]. rewrite (nth_overflow p) by lia.
  match goal with |- _ - (0 + ?a) = _ => assert (E : a = x * y * nsum (length p) (fun i => nth i p 0 * fpow y i)) end.
  { rewrite <- nsum_mul_l. apply nsum_ext. intros i Hi. replace (S i - 1)%nat with i by lia. rewrite fpow_S. ring. }
  rewrite E. ring.
Qed.
Lemma ser_geom (p : list K) (c x : K) k : ser_mul (ser_of p) (fun j => c * fpow x j) k - (if (k =? 0)%nat then 0 else x * ser_mul (ser_of p) (fun j => c * fpow x j) (k - 1)) = c * nth k p 0.
Proof.
  unfold ser_mul, ser_of. destruct k as [|k]; cbn [Nat.eqb].
  - cbn. ring.
  - replace (S k - 1)%nat with k by lia. cbn [nsum]. replace (S k - S k)%nat with 0%nat by lia.
    replace (k - k)%nat with 0%nat by lia. change (fpow x 0) with (1 : K).
    rewrite (nsum_ext K k (fun j => nth j p 0 * (c * fpow x (S k - j))) (fun j => x * (nth j p 0 * (c * fpow x (k - j))))).
    + rewrite nsum_mul_l. replace (S k - k)%nat with 1%nat by lia. cbn [fpow]. ring.
    + intros j Hj. replace (S k - j)%nat with (S (k - j)) by lia. rewrite fpow_S. ring.
Qed.

(** numerator and denominator of a sum of geometric series *)
Definition gden (l : list (K * K)) : list K := fold_right (fun t q => lin_mul (snd t) q) [1] l.
Definition gdenv (l : list (K * K)) (y : K) : K := fold_right (fun t q => (1 - snd t * y) * q) 1 l.
Definition padd (p q : list K) : list K := map (fun k => nth k p 0 + nth k q 0) (seq 0 (Nat.max (length p) (length q))).
Fixpoint gnum (l : list (K * K)) (d : K) : list K :=
  match l with [] => [d] | t :: l' => padd (lin_mul (snd t) (gnum l' d)) (map (Fmul (fst t)) (gden l')) end.
Fixpoint gnumv (l : list (K * K)) (d y : K) : K :=
  match l with [] => d | t :: l' => (1 - snd t * y) * gnumv l' d y + fst t * gdenv l' y end.

Lemma padd_nth (p q : list K) k : nth k (padd p q) 0 = nth k p 0 + nth k q 0.
Proof.
  unfold padd. destruct (Nat.lt_ge_cases k (Nat.max (length p) (length q))) as [H|H].
  - now rewrite nth_map_seq by exact H.
  - rewrite nth_overflow by (rewrite map_length, seq_length; exact H). rewrite !nth_overflow by lia. ring.
Qed.
Lemma padd_pv p q y : pv (padd p q) y = pv p y + pv q y.
Proof.
  assert (L : length (padd p q) = Nat.max (length p) (length q)) by (unfold padd; now rewrite map_length, seq_length).
  rewrite (pv_ext_len p y (Nat.max (length p) (length q))), (pv_ext_len q y (Nat.max (length p) (length q))) by lia.
  unfold pv. rewrite L, <- nsum_add. apply nsum_ext. intros i Hi. rewrite padd_nth. ring.
Qed.
Lemma scale_nth (c : K) (p : list K) k : nth k (map (Fmul c) p) 0 = c * nth k p 0.
Proof.
  destruct (Nat.lt_ge_cases k (length p)) as [H|H].
  - now rewrite (nth_map_in _ _ _ _ 0) by exact H.
  - rewrite !nth_overflow by (try rewrite map_length; exact H). ring.
Qed.
Lemma scale_pv (c : K) (p : list K) y : pv (map (Fmul c) p) y = c * pv p y.
Proof. unfold pv. rewrite map_length, <- nsum_mul_l. apply nsum_ext. intros i Hi. rewrite scale_nth. ring. Qed.
Lemma gden_len l : length (gden l) = S (length l).
Proof. induction l as [|t l IH]; [reflexivity|]. cbn [gden fold_right]. rewrite lin_mul_len. fold (gden l). rewrite IH. reflexivity. Qed.
Lemma gnum_len l d : length (gnum l d) = S (length l).
Proof. induction l as [|t l IH]; [reflexivity|]. cbn [gnum]. unfold padd. rewrite map_length, seq_length, lin_mul_len, map_length, gden_len, IH. cbn [length]. lia. Qed.
Lemma gden_pv l y : pv (gden l) y = gdenv l y.
Proof.
  induction l as [|t l IH]; [unfold pv; cbn; ring|]. cbn [gden fold_right]. rewrite lin_mul_pv. fold (gden l). rewrite IH. reflexivity.
Qed.
Lemma gnum_pv l d y : pv (gnum l d) y = gnumv l d y.
Proof.
  induction l as [|t l IH]; [unfold pv; cbn; ring|]. cbn [gnum gnumv]. rewrite padd_pv, lin_mul_pv, scale_pv, gden_pv, IH. reflexivity.
Qed.
Lemma ser_mul_add_r (a f g : nat -> K) k : ser_mul a (fun j => f j + g j) k = ser_mul a f k + ser_mul a g k.
Proof. unfold ser_mul. rewrite <- nsum_add. apply nsum_ext. intros i Hi. ring. Qed.
Lemma gser_cons t (l : list (K * K)) d j : gser (t :: l) d j = gser l d j + fst t * fpow (snd t) j.
Proof. unfold gser. cbn [map]. rewrite lsum_cons. ring. Qed.

(** Q f = P *)
Lemma gser_rat l d k : ser_mul (ser_of (gden l)) (gser l d) k = ser_of (gnum l d) k.
Proof.
  revert k. induction l as [|t l IH]; intros k.
  - cbn [gden fold_right gnum]. unfold ser_mul, ser_of. rewrite nsum_S_l, nsum_0'.
    + unfold gser. cbn [map]. cbn [nth]. replace (k - 0)%nat with k by lia. cbn [lsum fold_right]. destruct k as [|[|k]]; cbn; ring.
    + intros i Hi. rewrite (nth_overflow [1]) by (cbn; lia). ring.
  - rewrite (ser_mul_ext K _ (fun j => gser l d j + fst t * fpow (snd t) j)) by (intros; apply gser_cons). rewrite ser_mul_add_r.
    cbn [gden fold_right]. fold (gden l). rewrite !lin_mul_ser. rewrite !IH.
    assert (E := ser_geom (gden l) (fst t) (snd t) k). unfold ser_of in *. cbn [gnum]. rewrite padd_nth, lin_mul_nth, scale_nth.
    destruct k as [|k]; cbn [Nat.eqb] in *.
    + rewrite <- E. ring.
    + rewrite <- E. ring.
Qed.
Lemma gdenv_neq l y : regular l y -> gdenv l y <> 0.
Proof.
  induction l as [|t l IH]; intros H.
  - cbn. apply F1_neq_0.
  - cbn [gdenv fold_right]. apply fmul_neq0; [apply H; now left|]. apply IH. intros s Hs. apply H. now right.
Qed.
Lemma gnumv_val l d y : regular l y -> gnumv l d y = gdenv l y * gval l d y.
Proof.
  induction l as [|t l IH]; intros H.
  - unfold gval. cbn. ring.
  - assert (Hl : regular l y) by (intros s Hs; apply H; now right). assert (Ht : 1 - snd t * y <> 0) by (apply H; now left).
    cbn [gnumv gdenv fold_right]. fold (gdenv l y). rewrite (IH Hl). unfold gval. cbn [map]. rewrite lsum_cons. field. exact Ht.
Qed.

(** ** Uniqueness *)
Theorem pade_unique (p q P Q : list K) (f : nat -> K) N y :
  (forall k, (k < N)%nat -> ser_mul (ser_of q) f k = ser_of p k) -> (forall k, ser_mul (ser_of Q) f k = ser_of P k) ->
  (length p + length Q <= S N)%nat -> (length P + length q <= S N)%nat -> pv p y * pv Q y = pv P y * pv q y.
Proof.
  intros H1 H2 L1 L2. rewrite (pv_mul p Q y N L1), (pv_mul P q y N L2). apply nsum_ext. intros k Hk. f_equal.
  rewrite (ser_mul_comm K (ser_of p) (ser_of Q)), (ser_mul_comm K (ser_of P) (ser_of q)).
  rewrite <- (ser_mul_ext K (ser_mul (ser_of q) f) (ser_of p)) by (intros i Hi; apply H1; lia).
  rewrite <- (ser_mul_ext K (ser_mul (ser_of Q) f) (ser_of P) (ser_of q)) by (intros i Hi; apply H2).
  apply ser_swap.
Qed.
(** any approximant accurate to high enough order has the exact value wherever its denominator does not vanish *)
Theorem geom_exact (p q : list K) l d N y : (forall k, (k < N)%nat -> ser_mul (ser_of q) (gser l d) k = ser_of p k) ->
  (length p + S (length l) <= S N)%nat -> (length q + S (length l) <= S N)%nat -> regular l y -> pv q y <> 0 -> pv p y / pv q y = gval l d y.
Proof.
  intros H L1 L2 Hr Hq. assert (E := pade_unique p q (gnum l d) (gden l) (gser l d) N y H (gser_rat l d)). rewrite gden_len, gnum_len in E.
  specialize (E L1 ltac:(lia)). rewrite gden_pv, gnum_pv, gnumv_val in E by exact Hr. apply fdiv_eq; [exact Hq|].
  apply (fmul_cancel_l K (gdenv l y)); [now apply gdenv_neq|]. transitivity (pv p y * gdenv l y); [ring|]. rewrite E. ring.
Qed.

(** ** The denominator does not vanish when the number of terms equals its degree *)
Definition proper (l : list (K * K)) : Prop := NoDup (map snd l) /\ forall t, In t l -> fst t <> 0 /\ snd t <> 0.
Lemma gdenv_zero (l : list (K * K)) t : In t l -> snd t <> 0 -> gdenv l (1 / snd t) = 0.
Proof.
  induction l as [|s l IH]; intros Ht Hx; [easy|]. cbn [gdenv fold_right]. fold (gdenv l (1 / snd t)). destruct Ht as [->|Ht].
  - transitivity ((1 - 1) * gdenv l (1 / snd t)); [f_equal; field; exact Hx|ring].
  - rewrite (IH Ht Hx). ring.
Qed.
Lemma inv_reg (x y : K) : x <> 0 -> y <> x -> 1 - y * (1 / x) <> 0.
Proof. intros Hx Hn E. apply Hn. transitivity (x * (1 - (1 - y * (1 / x)))); [field; exact Hx|]. rewrite E. ring. Qed.
Lemma gdenv_other l x : x <> 0 -> ~ In x (map snd l) -> gdenv l (1 / x) <> 0.
Proof.
  intros Hx Hn. apply gdenv_neq. intros t Ht. apply inv_reg; [exact Hx|]. intros E. apply Hn. rewrite <- E. now apply in_map.
Qed.
Lemma gnumv_pole l d t : proper l -> In t l -> gnumv l d (1 / snd t) <> 0.
Proof.
  induction l as [|s l IH]; intros [HN HP] Ht; [easy|]. cbn [map] in HN. inversion HN as [|x l' Hn HN']; subst. cbn [gnumv].
  assert (Hx : snd t <> 0) by now apply HP. destruct Ht as [->|Ht].
  - assert (E : (1 - snd t * (1 / snd t)) * gnumv l d (1 / snd t) + fst t * gdenv l (1 / snd t) = fst t * gdenv l (1 / snd t)) by (field; exact Hx).
    rewrite E. apply fmul_neq0; [apply HP; now left|now apply gdenv_other].
  - rewrite (gdenv_zero l t Ht Hx). assert (E : (1 - snd s * (1 / snd t)) * gnumv l d (1 / snd t) + fst s * 0 = (1 - snd s * (1 / snd t)) * gnumv l d (1 / snd t)) by ring.
    rewrite E. apply fmul_neq0.
    + apply inv_reg; [exact Hx|]. intros E'. apply Hn. rewrite E'. now apply in_map.
    + apply IH; [|exact Ht]. split; [exact HN'|]. intros u Hu. apply HP. now right.
Qed.
Theorem geom_den_neq (p q : list K) l d N y : (forall k, (k < N)%nat -> ser_mul (ser_of q) (gser l d) k = ser_of p k) ->
  (length p + S (length l) <= S N)%nat -> (length q + S (length l) <= S N)%nat -> (length q <= S (length l))%nat -> nonzero q -> proper l -> regular l y -> pv q y <> 0.
Proof.
  intros H L1 L2 L3 (c & Hc & Hc0) HP Hr E.
  assert (HR : forall t, In t l -> pv q (1 / snd t) = 0).
  { intros t Ht. assert (U := pade_unique p q (gnum l d) (gden l) (gser l d) N (1 / snd t) H (gser_rat l d)). rewrite gden_len, gnum_len in U.
    specialize (U L1 ltac:(lia)). rewrite gden_pv, gnum_pv in U. rewrite (gdenv_zero l t Ht) in U by now apply HP.
    apply (fmul_cancel_l K (gnumv l d (1 / snd t))); [now apply gnumv_pole|]. rewrite <- U. ring. }
  set (n := length l) in *. set (pt := fun i => if (i =? n)%nat then y else 1 / snd (nth i l (0, 0))).
  apply Hc0. destruct (In_nth q c 0 Hc) as (j & Hj & <-).
  apply (poly_roots K (length q) (S n) pt (fun j => nth j q 0)); [| |intros i Hi|exact Hj]; try lia.
  - intros i j' Hi Hj' Eij. unfold pt in Eij. destruct (Nat.eqb_spec i n) as [Ei|Ei], (Nat.eqb_spec j' n) as [Ej|Ej]; try lia.
    + exfalso. assert (Hin : In (nth j' l (0, 0)) l) by (apply nth_In; unfold n in *; lia). apply (Hr _ Hin). rewrite Eij. field. now apply HP.
    + exfalso. assert (Hin : In (nth i l (0, 0)) l) by (apply nth_In; unfold n in *; lia). apply (Hr _ Hin). rewrite <- Eij. field. now apply HP.
    + assert (Hi' : In (nth i l (0, 0)) l) by (apply nth_In; unfold n in *; lia). assert (Hj'' : In (nth j' l (0, 0)) l) by (apply nth_In; unfold n in *; lia).
      assert (Es : snd (nth i l (0, 0)) = snd (nth j' l (0, 0))).
      { transitivity (snd (nth i l (0, 0)) * (snd (nth j' l (0, 0)) * (1 / snd (nth j' l (0, 0))))); [field; now apply HP|]. rewrite <- Eij. field. now apply HP. }
      destruct HP as [HN _]. rewrite (NoDup_nth (map snd l) 0) in HN. apply HN; try (rewrite map_length; unfold n in *; lia).
      rewrite !(nth_map_in _ _ _ _ (0, 0)) by (unfold n in *; lia). exact Es.
  - unfold pt. destruct (Nat.eqb_spec i n) as [Ei|Ei]; [exact E|]. apply HR. apply nth_In. unfold n in *; lia.
Qed.
End Ser.
