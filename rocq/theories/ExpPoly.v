(** * Zeros of P(x) exp(b x) + Q(x)

    Library file: a non-trivial exponential polynomial has fewer real zeros than the number of its
    coefficients (Rolle). *)
From Coq Require Import List Arith Reals Lia Lra Bool Psatz.
From Coquelicot Require Import Coquelicot.
From Verif Require Import Base FSum CBase Herm_Proofs Mat.
Import ListNotations.
Local Open Scope R_scope.

Fixpoint pev (p : list R) (x : R) : R := match p with [] => 0 | a :: q => a + x * pev q x end.
Fixpoint padd (p q : list R) : list R :=
  match p, q with [], _ => q | _, [] => p | a :: p', b :: q' => (a + b) :: padd p' q' end.
Definition pscal (c : R) (p : list R) : list R := map (Rmult c) p.
(** derivative: p = a + x q  ->  p' = q + x q' *)
Fixpoint pder (p : list R) : list R := match p with [] => [] | _ :: q => padd q (match pder q with [] => [] | d => 0 :: d end) end.

Lemma pev_padd p q x : pev (padd p q) x = pev p x + pev q x.
Proof. revert q; induction p as [|a p IH]; intros [|b q]; cbn; try ring. rewrite IH. ring. Qed.
Lemma pev_pscal c p x : pev (pscal c p) x = c * pev p x.
Proof. induction p as [|a p IH]; cbn; [ring|]. unfold pscal in IH. rewrite IH. ring. Qed.
Lemma padd_length p q : length (padd p q) = Nat.max (length p) (length q).
Proof. revert q; induction p as [|a p IH]; intros [|b q]; cbn; try lia. rewrite IH. lia. Qed.
Lemma pder_length p : length (pder p) = (length p - 1)%nat.
Proof.
  induction p as [|a p IH]; [reflexivity|]. cbn [pder]. rewrite padd_length. destruct (pder p) as [|d ds] eqn:E; cbn [length] in *; lia.
Qed.
Lemma pev_pder p x : is_derive (pev p) x (pev (pder p) x).
Proof.
  induction p as [|a p IH]; cbn [pev pder].
  - apply (is_derive_const (V := R_NormedModule)).
  - rewrite pev_padd. replace (pev p x + pev (match pder p with [] => [] | r :: l => 0 :: r :: l end) x) with (pev p x + x * pev (pder p) x).
    2:{ f_equal. destruct (pder p); cbn; ring. }
    apply (is_derive_ext (fun x => plus a (mult x (pev p x)))); [reflexivity|].
    evar_last.
    + apply (is_derive_plus (V := R_NormedModule)); [apply (is_derive_const (V := R_NormedModule))|].
      apply (is_derive_mult (fun y => y) (pev p)); [apply (is_derive_id (K := R_AbsRing))|exact IH|intros; apply Rmult_comm].
    + unfold plus, mult, one, zero; cbn. ring.
Qed.

Definition epol (b : R) (P Q : list R) (x : R) : R := pev P x * exp (b * x) + pev Q x.
Lemma epol_derive b P Q x : is_derive (epol b P Q) x (epol b (padd (pder P) (pscal b P)) (pder Q) x).
Proof.
  unfold epol. evar_last.
  - apply (is_derive_plus (V := R_NormedModule)); [|apply pev_pder].
    apply (is_derive_mult (pev P) (fun y => exp (b * y))); [apply pev_pder| |intros; apply Rmult_comm].
    auto_derive; [trivial|reflexivity].
  - rewrite pev_padd, pev_pscal. unfold plus, mult, one; cbn. ring.
Qed.

(** strictly increasing lists *)
Fixpoint incr (x : R) (l : list R) : Prop := match l with [] => True | y :: l' => x < y /\ incr y l' end.
Lemma rolle (f f' : R -> R) : (forall x, is_derive f x (f' x)) -> forall l x, incr x l -> f x = 0 -> (forall y, In y l -> f y = 0) ->
  exists l', length l' = length l /\ incr x l' /\ forall y, In y l' -> f' y = 0.
Proof.
  intros Hd l; induction l as [|y l IH]; intros x Hi Hx Hl.
  - exists []. repeat split. intros y [].
  - destruct Hi as (Hxy & Hi). destruct (IH y Hi (Hl y (or_introl eq_refl)) (fun z Hz => Hl z (or_intror Hz))) as (l' & H1 & H2 & H3).
    destruct (MVT_cor2 f f' x y Hxy) as (c & Hc & Hc2).
    { intros c _. apply is_derive_Reals. apply Hd. }
    assert (Hc0 : f' c = 0).
    { rewrite Hx, (Hl y (or_introl eq_refl)) in Hc. apply (Rmult_eq_reg_r (y - x)); lra. }
    exists (c :: l'). split; [cbn; lia|]. split.
    + split; [lra|]. destruct l' as [|z l']; [exact I|]. destruct H2 as (Hz & H2). split; [lra|exact H2].
    + intros z [<-|Hz]; [exact Hc0|now apply H3].
Qed.
Lemma incr_weaken x y l : x <= y -> incr y l -> incr x l.
Proof. destruct l as [|z l]; [trivial|]. intros H (H1 & H2). split; [lra|exact H2]. Qed.
Lemma incr_gt x l y : incr x l -> In y l -> x < y.
Proof.
  revert x; induction l as [|z l IH]; intros x H; [intros []|]. destruct H as (H1 & H2). intros [<-|Hin]; [exact H1|].
  specialize (IH z H2 Hin). lra.
Qed.
Lemma incr_distinct x l n : incr x l -> n = length l -> distinct RF n (fun i => nth i l 0).
Proof.
  revert x n; induction l as [|y l IH]; intros x n H ->; [intros i j Hi; cbn in Hi; lia|].
  destruct H as (H1 & H2). intros [|i] [|j] Hi Hj E; cbn [length nth] in *; try reflexivity.
  - exfalso. assert (X := incr_gt y l (nth j l 0) H2 (nth_In l 0 (proj2 (Nat.succ_lt_mono _ _) Hj))). change (y = nth j l 0) in E. rewrite <- E in X. exact (Rlt_irrefl _ X).
  - exfalso. assert (X := incr_gt y l (nth i l 0) H2 (nth_In l 0 (proj2 (Nat.succ_lt_mono _ _) Hi))). change (nth i l 0 = y) in E. rewrite E in X. exact (Rlt_irrefl _ X).
  - f_equal. apply (IH y (length l) H2 eq_refl i j); [lia|lia|exact E].
Qed.

Lemma pev_nsum p n x : length p = n -> pev p x = nsum (K := RF) n (fun i => nth i p 0 * fpow (K := RF) x i).
Proof.
  revert n; induction p as [|a p IH]; intros n <-; [reflexivity|]. cbn [length]. rewrite (nsum_S_l RF). cbn [pev nth].
  rewrite (IH (length p) eq_refl). rewrite <- (nsum_mul_l RF). cbn. f_equal; [ring|].
  apply (nsum_ext RF). intros i Hi. cbn. ring.
Qed.
Lemma poly_zero p x l : incr x l -> (length p <= length l)%nat -> (forall y, In y l -> pev p y = 0) -> forall c, In c p -> c = 0.
Proof.
  intros Hi Hl Hz c Hin. destruct (In_nth p c 0 Hin) as (i & Hi2 & <-).
  apply (poly_roots RF (length p) (length l) (fun j => nth j l 0) (fun j => nth j p 0)); [now apply incr_distinct with x|exact Hl| |exact Hi2].
  intros j Hj. rewrite <- (pev_nsum p (length p)) by reflexivity. apply Hz, nth_In, Hj.
Qed.

(** P' + b P = 0 forces P = 0 *)
Lemma nth_padd p q i : nth i (padd p q) 0 = nth i p 0 + nth i q 0.
Proof.
  revert q i; induction p as [|a p IH]; intros [|b q] [|i]; cbn; try ring. apply IH.
Qed.
Lemma nth_pder p i : nth i (pder p) 0 = INR (S i) * nth (S i) p 0.
Proof.
  revert i; induction p as [|a p IH]; intros i; [destruct i; cbn; ring|]. cbn [pder]. rewrite nth_padd. cbn [nth].
  destruct i as [|i].
  - replace (nth 0 match pder p with [] => [] | r :: l => 0 :: r :: l end 0) with 0 by (destruct (pder p); reflexivity). cbn. ring.
  - replace (nth (S i) match pder p with [] => [] | r :: l => 0 :: r :: l end 0) with (nth i (pder p) 0) by (destruct (pder p); [destruct i|]; reflexivity).
    rewrite IH. rewrite (S_INR (S i)). ring.
Qed.
Lemma nth_pscal c p i : nth i (pscal c p) 0 = c * nth i p 0.
Proof. revert i; induction p as [|a p IH]; intros [|i]; cbn; try ring. apply IH. Qed.

Lemma op_inj b P : b <> 0 -> (forall c, In c (padd (pder P) (pscal b P)) -> c = 0) -> forall c, In c P -> c = 0.
Proof.
  intros Hb H. assert (E : forall i, INR (S i) * nth (S i) P 0 + b * nth i P 0 = 0).
  { intros i. rewrite <- nth_pder, <- nth_pscal, <- nth_padd.
    destruct (nth_in_or_default i (padd (pder P) (pscal b P)) 0) as [Hin|Ed]; [now apply H|exact Ed]. }
  assert (Z : forall k i, (length P <= i + k)%nat -> nth i P 0 = 0).
  { induction k as [|k IH]; intros i Hi; [apply nth_overflow; lia|]. assert (E1 := E i). rewrite (IH (S i)) in E1 by lia.
    apply (Rmult_eq_reg_l b); [lra|exact Hb]. }
  intros c Hin. destruct (In_nth P c 0 Hin) as (i & Hi & <-). apply (Z (length P)). lia.
Qed.

Theorem epol_zeros b : b <> 0 -> forall Q P x l, incr x l -> (length P + length Q <= length l)%nat ->
  (forall y, In y l -> epol b P Q y = 0) -> (forall c, In c P -> c = 0) /\ (forall c, In c Q -> c = 0).
Proof.
  intros Hb. assert (G : forall k Q P x l, length Q = k -> incr x l -> (length P + length Q <= length l)%nat ->
    (forall y, In y l -> epol b P Q y = 0) -> (forall c, In c P -> c = 0) /\ (forall c, In c Q -> c = 0)).
  { induction k as [|k IH]; intros Q P x l HQ Hi Hl Hz.
    - destruct Q; [|discriminate]. split; [|intros c []]. apply (poly_zero P x l Hi); [cbn in Hl; lia|].
      intros y Hy. specialize (Hz y Hy). unfold epol in Hz. cbn in Hz. assert (E := exp_pos (b * y)).
      rewrite Rplus_0_r in Hz. destruct (Rmult_integral _ _ Hz); lra.
    - destruct l as [|y l]; [cbn in Hl; lia|]. destruct Hi as (Hxy & Hi).
      destruct (rolle (epol b P Q) (epol b (padd (pder P) (pscal b P)) (pder Q)) (epol_derive b P Q) l y Hi) as (l' & L1 & L2 & L3).
      { apply Hz. now left. } { intros z Hin. apply Hz. now right. }
      destruct (IH (pder Q) (padd (pder P) (pscal b P)) y l') as (Z1 & Z2).
      { rewrite pder_length. lia. } { exact L2. }
      { rewrite padd_length, !pder_length. unfold pscal. rewrite map_length. cbn [length] in Hl. lia. } { exact L3. }
      assert (ZP := op_inj b P Hb Z1). split; [exact ZP|].
      apply (poly_zero Q x (y :: l)); [split; assumption|lia|]. intros z Hin. specialize (Hz z Hin). unfold epol in Hz.
      assert (EP : pev P z = 0).
      { clear - ZP. induction P as [|a P IH]; [reflexivity|]. cbn. rewrite (ZP a) by now left. rewrite IH by (intros; apply ZP; now right). ring. }
      rewrite EP in Hz. lra. }
  intros Q P x l. now apply G with (k := length Q).
Qed.
