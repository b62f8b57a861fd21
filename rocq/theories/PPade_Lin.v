(** * Linear algebra for the pole finding: dimension counts, pencils of multiplication operators *)
From Coq Require Import List Arith Lia Bool Field.
From Verif Require Import Base FSum Herm_Model Herm_Spec Herm_Proofs Herm_Gauss Linalg_Model Linalg_Proofs Mat.
Import ListNotations.
Local Open Scope fld_scope.

Section L.
Variable K : Fld.
Add Field KFpp : (Fth K).

Lemma finite_choice {A : Type} (d : A) n (P : nat -> A -> Prop) : (forall s, (s < n)%nat -> exists a, P s a) -> exists F, forall s, (s < n)%nat -> P s (F s).
Proof.
  induction n as [|n IH]; intros H; [exists (fun _ => d); intros; lia|].
  destruct (IH ltac:(intros; apply H; lia)) as [F HF]. destruct (H n ltac:(lia)) as [a Ha].
  exists (fun s => if (s =? n)%nat then a else F s). intros s Hs. destruct (Nat.eqb_spec s n) as [->|N]; [exact Ha|apply HF; lia].
Qed.

(** the kernel is a coordinate subspace of the basis [V] *)
Definition reveals (r c : nat) (V : nat -> nat -> K) (ker : (nat -> K) -> Prop) : Prop :=
  inj K c V /\ (r <= c)%nat /\ forall w, ker w <-> forall i, (i < r)%nat -> nsum c (fun j => V i j * w j) = 0.

Lemma dim_count c t r V ker (T : nat -> nat -> K) : reveals r c V ker ->
  (forall a, ker (fun i => nsum t (fun j => T i j * a j))) ->
  (forall w, ker w -> exists a : nat -> K, forall i, (i < c)%nat -> w i = nsum t (fun j => T i j * a j)) ->
  (forall a : nat -> K, (forall i, (i < c)%nat -> nsum t (fun j => T i j * a j) = 0) -> forall j, (j < t)%nat -> a j = 0) ->
  (r + t = c)%nat.
Proof.
  intros (HV & Hr & Hk) Hin Honto Hinj. destruct (Nat.lt_trichotomy (r + t) c) as [L|[E|G]]; [exfalso|exact E|exfalso].
  - destruct (finite_choice (fun _ => 0) (c - r) (fun s w => forall i, (i < c)%nat -> nsum c (fun j => V i j * w j) = kron i (r + s))) as [F HF].
    { intros s Hs. destruct (inj_surj K c V (fun i => kron i (r + s)) HV) as [w Hw]. exists w. exact Hw. }
    destruct (finite_choice (fun _ => 0) (c - r) (fun s a => forall i, (i < c)%nat -> F s i = nsum t (fun j => T i j * a j))) as [U HU].
    { intros s Hs. apply Honto. apply Hk. intros i Hi. rewrite HF by lia. unfold kron. destruct (Nat.eqb_spec i (r + s)); [lia|reflexivity]. }
    destruct (wide_null K t (c - r) (fun j s => U s j) ltac:(lia)) as (a & (s0 & Hs0 & Ha) & _ & HZ). apply Ha.
    transitivity (nsum (c - r) (fun s => kron s0 s * a s)); [symmetry; now apply kron_sum|].
    transitivity (nsum (c - r) (fun s => nsum c (fun j => V (r + s0)%nat j * F s j) * a s)).
    { apply nsum_ext. intros s Hs. rewrite HF by lia. f_equal. unfold kron. destruct (Nat.eqb_spec s0 s), (Nat.eqb_spec (r + s0) (r + s)); try reflexivity; lia. }
    rewrite (nsum_ext K (c - r) _ (fun s => nsum c (fun j => V (r + s0)%nat j * (F s j * a s)))) by (intros s Hs; rewrite <- nsum_mul_r; apply nsum_ext; intros; ring).
    rewrite nsum_swap. apply nsum_0'. intros j Hj. rewrite nsum_mul_l. rewrite (nsum_ext K (c - r) _ (fun s => nsum t (fun l => T j l * (U s l * a s)))) by (intros s Hs; rewrite HU by lia; rewrite <- nsum_mul_r; apply nsum_ext; intros; ring).
    rewrite nsum_swap. rewrite nsum_0'; [ring|]. intros l Hl. rewrite nsum_mul_l, HZ by exact Hl. ring.
  - destruct (wide_null K (c - r) t (fun i j => nsum c (fun l => V (r + i)%nat l * T l j)) ltac:(lia)) as (a & (j0 & Hj0 & Ha) & _ & HZ). apply Ha.
    apply Hinj; [|exact Hj0]. apply HV. intros i Hi. destruct (Nat.lt_ge_cases i r) as [A|B]; [apply Hk; [apply Hin|exact A]|].
    assert (E := HZ (i - r)%nat ltac:(lia)). replace (r + (i - r))%nat with i in E by lia. refine (eq_trans _ E).
    rewrite (nsum_ext K t _ (fun j => nsum c (fun l => V i l * (T l j * a j)))) by (intros; rewrite <- nsum_mul_r; apply nsum_ext; intros; ring).
    rewrite nsum_swap. apply nsum_ext. intros l Hl. now rewrite nsum_mul_l.
Qed.

(** ** polynomials of bounded degree as coefficient functions *)
Definition ev (n : nat) (d : nat -> K) (x : K) : K := nsum n (fun j => d j * fpow x j).
Lemma ev_ext n d e x : (forall j, (j < n)%nat -> d j = e j) -> ev n d x = ev n e x.
Proof. intros H. apply nsum_ext. intros j Hj. now rewrite H. Qed.
Lemma ev_sub n d e x : ev n (fun j => d j - e j) x = ev n d x - ev n e x.
Proof. unfold ev. rewrite <- nsum_sub. apply nsum_ext. intros; ring. Qed.
Lemma ev_scal n c d x : ev n (fun j => c * d j) x = c * ev n d x.
Proof. unfold ev. rewrite <- nsum_mul_l. apply nsum_ext. intros; ring. Qed.
Lemma ev_zero n N (z : nat -> K) d : distinct K N z -> (n <= N)%nat -> (forall i, (i < N)%nat -> ev n d (z i) = 0) -> forall j, (j < n)%nat -> d j = 0.
Proof. intros D L H. exact (poly_roots K n N z d D L H). Qed.

(** z d mod G for deg d < m, deg G = m *)
Definition shiftmod (m : nat) (g d : nat -> K) (j : nat) : K := (match j with O => 0 | S i => d i end) - d (m - 1)%nat / g m * g j.
Lemma ev_shift m g d x : (0 < m)%nat -> g m <> 0 -> ev m (shiftmod m g d) x = x * ev m d x - d (m - 1)%nat / g m * ev (S m) g x.
Proof.
  intros Hm Hg. destruct m as [|m]; [lia|]. unfold shiftmod. rewrite ev_sub, ev_scal. replace (S m - 1)%nat with m by lia.
  assert (A : ev (S m) (fun j => match j with O => 0 | S i => d i end) x = x * ev m d x).
  { unfold ev at 1. rewrite nsum_S_l. unfold ev. rewrite <- nsum_mul_l. replace (0 * fpow x 0) with (0 : K) by ring.
    transitivity (nsum m (fun i => d i * fpow x (S i))); [ring|]. apply nsum_ext. intros; cbn [fpow]; ring. }
  rewrite A. unfold ev at 3 4. change (nsum (S (S m)) (fun j => g j * fpow x j)) with (ev (S m) g x + g (S m) * fpow x (S m)).
  change (nsum (S m) (fun j => d j * fpow x j)) with (ev m d x + d m * fpow x m). cbn [fpow]. field. exact Hg.
Qed.
Lemma shiftmod_lin m g (d : nat -> nat -> K) n (a : nat -> K) j : shiftmod m g (fun j => nsum n (fun k => d k j * a k)) j = nsum n (fun k => shiftmod m g (d k) j * a k).
Proof.
  unfold shiftmod. rewrite (nsum_ext K n (fun k => (match j with O => 0 | S i => d k i end - d k (m - 1)%nat / g m * g j) * a k)
    (fun k => (match j with O => 0 | S i => d k i end) * a k - d k (m - 1)%nat * a k * (g j / g m))).
  2:{ intros k Hk. rewrite !(Fdiv_def (Fth K)). ring. }
  rewrite nsum_sub, nsum_mul_r. destruct j; [rewrite (nsum_ext K n (fun k => 0 * a k) (fun _ => 0)) by (intros; ring); rewrite nsum_0|]; rewrite !(Fdiv_def (Fth K)); ring.
Qed.

(** a common multiple: z d + e = t G pointwise iff e = - (z d mod G) *)
Lemma multiple_iff m N (z g d e : nat -> K) : (0 < m)%nat -> (m < N)%nat -> distinct K N z -> g m <> 0 ->
  ((exists t, forall i, (i < N)%nat -> z i * ev m d (z i) + ev m e (z i) = t * ev (S m) g (z i)) <-> forall j, (j < m)%nat -> e j = - shiftmod m g d j).
Proof.
  intros Hm HN D Hg. split.
  - intros [t Ht]. 
    assert (A : forall i, (i < N)%nat -> ev (S m) (fun j => (if (j <? m)%nat then shiftmod m g d j + e j else 0) - (t - d (m - 1)%nat / g m) * g j) (z i) = 0).
    { intros i Hi. rewrite ev_sub, ev_scal. unfold ev at 1. cbn [nsum]. rewrite Nat.ltb_irrefl. rewrite (nsum_ext K m _ (fun j => shiftmod m g d j * fpow (z i) j + e j * fpow (z i) j)).
      2:{ intros j Hj. rewrite (proj2 (Nat.ltb_lt j m) Hj). ring. }
      rewrite nsum_add. fold (ev m (shiftmod m g d) (z i)). fold (ev m e (z i)). rewrite ev_shift by assumption.
      transitivity (z i * ev m d (z i) + ev m e (z i) - t * ev (S m) g (z i)); [ring|]. rewrite Ht by exact Hi. ring. }
    assert (B := ev_zero (S m) N z _ D ltac:(lia) A). cbv beta in B.
    assert (T : t - d (m - 1)%nat / g m = 0).
    { assert (C := B m ltac:(lia)). rewrite Nat.ltb_irrefl in C. destruct (fmul_eq0 K (t - d (m - 1)%nat / g m) (g m)) as [E|E]; [|exact E|contradiction]. transitivity (- (0 - (t - d (m - 1)%nat / g m) * g m)); [ring|]. rewrite C. ring. }
    intros j Hj. assert (C := B j ltac:(lia)). rewrite (proj2 (Nat.ltb_lt j m) Hj), T in C. transitivity (shiftmod m g d j + e j - 0 * g j - shiftmod m g d j); [ring|]. rewrite C. ring.
  - intros H. exists (d (m - 1)%nat / g m). intros i Hi. rewrite (ev_ext m e (fun j => (0 - 1) * shiftmod m g d j)) by (intros j Hj; rewrite H by exact Hj; ring).
    rewrite ev_scal, ev_shift by assumption. ring.
Qed.

(** ** invariant flags and the polynomial with the diagonal as roots *)
Section Flag.
Variables (m : nat) (g : nat -> K).
Hypothesis Hm : (0 < m)%nat.
Hypothesis Hg : g m <> 0.
Variables (X U : nat -> nat -> K) (lam : list K).
Hypothesis HX : inj K m X.
Hypothesis HL : length lam = m.
Hypothesis HU : forall i j, (i < m)%nat -> (j < m)%nat -> (j < i)%nat -> U i j = 0.
Hypothesis HD : forall j, (j < m)%nat -> U j j = nth j lam 0.
Hypothesis HN : forall i j, (i < m)%nat -> (j < m)%nat -> shiftmod m g (fun k => X k j) i = nsum m (fun l => X i l * U l j).
Let N := shiftmod m g.
(** apply (N - lam_k) for k = s-1, s-2, ..., to the vector 1, starting with the last *)
Fixpoint krylov (t : nat) : nat -> K :=
  match t with
  | O => fun j => kron j 0
  | S t => fun j => N (krylov t) j - nth (m - 1 - t) lam 0 * krylov t j
  end.
Lemma krylov_span t : (t <= m)%nat -> exists a : nat -> K, forall i, (i < m)%nat -> krylov t i = nsum (m - t) (fun l => X i l * a l).
Proof.
  induction t as [|t IH]; intros Ht.
  - destruct (inj_surj K m X (fun j => kron j 0) HX) as [a Ha]. exists a. intros i Hi. rewrite Nat.sub_0_r, Ha by exact Hi. reflexivity.
  - destruct (IH ltac:(lia)) as [a Ha]. set (q := (m - S t)%nat). assert (Eq : (m - t = S q)%nat) by (unfold q; lia). assert (Eq2 : (m - 1 - t = q)%nat) by (unfold q; lia). rewrite Eq in Ha. 
    assert (NE : forall i, (i < m)%nat -> N (krylov t) i = nsum (S q) (fun l => nsum m (fun k => X i k * U k l) * a l)).
    { intros i Hi. transitivity (N (fun j => nsum (S q) (fun l => X j l * a l)) i).
      - unfold N, shiftmod. rewrite (Ha (m - 1)%nat) by lia. destruct i; [reflexivity|]. rewrite Ha by lia. reflexivity.
      - unfold N. rewrite (shiftmod_lin m g (fun l j => X j l)). apply nsum_ext. intros l Hl. rewrite HN by lia. reflexivity. }
    exists (fun k => nsum (S q) (fun l => U k l * a l) - nth q lam 0 * a k). intros i Hi. cbn [krylov]. rewrite NE, Ha, Eq2 by exact Hi.
    rewrite (nsum_ext K (S q) _ (fun l => nsum (S q) (fun k => X i k * (U k l * a l)))).
    2:{ intros l Hl. rewrite <- nsum_mul_r. rewrite (nsum_extend K (S q) m); [apply nsum_ext; intros; ring|lia|]. intros k Hk. rewrite HU by lia. ring. }
    rewrite nsum_swap. rewrite <- nsum_mul_l, <- nsum_sub. cbn [nsum].
    match goal with |- ?s + ?rest = _ => assert (RZ : rest = 0) end.
    { rewrite nsum_mul_l. rewrite nsum_0'; [rewrite HD by lia; ring|]. intros l Hl. rewrite HU by lia. ring. }
    rewrite RZ. transitivity (nsum q (fun i0 => nsum q (fun l => X i i0 * (U i0 l * a l)) + X i i0 * (U i0 q * a q) - nth q lam 0 * (X i i0 * a i0))); [ring|].
    apply nsum_ext. intros k Hk. rewrite nsum_mul_l. ring.
Qed.
Lemma krylov_end i : (i < m)%nat -> krylov m i = 0.
Proof. intros Hi. destruct (krylov_span m (le_n _)) as [a Ha]. rewrite Ha, Nat.sub_diag by exact Hi. reflexivity. Qed.
Definition lastprod (t : nat) (x : K) : K := prodsub K (skipn (m - t) lam) x.
Lemma lastprod_S t x : (t < m)%nat -> lastprod (S t) x = (x - nth (m - 1 - t) lam 0) * lastprod t x.
Proof.
  intros Ht. unfold lastprod. replace (m - t)%nat with (S (m - S t)) by lia. set (s := (m - S t)%nat). replace (m - 1 - t)%nat with s by lia.
  assert (Hs : (s < length lam)%nat) by lia. clearbody s. clear - Hs. revert s Hs. induction lam as [|a l IH]; intros s Hs; [cbn in Hs; lia|]. destruct s; [reflexivity|]. cbn [skipn nth length] in *. apply IH. lia.
Qed.
Lemma krylov_low t : (t < m)%nat -> (forall j, (t < j)%nat -> (j < m)%nat -> krylov t j = 0) /\ krylov t t = 1 /\ forall x, ev m (krylov t) x = lastprod t x.
Proof.
  induction t as [|t IH]; intros Ht.
  - split; [intros j H1 H2; cbn; unfold kron; destruct (Nat.eqb_spec j 0); [lia|reflexivity]|]. split; [reflexivity|].
    intros x. unfold lastprod. rewrite Nat.sub_0_r, skipn_all2 by lia. cbn [krylov prodsub fold_right]. unfold ev.
    rewrite (nsum_ext K m _ (fun j => kron 0 j * fpow x j)) by (intros j Hj; unfold kron; rewrite (Nat.eqb_sym j); reflexivity). rewrite kron_sum by lia. reflexivity.
  - destruct (IH ltac:(lia)) as (A & B & C). assert (Z : krylov t (m - 1) = 0) by (destruct (Nat.eq_dec t (m - 1)); [lia|apply A; lia]).
    assert (Sh : forall j, N (krylov t) j = match j with O => 0 | S i => krylov t i end).
    { intros j. unfold N, shiftmod. rewrite Z. rewrite (Fdiv_def (Fth K)). ring. }
    split; [|split].
    + intros j H1 H2. cbn [krylov]. rewrite Sh. destruct j; [lia|]. rewrite !A by lia. ring.
    + cbn [krylov]. rewrite Sh, B, A by lia. ring.
    + intros x. cbn [krylov]. rewrite ev_sub, ev_scal. unfold N. rewrite ev_shift by assumption. rewrite Z, C, lastprod_S by lia. rewrite (Fdiv_def (Fth K)). ring.
Qed.
Theorem flag_poly x : prodsub K lam x * g m = ev (S m) g x.
Proof.
  destruct (krylov_low (m - 1) ltac:(lia)) as (_ & B & C).
  assert (E : ev m (krylov m) x = 0) by (unfold ev; apply nsum_0'; intros i Hi; rewrite krylov_end by exact Hi; ring).
  replace m with (S (m - 1)) in E at 2 by lia. cbn [krylov] in E. rewrite ev_sub, ev_scal in E. unfold N in E. rewrite ev_shift, B, C in E by assumption.
  assert (P : prodsub K lam x = lastprod m x) by (unfold lastprod; now rewrite Nat.sub_diag).
  assert (Q : lastprod m x = (x - nth (m - 1 - (m - 1)) lam 0) * lastprod (m - 1) x) by (replace m with (S (m - 1)) at 1 by lia; apply lastprod_S; lia).
  rewrite P, Q. set (l := nth (m - 1 - (m - 1)) lam 0) in *. set (lp := lastprod (m - 1) x) in *. set (G := ev (S m) g x) in *.
  transitivity ((x * lp - 1 / g m * G - l * lp) * g m + G); [field; exact Hg|]. rewrite E. ring.
Qed.
End Flag.

(** ** the pencil *)
(** eigenvalues of the pencil (A, B): for regular B the diagonal of a Schur form of B^-1 A *)
Definition eig_spec (m : nat) (A B : nat -> nat -> K) (lam : list K) : Prop :=
  inj K m B -> length lam = m /\ exists X U, inj K m X /\ (forall i j, (i < m)%nat -> (j < m)%nat -> (j < i)%nat -> U i j = 0) /\
    (forall j, (j < m)%nat -> U j j = nth j lam 0) /\
    forall i j, (i < m)%nat -> (j < m)%nat -> nsum m (fun k => A i k * X k j) = nsum m (fun k => B i k * nsum m (fun l => X k l * U l j)).

Theorem pencil_roots (m N : nat) (z g : nat -> K) (W V : nat -> nat -> K) (r : nat) (ker : (nat -> K) -> Prop) (lam : list K) :
  (0 < m)%nat -> (m < N)%nat -> distinct K N z -> g m <> 0 -> inj K m W ->
  (forall w, ker w <-> exists t, forall i, (i < N)%nat ->
     z i * ev m (fun j => nsum m (fun k => W j k * w k)) (z i) + ev m (fun j => nsum m (fun k => W j k * w (m + k)%nat)) (z i) = t * ev (S m) g (z i)) ->
  reveals r (m + m) V ker -> eig_spec m V (fun i j => V i (m + j)%nat) lam ->
  length lam = m /\ forall x, prodsub K lam x * g m = ev (S m) g x.
Proof.
  intros Hm HN D Hg HW Hk HV He.
  assert (Hk' : forall w, ker w <-> forall j, (j < m)%nat -> nsum m (fun k => W j k * w (m + k)%nat) = - shiftmod m g (fun j => nsum m (fun k => W j k * w k)) j).
  { intros w. rewrite Hk. apply (multiple_iff m N z g); assumption. }
  destruct (finite_choice (fun _ => 0) m (fun j (w : nat -> K) => forall i, (i < m)%nat -> nsum m (fun k => W i k * w k) = kron i j)) as [Wi HWi].
  { intros j Hj. destruct (inj_surj K m W (fun i => kron i j) HW) as [w Hw]. exists w; exact Hw. }
  (* Phi x = - W^-1 N W x *)
  assert (Inv : forall e : nat -> K, forall i, (i < m)%nat -> nsum m (fun k => W i k * nsum m (fun j => Wi j k * e j)) = e i).
  { intros e i Hi. rewrite (nsum_ext K m _ (fun k => nsum m (fun j => W i k * Wi j k * e j))) by (intros; rewrite <- nsum_mul_l; apply nsum_ext; intros; ring).
    rewrite nsum_swap. rewrite (nsum_ext K m _ (fun j => kron i j * e j)) by (intros j Hj; rewrite nsum_mul_r, HWi by assumption; reflexivity). now apply kron_sum. }
  set (Phi := fun (i j : nat) => nsum m (fun l => Wi l i * - shiftmod m g (fun k => W k j) l)).
  assert (PhiE : forall (x : nat -> K) i, (i < m)%nat -> nsum m (fun k => W i k * nsum m (fun j => Phi k j * x j)) = - shiftmod m g (fun j => nsum m (fun k => W j k * x k)) i).
  { intros x i Hi. rewrite (nsum_ext K m _ (fun k => W i k * nsum m (fun l => Wi l k * - shiftmod m g (fun j => nsum m (fun k => W j k * x k)) l))).
    - now rewrite Inv.
    - intros k Hk0. f_equal. unfold Phi. rewrite (nsum_ext K m _ (fun j => nsum m (fun l => Wi l k * - shiftmod m g (fun k => W k j) l * x j))) by (intros; now rewrite nsum_mul_r).
      rewrite nsum_swap. apply nsum_ext. intros l Hl. rewrite (shiftmod_lin m g (fun k j => W j k)). rewrite <- nsum_opp, <- nsum_mul_l. apply nsum_ext. intros; ring. }
  assert (Er : (r + m = m + m)%nat).
  { apply (dim_count (m + m) m r V ker (fun i j => if (i <? m)%nat then kron i j else Phi (i - m)%nat j) HV).
    - intros a. apply Hk'. intros j Hj.
      rewrite (nsum_ext K m _ (fun k => W j k * nsum m (fun i => Phi k i * a i))).
      2:{ intros k Hk0. f_equal. apply nsum_ext. intros i Hi. rewrite (proj2 (Nat.ltb_ge (m + k) m)) by lia. now replace (m + k - m)%nat with k by lia. }
      rewrite PhiE by exact Hj. f_equal.
      assert (X : forall l, nsum m (fun k => W l k * nsum m (fun j0 => (if (k <? m)%nat then kron k j0 else Phi (k - m)%nat j0) * a j0)) = nsum m (fun k => W l k * a k)).
      { intros l. apply nsum_ext. intros k Hk0. f_equal. rewrite (proj2 (Nat.ltb_lt k m) Hk0). now apply kron_sum. }
      unfold shiftmod. rewrite X. destruct j; [reflexivity|]. now rewrite X.
    - intros w Hw. exists w. intros i Hi. destruct (Nat.ltb_spec i m) as [L|G].
      + symmetry. now apply kron_sum.
      + assert (Hw' := proj1 (Hk' w) Hw).
        assert (Z : forall k, (k < m)%nat -> w (m + k)%nat - nsum m (fun j => Phi k j * w j) = 0).
        { apply HW. intros i' Hi'. rewrite (nsum_ext K m _ (fun k => W i' k * w (m + k)%nat - W i' k * nsum m (fun j => Phi k j * w j))) by (intros; ring).
          rewrite nsum_sub, PhiE, Hw' by exact Hi'. ring. }
        assert (Z' := Z (i - m)%nat ltac:(lia)). replace (m + (i - m))%nat with i in Z' by lia. now apply fsub_eq0.
    - intros a Ha j Hj. specialize (Ha j ltac:(lia)). rewrite (proj2 (Nat.ltb_lt j m) Hj), kron_sum in Ha by exact Hj. exact Ha. }
  assert (r = m) by lia. subst r. destruct HV as (HVi & _ & Hrow).
  assert (Split : forall (w : nat -> K) i, nsum (m + m) (fun j => V i j * w j) = nsum m (fun j => V i j * w j) + nsum m (fun j => V i (m + j)%nat * w (m + j)%nat)).
  { intros w i. now rewrite nsum_split. }
  destruct He as (Hlen & X & U & HX & HU & HD & HAB).
  { intros u Hu. set (w := fun i => if (i <? m)%nat then 0 else u (i - m)%nat).
    assert (Wl : forall k, (k < m)%nat -> w k = 0) by (intros k Hk0; unfold w; now rewrite (proj2 (Nat.ltb_lt k m) Hk0)).
    assert (Wh : forall k, w (m + k)%nat = u k) by (intros k; unfold w; rewrite (proj2 (Nat.ltb_ge (m + k) m)) by lia; now replace (m + k - m)%nat with k by lia).
    assert (Kw : ker w).
    { apply Hrow. intros i Hi. rewrite Split. rewrite nsum_0' by (intros; rewrite Wl by assumption; ring). rewrite (nsum_ext K m _ (fun j => V i (m + j)%nat * u j)) by (intros; now rewrite Wh). rewrite Hu by exact Hi. ring. }
    intros j Hj. apply HW; [|exact Hj]. intros i Hi. assert (E := proj1 (Hk' w) Kw i Hi).
    rewrite (nsum_ext K m _ (fun k => W i k * u k)) in E by (intros; now rewrite Wh). rewrite E.
    assert (Z : forall l, nsum m (fun k => W l k * w k) = 0) by (intros l; apply nsum_0'; intros; rewrite Wl by assumption; ring).
    unfold shiftmod. rewrite Z. destruct i; [|rewrite Z]; rewrite (Fdiv_def (Fth K)); ring. }
  split; [exact Hlen|]. intros x.
  apply (flag_poly m g Hm Hg (fun i j => nsum m (fun k => W i k * X k j)) U lam).
  - intros u Hu. apply HX. intros i Hi. apply (HW (fun k => nsum m (fun j => X k j * u j))); [|exact Hi].
    intros i' Hi'. rewrite <- (Hu i' Hi'). rewrite (nsum_ext K m _ (fun k => nsum m (fun j => W i' k * X k j * u j))) by (intros; rewrite <- nsum_mul_l; apply nsum_ext; intros; ring).
    rewrite nsum_swap. apply nsum_ext. intros j Hj. now rewrite nsum_mul_r.
  - exact Hlen.
  - exact HU.
  - exact HD.
  - intros i j Hi Hj.
    set (w := fun k => if (k <? m)%nat then X k j else - nsum m (fun l => X (k - m)%nat l * U l j)).
    assert (Wl : forall k, (k < m)%nat -> w k = X k j) by (intros k Hk0; unfold w; now rewrite (proj2 (Nat.ltb_lt k m) Hk0)).
    assert (Wh : forall k, w (m + k)%nat = - nsum m (fun l => X k l * U l j)) by (intros k; unfold w; rewrite (proj2 (Nat.ltb_ge (m + k) m)) by lia; now replace (m + k - m)%nat with k by lia).
    assert (Kw : ker w).
    { apply Hrow. intros i' Hi'. rewrite Split. rewrite (nsum_ext K m (fun j0 => V i' j0 * w j0) (fun k => V i' k * X k j)) by (intros; now rewrite Wl). rewrite HAB by assumption.
      rewrite (nsum_ext K m (fun j0 => V i' (m + j0)%nat * w (m + j0)%nat) (fun k => - (V i' (m + k)%nat * nsum m (fun l => X k l * U l j)))) by (intros; rewrite Wh; ring). rewrite nsum_opp. ring. }
    assert (E := proj1 (Hk' w) Kw i Hi).
    assert (S1 : shiftmod m g (fun j0 => nsum m (fun k => W j0 k * w k)) i = shiftmod m g (fun k => nsum m (fun k0 => W k k0 * X k0 j)) i).
    { assert (Q : forall l, nsum m (fun k => W l k * w k) = nsum m (fun k0 => W l k0 * X k0 j)) by (intros l; apply nsum_ext; intros; now rewrite Wl). unfold shiftmod. rewrite Q. destruct i; [reflexivity|]. now rewrite Q. }
    rewrite S1 in E. transitivity (- - shiftmod m g (fun k => nsum m (fun k0 => W k k0 * X k0 j)) i); [ring|]. rewrite <- E.
    rewrite (nsum_ext K m (fun k => W i k * w (m + k)%nat) (fun k => - nsum m (fun l => W i k * X k l * U l j))).
    2:{ intros k Hk0. rewrite Wh. rewrite (nsum_ext K m (fun l => W i k * X k l * U l j) (fun l => W i k * (X k l * U l j))) by (intros; ring). rewrite nsum_mul_l. ring. }
    rewrite nsum_opp, nsum_swap. transitivity (nsum m (fun l => nsum m (fun k => W i k * X k l * U l j))); [ring|]. apply nsum_ext. intros l Hl. now rewrite nsum_mul_r.
Qed.
End L.
