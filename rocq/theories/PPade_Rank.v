(** * Kernels of the linearised rational interpolation problem *)
From Coq Require Import List Arith Lia Bool Field.
From Verif Require Import Base FSum Herm_Model Herm_Spec Herm_Proofs Herm_Gauss Linalg_Model Linalg_Proofs Mat PPade_Lin.
Import ListNotations.
Local Open Scope fld_scope.

Section R.
Variable K : Fld.
Add Field KFpr : (Fth K).

(** ** change of coordinates *)
Lemma inj_inverse n (W : nat -> nat -> K) : inj K n W -> exists Wi, inj K n Wi /\
  (forall (e : nat -> K) i, (i < n)%nat -> nsum n (fun k => W i k * nsum n (fun j => Wi k j * e j)) = e i) /\
  (forall (e : nat -> K) i, (i < n)%nat -> nsum n (fun k => Wi i k * nsum n (fun j => W k j * e j)) = e i).
Proof.
  intros HW.
  destruct (finite_choice (fun _ => 0) n (fun j (w : nat -> K) => forall i, (i < n)%nat -> nsum n (fun k => W i k * w k) = kron i j)) as [Wi HWi].
  { intros j Hj. destruct (inj_surj K n W (fun i => kron i j) HW) as [w Hw]. exists w; exact Hw. }
  assert (C := inv_comm K n W (fun k j => Wi j k) ltac:(intros i j Hi Hj; exact (HWi j Hj i Hi))). cbv beta in C.
  assert (G : forall A B : nat -> nat -> K, (forall i j, (i < n)%nat -> (j < n)%nat -> nsum n (fun k => A i k * B k j) = kron i j) ->
     forall (e : nat -> K) i, (i < n)%nat -> nsum n (fun k => A i k * nsum n (fun j => B k j * e j)) = e i).
  { intros A B H e i Hi. rewrite (nsum_ext K n _ (fun k => nsum n (fun j => A i k * B k j * e j))) by (intros; rewrite <- nsum_mul_l; apply nsum_ext; intros; ring).
    rewrite nsum_swap. rewrite (nsum_ext K n _ (fun j => kron i j * e j)) by (intros j Hj; rewrite nsum_mul_r, H by assumption; reflexivity). now apply kron_sum. }
  assert (P1 := G W (fun k j => Wi j k) ltac:(intros i j Hi Hj; exact (HWi j Hj i Hi))). cbv beta in P1. assert (P2 := G (fun k j => Wi j k) W C). cbv beta in P2.
  exists (fun k j => Wi j k). split; [|split; [exact P1|exact P2]].
  intros u Hu j Hj. rewrite <- (P1 u j Hj). apply nsum_0'. intros k Hk. rewrite Hu by exact Hk. ring.
Qed.

Lemma reveals_change r c V (ker ker' : (nat -> K) -> Prop) W : inj K c W -> (forall w w', (forall i, (i < c)%nat -> w i = w' i) -> ker w -> ker w') ->
  (forall w, ker w <-> ker' (fun i => nsum c (fun j => W i j * w j))) ->
  (forall w w', (forall i, (i < c)%nat -> w i = w' i) -> ker' w -> ker' w') ->
  reveals K r c V ker -> exists V', reveals K r c V' ker'.
Proof.
  intros HW Hex Hk Hex' (HV & Hr & Hrow). destruct (inj_inverse c W HW) as (Wi & HWi & E1 & E2).
  exists (fun i j => nsum c (fun l => V i l * Wi l j)).
  assert (A : forall w i, nsum c (fun j => nsum c (fun l => V i l * Wi l j) * w j) = nsum c (fun l => V i l * nsum c (fun j => Wi l j * w j))).
  { intros w i. rewrite (nsum_ext K c _ (fun j => nsum c (fun l => V i l * Wi l j * w j))) by (intros; now rewrite nsum_mul_r). rewrite nsum_swap. apply nsum_ext. intros l Hl. rewrite <- nsum_mul_l. apply nsum_ext. intros; ring. }
  split; [|split; [exact Hr|]].
  - intros u Hu j Hj. apply (HWi u); [|exact Hj]. intros i Hi. apply (HV (fun l => nsum c (fun j => Wi l j * u j))); [|exact Hi]. intros i' Hi'. rewrite <- A. now apply Hu.
  - intros w. transitivity (ker (fun l => nsum c (fun j => Wi l j * w j))).
    + rewrite Hk. split; apply Hex'; intros i Hi; [symmetry|]; now apply E1.
    + rewrite Hrow. split; intros H i Hi; [rewrite A|rewrite <- A]; now apply H.
Qed.

(** block diagonal *)
Definition blockdiag (a : nat) (W1 W2 : nat -> nat -> K) (i j : nat) : K :=
  if (i <? a)%nat then (if (j <? a)%nat then W1 i j else 0) else (if (j <? a)%nat then 0 else W2 (i - a)%nat (j - a)%nat).
Lemma blockdiag_mul a b W1 W2 (w : nat -> K) i : (i < a + b)%nat -> nsum (a + b) (fun j => blockdiag a W1 W2 i j * w j)
  = if (i <? a)%nat then nsum a (fun j => W1 i j * w j) else nsum b (fun j => W2 (i - a)%nat j * w (a + j)%nat).
Proof.
  intros Hi. rewrite nsum_split. unfold blockdiag. destruct (Nat.ltb_spec i a).
  - rewrite (nsum_0' K b). 2:{ intros j Hj. rewrite (proj2 (Nat.ltb_ge (a + j) a)) by lia. ring. }
    rewrite (nsum_ext K a _ (fun j => W1 i j * w j)); [ring|]. intros j Hj. now rewrite (proj2 (Nat.ltb_lt j a) Hj).
  - rewrite (nsum_0' K a). 2:{ intros j Hj. rewrite (proj2 (Nat.ltb_lt j a) Hj). ring. }
    rewrite (nsum_ext K b _ (fun j => W2 (i - a)%nat j * w (a + j)%nat)); [ring|]. intros j Hj. rewrite (proj2 (Nat.ltb_ge (a + j) a)) by lia. now replace (a + j - a)%nat with j by lia.
Qed.
Lemma blockdiag_inj a b W1 W2 : inj K a W1 -> inj K b W2 -> inj K (a + b) (blockdiag a W1 W2).
Proof.
  intros H1 H2 u Hu j Hj. destruct (Nat.lt_ge_cases j a) as [L|G].
  - apply (H1 u); [|exact L]. intros i Hi. assert (E := Hu i ltac:(lia)). rewrite blockdiag_mul in E by lia. now rewrite (proj2 (Nat.ltb_lt i a) Hi) in E.
  - assert (E := H2 (fun j => u (a + j)%nat)). cbv beta in E. assert (F := E ltac:(intros i Hi; assert (X := Hu (a + i)%nat ltac:(lia)); rewrite blockdiag_mul in X by lia; rewrite (proj2 (Nat.ltb_ge (a + i) a)) in X by lia; replace (a + i - a)%nat with i in X by lia; exact X) (j - a)%nat ltac:(lia)).
    now replace (a + (j - a))%nat with j in F by lia.
Qed.

(** ** polynomials *)
Lemma ev_add n d e x : ev K n (fun j => d j + e j) x = ev K n d x + ev K n e x.
Proof. unfold ev. rewrite <- nsum_add. apply nsum_ext. intros; ring. Qed.
Lemma ev_cons n d x : ev K (S n) d x = d 0%nat + x * ev K n (fun j => d (S j)) x.
Proof. unfold ev. rewrite nsum_S_l, <- nsum_mul_l. cbn [fpow]. f_equal; [ring|]. apply nsum_ext. intros; ring. Qed.
Lemma synth n : forall d a, exists h, forall x, ev K (S n) d x = ev K (S n) d a + (x - a) * ev K n h x.
Proof.
  induction n as [|n IH]; intros d a.
  - exists (fun _ => 0). intros x. unfold ev. cbn. ring.
  - destruct (IH (fun j => d (S j)) a) as [h Hh]. set (rho := ev K (S n) (fun j => d (S j)) a) in *.
    exists (fun j => match j with O => rho | S j => h j end). intros x. rewrite (ev_cons (S n) d x), (ev_cons (S n) d a). fold rho. rewrite Hh.
    rewrite (ev_cons n (fun j => match j with O => rho | S j => h j end)). change (fun j : nat => h j) with h. ring.
Qed.
Lemma div_roots k : forall (p : nat -> K) n d, distinct K k p -> (forall j, (j < k)%nat -> ev K (k + n) d (p j) = 0) ->
  exists h, forall x, ev K (k + n) d x = prodsub K (map p (seq 0 k)) x * ev K n h x.
Proof.
  induction k as [|k IH]; intros p n d D H.
  - exists d. intros x. change (ev K n d x = 1 * ev K n d x). ring.
  - destruct (IH p (S n) d) as [h Hh].
    { intros i j Hi Hj. apply D; lia. } { intros j Hj. replace (k + S n)%nat with (S k + n)%nat by lia. apply H; lia. }
    assert (E := Hh (p k)). replace (k + S n)%nat with (S k + n)%nat in E by lia. rewrite H in E by lia.
    assert (NZ : prodsub K (map p (seq 0 k)) (p k) <> 0).
    { rewrite prodsub_eq0. intros I. apply in_map_iff in I. destruct I as (j & E2 & Ij). apply in_seq in Ij. assert (j = k) by (apply D; [lia|lia|exact E2]). lia. }
    destruct (fmul_eq0 K _ _ (eq_sym E)) as [F|F]; [contradiction|].
    destruct (synth n h (p k)) as [h' Hh']. exists h'. intros x. replace (S k + n)%nat with (k + S n)%nat by lia. rewrite Hh, Hh', F.
    rewrite seq_S, map_app. cbn [map Nat.add].
    assert (PA : forall l1 l2, prodsub K (l1 ++ l2) x = prodsub K l1 x * prodsub K l2 x).
    { induction l1 as [|a l1 IHl]; intros l2; [change (prodsub K l2 x = 1 * prodsub K l2 x); ring|].
      change ((x - a) * prodsub K (l1 ++ l2) x = (x - a) * prodsub K l1 x * prodsub K l2 x). rewrite IHl. ring. }
    rewrite PA. change (prodsub K [p k] x) with ((x - p k) * 1). ring.
Qed.
Lemma ev_prod a u : forall b v, exists c, forall x, ev K (a + b) c x = ev K a u x * ev K b v x.
Proof.
  induction b as [|b IH]; intros v.
  - exists (fun j => if (j <? a)%nat then 0 else 0). intros x. unfold ev at 3. cbn [nsum]. unfold ev at 1. rewrite nsum_0'; [ring|]. intros j Hj. destruct (j <? a)%nat; ring.
  - destruct (IH (fun j => v (S j))) as [c Hc].
    exists (fun j => (if (j <? a)%nat then v 0%nat * u j else 0) + match j with O => 0 | S i => c i end).
    intros x. replace (a + S b)%nat with (S (a + b)) by lia. rewrite ev_add, (ev_cons (a + b) (fun j => match j with O => 0 | S i => c i end)). change (fun j => c j) with c. rewrite Hc, (ev_cons b v).
    replace (ev K (S (a + b)) (fun j => if (j <? a)%nat then v 0%nat * u j else 0) x) with (v 0%nat * ev K a u x); [ring|].
    unfold ev. replace (S (a + b)) with (a + S b)%nat by lia. rewrite nsum_split. rewrite (nsum_0' K (S b)). 2:{ intros j Hj. rewrite (proj2 (Nat.ltb_ge (a + j) a)) by lia. ring. }
    rewrite <- nsum_mul_l. transitivity (nsum a (fun i => (if (i <? a)%nat then v 0%nat * u i else 0) * fpow x i)); [|ring]. apply nsum_ext. intros j Hj. rewrite (proj2 (Nat.ltb_lt j a) Hj). ring.
Qed.
Lemma fpow_add' (x : K) a b : fpow x (a + b) = fpow x a * fpow x b.
Proof. induction a as [|a IH]; cbn [fpow Nat.add]; [ring|]. rewrite IH. ring. Qed.
(** columns x^l Q *)
Definition shiftcol (k : nat) (q : nat -> K) (j l : nat) : K := if ((l <=? j) && (j - l <=? k))%nat then q (j - l)%nat else 0.
Lemma ev_shiftcol k q l n x : (l + k < n)%nat -> ev K n (fun j => shiftcol k q j l) x = fpow x l * ev K (S k) q x.
Proof.
  intros H. unfold ev, shiftcol. replace n with (l + (S k + (n - l - S k)))%nat by lia. rewrite !nsum_split.
  rewrite (nsum_0' K l). 2:{ intros j Hj. rewrite (proj2 (Nat.leb_gt l j)) by lia. cbn. ring. }
  rewrite (nsum_0' K (n - l - S k)). 2:{ intros j Hj. rewrite (proj2 (Nat.leb_gt (l + (S k + j) - l) k)) by lia. rewrite andb_false_r. ring. }
  rewrite <- nsum_mul_l. transitivity (nsum (S k) (fun i => (if ((l <=? l + i) && (l + i - l <=? k))%nat then q (l + i - l)%nat else 0) * fpow x (l + i))); [ring|].
  apply nsum_ext. intros j Hj. rewrite (proj2 (Nat.leb_le l (l + j))) by lia. rewrite (proj2 (Nat.leb_le (l + j - l) k)) by lia. cbn [andb]. replace (l + j - l)%nat with j by lia. rewrite fpow_add'. ring.
Qed.
Lemma ev_shiftcols k q n t h x : (t + k <= n)%nat -> ev K n (fun j => nsum t (fun l => shiftcol k q j l * h l)) x = ev K (S k) q x * ev K t h x.
Proof.
  intros H. unfold ev at 1. rewrite (nsum_ext K n _ (fun j => nsum t (fun l => shiftcol k q j l * h l * fpow x j))) by (intros; now rewrite nsum_mul_r).
  rewrite nsum_swap. unfold ev at 2. rewrite <- nsum_mul_l. apply nsum_ext. intros l Hl.
  transitivity (ev K n (fun j => shiftcol k q j l) x * h l); [unfold ev; rewrite <- nsum_mul_r; apply nsum_ext; intros; ring|]. rewrite ev_shiftcol by lia. ring.
Qed.

(** ** data of a rational function: Q of degree k with distinct roots, P of degree n0 = k - dn without common root *)
Section Rat.
Variables (k n0 dn N : nat) (p z q b f : nat -> K).
Hypothesis Hk : (n0 + dn = k)%nat.
Hypothesis Hp : distinct K k p.
Hypothesis HQ : forall x, ev K (S k) q x = prodsub K (map p (seq 0 k)) x.
Hypothesis HP : forall j, (j < k)%nat -> ev K (S n0) b (p j) <> 0.
Hypothesis Hz : distinct K N z.
Hypothesis Hzp : forall i j, (i < N)%nat -> (j < k)%nat -> z i <> p j.
Hypothesis Hf : forall i, (i < N)%nat -> f i * ev K (S k) q (z i) = ev K (S n0) b (z i).

Lemma Q_z i : (i < N)%nat -> ev K (S k) q (z i) <> 0.
Proof. intros Hi. rewrite HQ, prodsub_eq0. intros I. apply in_map_iff in I. destruct I as (j & E & Ij). apply in_seq in Ij. exact (Hzp i j Hi ltac:(lia) (eq_sym E)). Qed.
Lemma Q_p j : (j < k)%nat -> ev K (S k) q (p j) = 0.
Proof. intros Hj. rewrite HQ, prodsub_eq0. apply in_map. apply in_seq. lia. Qed.

(** f d + e = 0 with deg d <= n, deg e <= n - dn: multiples of (Q, -P) *)
Theorem kernel_multiples n n' d e : (n' + dn = S n)%nat -> (n0 + n + 2 <= N)%nat ->
  (forall i, (i < N)%nat -> f i * ev K (S n) d (z i) + ev K n' e (z i) = 0) ->
  exists h, (forall j, (j < S n)%nat -> d j = nsum (S n - k) (fun l => shiftcol k q j l * h l)) /\
            (forall j, (j < n')%nat -> e j = - nsum (S n - k) (fun l => shiftcol n0 b j l * h l)).
Proof.
  intros Hn' HN H.
  destruct (ev_prod (S n0) b (S n) d) as [c1 H1]. destruct (ev_prod (S k) q n' e) as [c2 H2].
  assert (L : (S k + n' = S n0 + S n)%nat) by lia.
  assert (Z : forall i, (i < N)%nat -> ev K (S n0 + S n) (fun j => c1 j + c2 j) (z i) = 0).
  { intros i Hi. rewrite ev_add, H1, <- L, H2, <- Hf by exact Hi. transitivity (ev K (S k) q (z i) * (f i * ev K (S n) d (z i) + ev K n' e (z i))); [ring|]. rewrite H by exact Hi. ring. }
  assert (Z' : forall x, ev K (S n0) b x * ev K (S n) d x + ev K (S k) q x * ev K n' e x = 0).
  { intros x. rewrite <- H1, <- H2, L, <- ev_add. unfold ev. apply nsum_0'. intros j Hj. rewrite (ev_zero K (S n0 + S n) N z _ Hz ltac:(lia) Z j Hj). ring. }
  assert (R : forall j, (j < k)%nat -> ev K (S n) d (p j) = 0).
  { intros j Hj. assert (E := Z' (p j)). rewrite Q_p in E by exact Hj. destruct (fmul_eq0 K (ev K (S n0) b (p j)) (ev K (S n) d (p j))) as [F|F]; [|contradiction (HP j Hj)|exact F].
    rewrite <- E. ring. }
  assert (X : exists h, forall x, ev K (S n) d x = ev K (S k) q x * ev K (S n - k) h x).
  { destruct (Nat.le_gt_cases (S n) k) as [A|A].
    - exists (fun _ => 0). intros x. replace (S n - k)%nat with 0%nat by lia. unfold ev at 3. cbn [nsum].
      assert (D0 := ev_zero K (S n) k p d Hp A R). unfold ev. rewrite nsum_0'; [ring|]. intros j Hj. rewrite D0 by exact Hj. ring.
    - destruct (div_roots k p (S n - k) d Hp) as [h Hh]; [replace (k + (S n - k))%nat with (S n) by lia; exact R|].
      exists h. intros x. rewrite HQ. specialize (Hh x). replace (k + (S n - k))%nat with (S n) in Hh by lia. exact Hh. }
  destruct X as [h Hh]. exists h. split.
  - intros j Hj. apply fsub_eq0. revert j Hj. destruct (Nat.le_gt_cases (S n) k) as [A|A].
    + intros j Hj. replace (S n - k)%nat with 0%nat by lia. cbn [nsum]. rewrite (ev_zero K (S n) k p d Hp A R j Hj). ring.
    + apply (ev_zero K (S n) N z _ Hz ltac:(lia)). intros i Hi. rewrite ev_sub, ev_shiftcols by lia. rewrite Hh. ring.
  - intros j Hj. apply fsub_eq0. revert j Hj. 
    assert (V : forall i, (i < N)%nat -> ev K n' e (z i) = - (ev K (S n0) b (z i) * ev K (S n - k) h (z i))).
    { intros i Hi. assert (E := Z' (z i)). rewrite Hh in E. destruct (fmul_eq0 K (ev K (S k) q (z i)) (ev K (S n0) b (z i) * ev K (S n - k) h (z i) + ev K n' e (z i))) as [F|F].
      - rewrite <- E. ring. - contradiction (Q_z i Hi).
      - transitivity (ev K (S n0) b (z i) * ev K (S n - k) h (z i) + ev K n' e (z i) - ev K (S n0) b (z i) * ev K (S n - k) h (z i)); [ring|]. rewrite F. ring. }
    apply (ev_zero K n' N z _ Hz ltac:(lia)). intros i Hi.
    rewrite (ev_ext K n' _ (fun j => e j + nsum (S n - k) (fun l => shiftcol n0 b j l * h l))) by (intros; ring). rewrite ev_add.
    destruct (Nat.le_gt_cases (S n) k) as [A|A].
    + rewrite V by exact Hi. replace (S n - k)%nat with 0%nat by lia. unfold ev at 2. cbn [nsum]. unfold ev at 2. rewrite (nsum_0' K n') by (intros; ring). ring.
    + rewrite ev_shiftcols by lia. rewrite V by exact Hi. ring.
Qed.
Lemma multiples_kernel n n' h : (n' + dn = S n)%nat -> forall i, (i < N)%nat ->
  f i * ev K (S n) (fun j => nsum (S n - k) (fun l => shiftcol k q j l * h l)) (z i) + ev K n' (fun j => - nsum (S n - k) (fun l => shiftcol n0 b j l * h l)) (z i) = 0.
Proof.
  intros Hn' i Hi. rewrite (ev_ext K n' _ (fun j => (0 - 1) * nsum (S n - k) (fun l => shiftcol n0 b j l * h l))) by (intros; ring). rewrite ev_scal.
  destruct (Nat.le_gt_cases (S n) k) as [A|A].
  - replace (S n - k)%nat with 0%nat by lia. cbn [nsum]. unfold ev. rewrite !nsum_0' by (intros; ring). ring.
  - rewrite !ev_shiftcols by lia. rewrite <- Hf by exact Hi. ring.
Qed.

(** the rank of the linearised problem *)
Theorem rational_rank n n' r V W1 W2 ker : (n' + dn = S n)%nat -> (n0 + n + 2 <= N)%nat ->
  inj K (S n) W1 -> inj K n' W2 ->
  (forall w, ker w <-> forall i, (i < N)%nat -> f i * ev K (S n) (fun j => nsum (S n) (fun l => W1 j l * w l)) (z i) + ev K n' (fun j => nsum n' (fun l => W2 j l * w (S n + l)%nat)) (z i) = 0) ->
  reveals K r (S n + n') V ker -> (r + (S n - k) = S n + n')%nat.
Proof.
  intros Hn' HN HW1 HW2 Hker HV.
  set (ker' := fun w : nat -> K => forall i, (i < N)%nat -> f i * ev K (S n) w (z i) + ev K n' (fun j => w (S n + j)%nat) (z i) = 0).
  destruct (reveals_change r (S n + n') V ker ker' (blockdiag (S n) W1 W2)) as [V' HV'].
  - now apply blockdiag_inj.
  - intros w w' Hw. rewrite !Hker. intros H i Hi. rewrite <- (H i Hi). f_equal; [f_equal|]; apply ev_ext; intros j Hj; apply nsum_ext; intros l Hl; rewrite Hw by lia; reflexivity.
  - intros w. rewrite Hker. unfold ker'.
    assert (A : forall i, ev K (S n) (fun i0 => nsum (S n + n') (fun j => blockdiag (S n) W1 W2 i0 j * w j)) (z i) = ev K (S n) (fun j => nsum (S n) (fun l => W1 j l * w l)) (z i)).
    { intros i. apply ev_ext. intros j Hj. rewrite blockdiag_mul by lia. now rewrite (proj2 (Nat.ltb_lt j (S n)) Hj). }
    assert (B : forall i, ev K n' (fun j0 => nsum (S n + n') (fun j => blockdiag (S n) W1 W2 (S n + j0) j * w j)) (z i) = ev K n' (fun j => nsum n' (fun l => W2 j l * w (S n + l)%nat)) (z i)).
    { intros i. apply ev_ext. intros j Hj. rewrite blockdiag_mul by lia. rewrite (proj2 (Nat.ltb_ge (S n + j) (S n))) by lia. now replace (S n + j - S n)%nat with j by lia. }
    split; intros H i Hi; [rewrite A, B|rewrite <- A, <- B]; now apply H.
  - intros w w' Hw H i Hi. rewrite <- (H i Hi). f_equal; [f_equal|]; apply ev_ext; intros j Hj; rewrite Hw by lia; reflexivity.
  - exact HV.
  - apply (dim_count K (S n + n') (S n - k) r V' ker' (fun i l => if (i <? S n)%nat then shiftcol k q i l else - shiftcol n0 b (i - S n) l) HV').
    + intros a i Hi. rewrite <- (multiples_kernel n n' a Hn' i Hi). f_equal; [f_equal|]; apply ev_ext; intros j Hj.
      * now rewrite (proj2 (Nat.ltb_lt j (S n)) Hj).
      * rewrite (proj2 (Nat.ltb_ge (S n + j) (S n))) by lia. replace (S n + j - S n)%nat with j by lia. rewrite <- nsum_opp. apply nsum_ext. intros; ring.
    + intros w Hw. destruct (kernel_multiples n n' w (fun j => w (S n + j)%nat) Hn' HN Hw) as (h & H1 & H2). exists h. intros i Hi. destruct (Nat.ltb_spec i (S n)) as [A|A].
      * now apply H1.
      * assert (E := H2 (i - S n)%nat ltac:(lia)). replace (S n + (i - S n))%nat with i in E by lia. rewrite E, <- nsum_opp. apply nsum_ext. intros; ring.
    + intros a Ha. destruct (Nat.le_gt_cases (S n) k) as [A|A]; [intros; lia|].
      apply (ev_zero K (S n - k) N z a Hz ltac:(lia)). intros i Hi.
      destruct (fmul_eq0 K (ev K (S k) q (z i)) (ev K (S n - k) a (z i))) as [F|F]; [|contradiction (Q_z i Hi)|exact F].
      rewrite <- (ev_shiftcols k q (S n)) by lia. unfold ev. apply nsum_0'. intros j Hj. assert (E := Ha j ltac:(lia)). rewrite (proj2 (Nat.ltb_lt j (S n)) Hj) in E. rewrite E. ring.
Qed.
End Rat.

(** ** factorisations *)
Variable conj : K -> K.
Definition trivial_kernel (A : mat K) : Prop := forall u : nat -> K, (forall i, (i < nr A)%nat -> nsum (nc A) (fun j => me A i j * u j) = 0) -> forall j, (j < nc A)%nat -> u j = 0.
(** reduced QR of a matrix that is not wide; orthonormality of the columns is not needed *)
Definition qrr_spec (A : mat K) (QR : mat K * mat K) : Prop := (nc A <= nr A)%nat ->
  nr (fst QR) = nr A /\ nc (fst QR) = nc A /\ nr (snd QR) = nc A /\ nc (snd QR) = nc A /\
  (forall i j, (i < nr A)%nat -> (j < nc A)%nat -> me A i j = nsum (nc A) (fun k => me (fst QR) i k * me (snd QR) k j)).
Lemma qrr_coords A QR : qrr_spec A QR -> (nc A <= nr A)%nat -> trivial_kernel A ->
  nr (fst QR) = nr A /\ nc (fst QR) = nc A /\ exists W, inj K (nc A) W /\
  forall (x : nat -> K) i, (i < nr A)%nat -> nsum (nc A) (fun k => me (fst QR) i k * x k) = nsum (nc A) (fun j => me A i j * nsum (nc A) (fun k => W j k * x k)).
Proof.
  intros H L T. destruct (H L) as (N1 & N2 & _ & _ & HA). split; [exact N1|]. split; [exact N2|].
  assert (E : forall (u : nat -> K) i, (i < nr A)%nat -> nsum (nc A) (fun j => me A i j * u j) = nsum (nc A) (fun k => me (fst QR) i k * nsum (nc A) (fun j => me (snd QR) k j * u j))).
  { intros u i Hi. rewrite (nsum_ext K (nc A) _ (fun j => nsum (nc A) (fun k => me (fst QR) i k * me (snd QR) k j * u j))) by (intros; rewrite HA by assumption; now rewrite nsum_mul_r).
    rewrite nsum_swap. apply nsum_ext. intros k Hk. rewrite <- nsum_mul_l. apply nsum_ext. intros; ring. }
  assert (IR : inj K (nc A) (me (snd QR))).
  { intros u Hu. apply T. intros i Hi. rewrite E by exact Hi. apply nsum_0'. intros k Hk. rewrite Hu by exact Hk. ring. }
  destruct (inj_inverse _ _ IR) as (W & HW & E1 & E2). exists W. split; [exact HW|]. intros x i Hi. rewrite E by exact Hi. apply nsum_ext. intros k Hk. now rewrite E1.
Qed.
Lemma orth_kernel qr A : conj_ok K conj -> qr_spec K conj A (qr A) -> (nc A < nr A)%nat -> trivial_kernel A ->
  exists P, orth_compl conj qr A = Ok P /\ nr P = (nr A - nc A)%nat /\ nc P = nr A /\
  forall v : nat -> K, (forall i, (i < nr P)%nat -> nsum (nr A) (fun j => me P i j * v j) = 0) <-> exists u : nat -> K, forall i, (i < nr A)%nat -> v i = nsum (nc A) (fun j => me A i j * u j).
Proof.
  intros CJ HQ L T. destruct (orth_compl_spec K conj qr A HQ L CJ) as (P & EP & P1 & P2 & P3 & _). exists P. split; [exact EP|]. split; [exact P1|]. split; [exact P2|].
  unfold orth_compl in EP. rewrite (proj2 (Nat.leb_gt (nr A) (nc A)) L) in EP. injection EP as EP. destruct (qr A) as [Q R]. cbn [fst] in EP.
  destruct HQ as (Q1 & Q2 & Q3 & Q4 & HA & HU & HU' & HT). intros v. split.
  - intros H. set (y := fun k => nsum (nr A) (fun j => conj (me Q j k) * v j)).
    assert (Y : forall k, (nc A <= k)%nat -> (k < nr A)%nat -> y k = 0).
    { intros k G1 G2. unfold y. assert (E := H (k - nc A)%nat ltac:(lia)). rewrite <- EP in E. cbn [ctr cols_from me] in E. replace (nc A + (k - nc A))%nat with k in E by lia. exact E. }
    assert (V : forall i, (i < nr A)%nat -> v i = nsum (nc A) (fun k => me Q i k * y k)).
    { intros i Hi. transitivity (nsum (nr A) (fun k => me Q i k * y k)).
      - unfold y. rewrite (nsum_ext K (nr A) _ (fun k => nsum (nr A) (fun j => me Q i k * conj (me Q j k) * v j))) by (intros; rewrite <- nsum_mul_l; apply nsum_ext; intros; ring).
        rewrite nsum_swap. rewrite (nsum_ext K (nr A) _ (fun j => kron i j * v j)) by (intros j Hj; rewrite nsum_mul_r, HU' by assumption; reflexivity). symmetry. now apply kron_sum.
      - apply nsum_extend; [lia|]. intros k Hk. rewrite Y by lia. ring. }
    assert (E : forall (u : nat -> K) i, (i < nr A)%nat -> nsum (nc A) (fun j => me A i j * u j) = nsum (nc A) (fun k => me Q i k * nsum (nc A) (fun j => me R k j * u j))).
    { intros u i Hi. rewrite (nsum_ext K (nc A) _ (fun j => nsum (nc A) (fun k => me Q i k * me R k j * u j))).
      - rewrite nsum_swap. apply nsum_ext. intros k Hk. rewrite <- nsum_mul_l. apply nsum_ext. intros; ring.
      - intros j Hj. rewrite HA by assumption. rewrite nsum_mul_r. f_equal. apply nsum_extend; [lia|]. intros k Hk. rewrite HT by lia. ring. }
    assert (IR : inj K (nc A) (me R)).
    { intros u Hu. apply T. intros i Hi. rewrite E by exact Hi. apply nsum_0'. intros k Hk. rewrite Hu by exact Hk. ring. }
    destruct (inj_surj K (nc A) (me R) y IR) as [u Hu]. exists u. intros i Hi. rewrite V, E by exact Hi. apply nsum_ext. intros k Hk. now rewrite Hu.
  - intros (u & Hu) i Hi. rewrite (nsum_ext K (nr A) _ (fun j => nsum (nc A) (fun l => me P i j * me A j l * u l))) by (intros j Hj; rewrite Hu by exact Hj; rewrite <- nsum_mul_l; apply nsum_ext; intros; ring).
    rewrite nsum_swap. apply nsum_0'. intros l Hl. rewrite nsum_mul_r. assert (E := P3 i l Hi Hl). unfold mm in E. cbn [me] in E. rewrite P2 in E. rewrite E. ring.
Qed.
End R.
