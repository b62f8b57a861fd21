(** * Cauchy matrices are injective

    Library file: sum_j d_j/(z_i - p_j) = 0 at as many distinct points as there are distinct poles
    forces d = 0. *)
From Coq Require Import List Arith Lia Bool Field.
From Verif Require Import Base FSum Herm_Proofs Pade_Spec PadeKind_Proofs Linalg_Model Linalg_Proofs Mat.
Import ListNotations.
Local Open Scope fld_scope.

Section C.
Variable K : Fld.
Add Field KFcau : (Fth K).

Definition prodl (l : list K) : list K := fold_right (fun c q => plin K c q) [1] l.
Lemma prodl_eval l x : peval (prodl l) x = prodsub K l x.
Proof. induction l as [|a l IH]; [cbn; ring|]. cbn [prodl fold_right]. rewrite peval_plin. fold (prodl l). now rewrite IH. Qed.
Lemma prodl_length l : length (prodl l) = S (length l).
Proof.
  induction l as [|a l IH]; [reflexivity|]. cbn [prodl fold_right length]. fold (prodl l). unfold plin. rewrite padd_length, pscale_length. cbn [length]. lia.
Qed.

Definition others (n j : nat) (p : nat -> K) : list K := map p (filter (fun k => negb (k =? j)%nat) (seq 0 n)).
Lemma others_length n j p : (j < n)%nat -> length (others n j p) = (n - 1)%nat.
Proof.
  intros Hj. unfold others. rewrite map_length.
  assert (E0 : forall t q, (j < t)%nat -> length (filter (fun k => negb (k =? j)%nat) (seq t q)) = q).
  { intros t q; revert t; induction q as [|q IHq]; intros t Ht; [reflexivity|]. cbn [seq filter].
    rewrite (proj2 (Nat.eqb_neq t j)) by lia. cbn. now rewrite IHq by lia. }
  assert (E : forall s m, (s <= j < s + m)%nat -> length (filter (fun k => negb (k =? j)%nat) (seq s m)) = (m - 1)%nat).
  { intros s m; revert s. induction m as [|m IH]; intros s Hs; [lia|]. cbn [seq filter].
    destruct (Nat.eqb_spec s j) as [->|N]; cbn [negb].
    - rewrite E0 by lia. lia.
    - cbn [length]. rewrite IH by lia. lia. }
  apply E. lia.
Qed.
Lemma others_in n j p k : (k < n)%nat -> k <> j -> In (p k) (others n j p).
Proof. intros Hk N. unfold others. apply in_map. apply filter_In. split; [apply in_seq; lia|]. now rewrite (proj2 (Nat.eqb_neq k j) N). Qed.
Lemma others_notin n j p : distinct K n p -> (j < n)%nat -> ~ In (p j) (others n j p).
Proof.
  intros HD Hj Hin. unfold others in Hin. apply in_map_iff in Hin. destruct Hin as (k & E & Hk).
  apply filter_In in Hk. destruct Hk as (Hk & Hne). apply in_seq in Hk. rewrite (HD k j ltac:(lia) Hj E) in Hne.
  rewrite Nat.eqb_refl in Hne. discriminate.
Qed.
(** product over all = (x - p_j) * product over the others *)
Lemma prodsub_filter (f : nat -> K) x j l : NoDup l -> In j l ->
  prodsub K (map f l) x = (x - f j) * prodsub K (map f (filter (fun k => negb (k =? j)%nat) l)) x.
Proof.
  induction l as [|a l IH]; intros HN Hin; [destruct Hin|]. inversion HN as [|? ? Ha HN']; subst. cbn [map filter].
  destruct (Nat.eqb_spec a j) as [->|N]; cbn [negb].
  - assert (E : filter (fun k => negb (k =? j)%nat) l = l).
    { clear - Ha. induction l as [|b l IH]; [reflexivity|]. cbn. destruct (Nat.eqb_spec b j) as [->|]; [exfalso; apply Ha; now left|].
      cbn. f_equal. apply IH. intros H; apply Ha; now right. }
    rewrite E. reflexivity.
  - cbn [map]. change (prodsub K (f a :: map f l) x) with ((x - f a) * prodsub K (map f l) x).
    change (prodsub K (f a :: ?q) x) with ((x - f a) * prodsub K q x).
    destruct Hin as [E|Hin]; [congruence|]. rewrite (IH HN' Hin).
    change (prodsub K (f a :: map f (filter (fun k => negb (k =? j)%nat) l)) x) with ((x - f a) * prodsub K (map f (filter (fun k => negb (k =? j)%nat) l)) x). ring.
Qed.

Fixpoint comb (n : nat) (d : nat -> K) (q : nat -> list K) : list K :=
  match n with O => [] | S m => padd K (comb m d q) (pscale K (d m) (q m)) end.
Lemma comb_eval n d q x : peval (comb n d q) x = nsum n (fun j => d j * peval (q j) x).
Proof. induction n as [|n IH]; [reflexivity|]. cbn [comb nsum]. now rewrite peval_padd, peval_pscale, IH. Qed.
Lemma comb_length n d q m : (forall j, (j < n)%nat -> (length (q j) <= m)%nat) -> (length (comb n d q) <= m)%nat.
Proof.
  induction n as [|n IH]; intros H; [cbn; lia|]. cbn [comb]. rewrite padd_length, pscale_length.
  assert (A := H n ltac:(lia)). assert (B := IH ltac:(intros; apply H; lia)). lia.
Qed.
Lemma peval_nsum (p : list K) x : peval p x = nsum (length p) (fun i => nth i p 0 * fpow x i).
Proof.
  induction p as [|a p IH]; [reflexivity|]. cbn [length peval]. rewrite (nsum_S_l K). cbn [nth]. rewrite IH, <- nsum_mul_l.
  f_equal; [cbn; ring|]. apply nsum_ext. intros i Hi. cbn [fpow nth]. ring.
Qed.

Theorem cauchy_inj n (p z : nat -> K) (d : nat -> K) : distinct K n p -> distinct K n z ->
  (forall i j, (i < n)%nat -> (j < n)%nat -> z i <> p j) ->
  (forall i, (i < n)%nat -> nsum n (fun j => d j / (z i - p j)) = 0) -> forall j, (j < n)%nat -> d j = 0.
Proof.
  intros Dp Dz Hzp Hz j Hj.
  set (q := fun k => prodl (others n k p)). set (N := comb n d q).
  assert (LN : (length N <= n)%nat).
  { apply comb_length. intros k Hk. unfold q. rewrite prodl_length, others_length by exact Hk. lia. }
  assert (EN : forall x, peval N x = nsum n (fun k => d k * prodsub K (others n k p) x)).
  { intros x. unfold N. rewrite comb_eval. apply nsum_ext. intros k Hk. unfold q. now rewrite prodl_eval. }
  assert (ZN : forall i, (i < n)%nat -> peval N (z i) = 0).
  { intros i Hi. rewrite EN. transitivity (prodsub K (map p (seq 0 n)) (z i) * nsum n (fun k => d k / (z i - p k))).
    - rewrite <- nsum_mul_l. apply nsum_ext. intros k Hk.
      rewrite (prodsub_filter p (z i) k (seq 0 n)) by (try apply seq_NoDup; apply in_seq; lia). unfold others.
      field. intros E. apply (Hzp i k Hi Hk). now apply fsub_eq0.
    - rewrite Hz by exact Hi. ring. }
  assert (CN : forall i, (i < length N)%nat -> nth i N 0 = 0).
  { apply (poly_roots K (length N) n z (fun i => nth i N 0) Dz LN). intros i Hi. rewrite <- peval_nsum. now apply ZN. }
  assert (E : peval N (p j) = 0).
  { rewrite peval_nsum. apply nsum_0'. intros i Hi. rewrite CN by exact Hi. ring. }
  rewrite EN, (nsum_single K n j) in E; [|exact Hj|].
  - destruct (fmul_eq0 K _ _ E) as [|E2]; [assumption|]. exfalso. apply prodsub_eq0 in E2. now apply (others_notin n j p).
  - intros k Hk Nk. assert (Z : prodsub K (others n k p) (p j) = 0) by (apply prodsub_eq0; apply others_in; lia). rewrite Z. ring.
Qed.
End C.
