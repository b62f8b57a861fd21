(** * FSum: lemmas about sums over a field. *)
From Coq Require Import List Arith Lia Bool Field.
From Verif Require Import Base.
Import ListNotations.
Local Open Scope fld_scope.

Section S.
Variable K : Fld.
Add Field KF : (Fth K).

Lemma F1_neq_0 : (1 : K) <> 0.
Proof. exact (F_1_neq_0 (Fth K)). Qed.

Lemma fmul_neq0 (x y : K) : x <> 0 -> y <> 0 -> x * y <> 0.
Proof.
  intros Hx Hy H. apply Hx.
  assert (E : x = (x * y) / y) by (field; exact Hy).
  rewrite E, H. field; exact Hy.
Qed.

Lemma fmul_eq0 (x y : K) : x * y = 0 -> x = 0 \/ y = 0.
Proof.
  intros H. destruct (Feq_dec x 0); [now left|].
  destruct (Feq_dec y 0); [now right|]. exfalso. now apply (fmul_neq0 x y).
Qed.

Lemma fdiv_neq0 (x y : K) : x <> 0 -> y <> 0 -> x / y <> 0.
Proof.
  intros Hx Hy H. apply Hx.
  assert (E : x = (x / y) * y) by (field; exact Hy). rewrite E, H. ring.
Qed.

Lemma fsub_eq0 (x y : K) : x - y = 0 <-> x = y.
Proof.
  split; intros H.
  - assert (E : x = (x - y) + y) by ring. rewrite E, H; ring.
  - subst; ring.
Qed.

Lemma fmul_cancel_l (c x y : K) : c <> 0 -> c * x = c * y -> x = y.
Proof.
  intros Hc H. assert (E : x = (c * x) / c) by (field; exact Hc).
  rewrite E, H. field; exact Hc.
Qed.

Lemma fdiv_eq (x y z : K) : y <> 0 -> (x / y = z <-> x = z * y).
Proof.
  intros Hy. split; intros H.
  - subst z. field; exact Hy.
  - subst x. field; exact Hy.
Qed.

Lemma fdiv_Ok (x y v : K) : fdiv x y = Ok v -> y <> 0 /\ v = x / y.
Proof. unfold fdiv. destruct (Feq_dec y 0); [discriminate|]. intros [= <-]. auto. Qed.

Lemma fdiv_neq (x y : K) : y <> 0 -> fdiv x y = Ok (x / y).
Proof. unfold fdiv. destruct (Feq_dec y 0); [contradiction|reflexivity]. Qed.

Lemma nsum_ext n (f g : nat -> K) :
  (forall i, (i < n)%nat -> f i = g i) -> nsum n f = nsum n g.
Proof.
  induction n as [|n IH]; intros H; simpl; [reflexivity|].
  rewrite IH, H by (intros; auto with arith); reflexivity.
Qed.

Lemma nsum_0 n : nsum n (fun _ => 0 : K) = 0.
Proof. induction n as [|n IH]; simpl; [reflexivity|rewrite IH; ring]. Qed.

Lemma nsum_0' n (f : nat -> K) : (forall i, (i < n)%nat -> f i = 0) -> nsum n f = 0.
Proof. intros H. rewrite (nsum_ext n f (fun _ => 0)); auto using nsum_0. Qed.

Lemma nsum_add n (f g : nat -> K) : nsum n (fun i => f i + g i) = nsum n f + nsum n g.
Proof. induction n as [|n IH]; simpl; [ring|rewrite IH; ring]. Qed.

Lemma nsum_sub n (f g : nat -> K) : nsum n (fun i => f i - g i) = nsum n f - nsum n g.
Proof. induction n as [|n IH]; simpl; [ring|rewrite IH; ring]. Qed.

Lemma nsum_opp n (f : nat -> K) : nsum n (fun i => - f i) = - nsum n f.
Proof. induction n as [|n IH]; simpl; [ring|rewrite IH; ring]. Qed.

Lemma nsum_mul_l n c (f : nat -> K) : nsum n (fun i => c * f i) = c * nsum n f.
Proof. induction n as [|n IH]; simpl; [ring|rewrite IH; ring]. Qed.

Lemma nsum_mul_r n c (f : nat -> K) : nsum n (fun i => f i * c) = nsum n f * c.
Proof. induction n as [|n IH]; simpl; [ring|rewrite IH; ring]. Qed.

Lemma nsum_split n m (f : nat -> K) :
  nsum (n + m) f = nsum n f + nsum m (fun i => f (n + i)%nat).
Proof.
  induction m as [|m IH]; simpl.
  - rewrite Nat.add_0_r; ring.
  - rewrite Nat.add_succ_r; simpl; rewrite IH; ring.
Qed.

Lemma nsum_S_l n (f : nat -> K) : nsum (S n) f = f O + nsum n (fun i => f (S i)).
Proof. change (S n) with (1 + n)%nat. rewrite nsum_split. simpl. ring. Qed.

Lemma nsum_rev n (f : nat -> K) : nsum n f = nsum n (fun i => f (n - 1 - i)%nat).
Proof.
  induction n as [|n IH]; [reflexivity|].
  rewrite nsum_S_l. cbn [nsum].
  replace (S n - 1 - n)%nat with 0%nat by lia.
  rewrite (nsum_ext n (fun i => f (S n - 1 - i)%nat) (fun i => f (S (n - 1 - i)))).
  2:{ intros i Hi. f_equal. lia. }
  assert (E : nsum n (fun i => f (S i)) = nsum n (fun i => f (S (n - 1 - i)))).
  { clear IH. revert f. 
    assert (R : forall g : nat -> K, nsum n g = nsum n (fun i => g (n - 1 - i)%nat)).
    { induction n as [|m IHm]; intros g; [reflexivity|].
      rewrite nsum_S_l. rewrite (IHm (fun i => g (S i))). cbn [nsum].
      replace (S m - 1 - m)%nat with 0%nat by lia.
      rewrite (nsum_ext m (fun i => g (S (m - 1 - i))) (fun i => g (S m - 1 - i)%nat)).
      2:{ intros i Hi. f_equal. lia. }
      ring. }
    intros f. exact (R (fun i => f (S i))). }
  rewrite E. ring.
Qed.

Lemma nsum_swap n m (f : nat -> nat -> K) :
  nsum n (fun i => nsum m (fun j => f i j)) = nsum m (fun j => nsum n (fun i => f i j)).
Proof.
  induction n as [|n IH]; simpl; [now rewrite nsum_0|].
  rewrite IH. now rewrite nsum_add.
Qed.

(** A sum with at most one non-zero term. *)
Lemma nsum_single n k (f : nat -> K) :
  (k < n)%nat -> (forall i, (i < n)%nat -> i <> k -> f i = 0) -> nsum n f = f k.
Proof.
  intros Hk H. replace n with (k + (1 + (n - k - 1)))%nat by lia.
  rewrite !nsum_split. rewrite (nsum_0' k) by (intros; apply H; lia).
  cbn [nsum]. rewrite (nsum_0' (n - k - 1)%nat) by (intros; apply H; lia).
  rewrite Nat.add_0_r. ring.
Qed.

Lemma nsum_extend n m (f : nat -> K) :
  (n <= m)%nat -> (forall i, (n <= i < m)%nat -> f i = 0) -> nsum m f = nsum n f.
Proof.
  intros Hnm H. replace m with (n + (m - n))%nat by lia. rewrite nsum_split.
  rewrite (nsum_0' (m - n)%nat); [ring|]. intros; apply H; lia.
Qed.

Lemma lsum_app (l1 l2 : list K) : lsum (l1 ++ l2) = lsum l1 + lsum l2.
Proof. induction l1 as [|x l IH]; simpl; [ring|rewrite IH; ring]. Qed.

Lemma lsum_cons x (l : list K) : lsum (x :: l) = x + lsum l.
Proof. reflexivity. Qed.

Lemma lsum_nth (l : list K) : lsum l = nsum (length l) (fun i => nth i l 0).
Proof.
  induction l as [|x l IH]; [reflexivity|].
  cbn [length]. rewrite nsum_S_l. simpl nth. rewrite <- IH. reflexivity.
Qed.

Lemma lsum_map_add {A} (l : list A) (f g : A -> K) :
  lsum (map (fun x => f x + g x) l) = lsum (map f l) + lsum (map g l).
Proof. induction l as [|x l IH]; simpl; [ring|rewrite IH; ring]. Qed.

Lemma lsum_map_sub {A} (l : list A) (f g : A -> K) :
  lsum (map (fun x => f x - g x) l) = lsum (map f l) - lsum (map g l).
Proof. induction l as [|x l IH]; simpl; [ring|rewrite IH; ring]. Qed.

Lemma lsum_map_mul_l {A} (l : list A) c (f : A -> K) :
  lsum (map (fun x => c * f x) l) = c * lsum (map f l).
Proof. induction l as [|x l IH]; simpl; [ring|rewrite IH; ring]. Qed.

Lemma lsum_map_mul_r {A} (l : list A) c (f : A -> K) :
  lsum (map (fun x => f x * c) l) = lsum (map f l) * c.
Proof. induction l as [|x l IH]; simpl; [ring|rewrite IH; ring]. Qed.

Lemma lsum_map_opp {A} (l : list A) (f : A -> K) :
  lsum (map (fun x => - f x) l) = - lsum (map f l).
Proof. induction l as [|x l IH]; simpl; [ring|rewrite IH; ring]. Qed.

Lemma lsum_map_ext {A} (l : list A) (f g : A -> K) :
  (forall x, In x l -> f x = g x) -> lsum (map f l) = lsum (map g l).
Proof. intros H. f_equal. now apply map_ext_in. Qed.

Lemma lsum_map_0 {A} (l : list A) : lsum (map (fun _ => 0 : K) l) = 0.
Proof. induction l as [|x l IH]; simpl; [reflexivity|rewrite IH; ring]. Qed.

Lemma fpow_S (x : K) n : fpow x (S n) = x * fpow x n.
Proof. reflexivity. Qed.

Lemma fpow_add (x : K) n m : fpow x (n + m) = fpow x n * fpow x m.
Proof. induction n as [|n IH]; simpl; [ring|rewrite IH; ring]. Qed.

Lemma fpow_mul (x y : K) n : fpow (x * y) n = fpow x n * fpow y n.
Proof. induction n as [|n IH]; simpl; [ring|rewrite IH; ring]. Qed.

Lemma fpow_1 n : fpow (1 : K) n = 1.
Proof. induction n as [|n IH]; simpl; [ring|rewrite IH; ring]. Qed.

Lemma fpow_fpow (x : K) n m : fpow (fpow x n) m = fpow x (n * m).
Proof.
  induction m as [|m IH]; simpl; [now rewrite Nat.mul_0_r|].
  rewrite IH, Nat.mul_succ_r, Nat.add_comm, fpow_add. reflexivity.
Qed.

Lemma fpow_neq0 (x : K) n : x <> 0 -> fpow x n <> 0.
Proof. intros H. induction n as [|n IH]; simpl; [apply F1_neq_0|now apply fmul_neq0]. Qed.

(** Geometric sum. *)
Lemma geom_sum (x : K) n : (1 - x) * nsum n (fpow x) = 1 - fpow x n.
Proof. induction n as [|n IH]; simpl; [ring|]. 
  transitivity ((1 - x) * nsum n (fpow x) + (1 - x) * fpow x n); [ring|]. rewrite IH. ring. Qed.

Lemma fnat_add n m : @fnat K (n + m) = fnat n + fnat m.
Proof. induction n as [|n IH]; simpl; [ring|rewrite IH; ring]. Qed.

Lemma fnat_mul n m : @fnat K (n * m) = fnat n * fnat m.
Proof. induction n as [|n IH]; simpl; [ring|rewrite fnat_add, IH; ring]. Qed.

Lemma nsum_const n (c : K) : nsum n (fun _ => c) = fnat n * c.
Proof. induction n as [|n IH]; simpl; [ring|rewrite IH; ring]. Qed.

End S.
