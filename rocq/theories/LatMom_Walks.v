(** * Counting walks by a sweep over a table of end points *)
From Coq Require Import List ZArith Bool Lia Permutation.
From Verif Require Import LatMom_Spec.
Import ListNotations.
Local Open Scope Z_scope.

Lemma site_eqb_eq x y : site_eqb x y = true <-> x = y.
Proof.
  destruct x as [[[a b] c] s], y as [[[a' b'] c'] s']; cbn.
  rewrite !andb_true_iff, !Z.eqb_eq, Nat.eqb_eq. split.
  - intros [[[-> ->] ->] ->]; reflexivity.
  - intros [= -> -> -> ->]; auto.
Qed.

Inductive tree := Leaf | Node (l : tree) (b : list (site * Z)) (r : tree).
Fixpoint bump (v : site) (c : Z) (b : list (site * Z)) : list (site * Z) :=
  match b with
  | [] => [(v, c)]
  | (w, d) :: b => if site_eqb w v then (w, d + c) :: b else (w, d) :: bump v c b
  end.
Fixpoint add (p : positive) (v : site) (c : Z) (t : tree) : tree :=
  let '(l, b, r) := match t with Leaf => (Leaf, [], Leaf) | Node l b r => (l, b, r) end in
  match p with
  | xH => Node l (bump v c b) r
  | xO p => Node (add p v c l) b r
  | xI p => Node l b (add p v c r)
  end.
Fixpoint elements (t : tree) (acc : list (site * Z)) : list (site * Z) :=
  match t with
  | Leaf => acc
  | Node l b r => elements l (b ++ elements r acc)
  end.
Fixpoint count_at (v : site) (b : list (site * Z)) : Z :=
  match b with [] => 0 | (w, d) :: b => (if site_eqb w v then d else 0) + count_at v b end.
Fixpoint find (p : positive) (v : site) (t : tree) : Z :=
  match t with
  | Leaf => 0
  | Node l b r => match p with xH => count_at v b | xO p => find p v l | xI p => find p v r end
  end.
Definition key (v : site) : positive :=
  let '(a, b, c, s) := v in
  Z.to_pos (((((a + 32) * 64 + b + 32) * 64 + c + 32) * 4 + Z.of_nat s)).

Section Sweep.
  Variable nbrs : site -> list site.
  Definition step1 (acc : tree) (vc : site * Z) : tree :=
    fold_left (fun acc n => add (key n) n (snd vc) acc) (nbrs (fst vc)) acc.
  Definition step (t : tree) : tree := fold_left step1 (elements t []) Leaf.
  Fixpoint value (f : site -> Z) (l : list (site * Z)) : Z :=
    match l with [] => 0 | vc :: l => snd vc * f (fst vc) + value f l end.
  Definition start (x : site) : tree := add (key x) x 1 Leaf.
  (** closed walks from two halves: [t] the end points after n steps, then those after n and n + 1 steps *)
  Definition meet (t t' : tree) : Z := value (fun v => find (key v) v t) (elements t' []).
  Fixpoint sweep (n : nat) (t : tree) : list Z :=
    meet t t :: match n with O => [] | S n => let t' := step t in meet t t' :: sweep n t' end.

  Lemma value_app f l l' : value f (l ++ l') = value f l + value f l'.
  Proof. induction l as [|x l IH]; cbn; lia. Qed.
  Lemma value_bump f v c b : value f (bump v c b) = value f b + c * f v.
  Proof.
    induction b as [|[w d] b IH]; cbn; [lia|].
    destruct (site_eqb w v) eqn:E; cbn; [apply site_eqb_eq in E; subst; lia|lia].
  Qed.
  Lemma elements_acc t : forall acc f, value f (elements t acc) = value f (elements t []) + value f acc.
  Proof.
    induction t as [|l IHl b r IHr]; intros acc f; cbn; [lia|].
    rewrite (IHl (b ++ elements r acc)), (IHl (b ++ elements r [])), !value_app, (IHr acc). lia.
  Qed.
  Lemma value_add f v c : forall p t, value f (elements (add p v c t) []) = value f (elements t []) + c * f v.
  Proof.
    induction p as [p IH|p IH|]; intros t; destruct t as [|l b r]; cbn [add elements].
    - rewrite value_app, IH. cbn. lia.
    - rewrite (elements_acc l), (elements_acc l (b ++ elements r [])), !value_app, IH. lia.
    - rewrite (elements_acc (add p v c Leaf)), IH. cbn. lia.
    - rewrite (elements_acc (add p v c l)), (elements_acc l (b ++ elements r [])), IH. lia.
    - cbn. lia.
    - rewrite (elements_acc l), (elements_acc l (b ++ elements r [])), !value_app, value_bump. lia.
  Qed.
  Definition total (f : site -> Z) (x : site) : Z := fold_right Z.add 0 (map f (nbrs x)).
  Lemma value_step1 f vc : forall t, value f (elements (step1 t vc) []) = value f (elements t []) + snd vc * total f (fst vc).
  Proof.
    unfold step1, total. induction (nbrs (fst vc)) as [|n l IH]; intros t; cbn; [lia|].
    rewrite IH, value_add. lia.
  Qed.
  Lemma value_step f t : value f (elements (step t) []) = value (total f) (elements t []).
  Proof.
    unfold step. generalize (elements t []). intros l.
    enough (H : forall t, value f (elements (fold_left step1 l t) []) = value f (elements t []) + value (total f) l) by (rewrite H; reflexivity).
    induction l as [|vc l IH]; intros t'; cbn; [lia|]. rewrite IH, value_step1. lia.
  Qed.
  Lemma value_ext f g l : (forall v, f v = g v) -> value f l = value g l.
  Proof. intros H. induction l as [|x l IH]; cbn; [reflexivity|]. rewrite H, IH. reflexivity. Qed.
  Definition delta (y v : site) : Z := if site_eqb v y then 1 else 0.
  Lemma site_eqb_refl v : site_eqb v v = true. Proof. now apply site_eqb_eq. Qed.
  Lemma count_bump v w c b : count_at v (bump w c b) = count_at v b + c * delta v w.
  Proof.
    unfold delta. induction b as [|[u d] b IH]; cbn; [destruct (site_eqb w v); lia|].
    destruct (site_eqb u w) eqn:E; cbn; [apply site_eqb_eq in E; subst; destruct (site_eqb w v); lia|]. rewrite IH. lia.
  Qed.
  Lemma find_Leaf p v : find p v Leaf = 0. Proof. destruct p; reflexivity. Qed.
  Lemma find_add v w c : forall p q t, (p = q -> True) -> find p v (add q w c t) = find p v t + (if Pos.eqb p q then c * delta v w else 0).
  Proof.
    induction p as [p IH|p IH|]; intros q t _; destruct q as [q|q|]; destruct t as [|l b r]; cbn [add find Pos.eqb]; rewrite ?IH, ?find_Leaf, ?count_bump by auto; cbn; lia.
  Qed.
  Lemma find_step v : forall l t, find (key v) v t = value (delta v) (elements t []) -> find (key v) v (fold_left step1 l t) = value (delta v) (elements (fold_left step1 l t) []).
  Proof.
    assert (A : forall w c t, find (key v) v t = value (delta v) (elements t []) -> find (key v) v (add (key w) w c t) = value (delta v) (elements (add (key w) w c t) [])).
    { intros w c t H. rewrite find_add, value_add, H by auto. destruct (Pos.eqb (key v) (key w)) eqn:E; [reflexivity|].
      unfold delta. destruct (site_eqb w v) eqn:E'; [|lia]. apply site_eqb_eq in E'. subst. rewrite Pos.eqb_refl in E. discriminate. }
    induction l as [|vc l IH]; intros t H; cbn [fold_left]; [exact H|]. apply IH. unfold step1.
    generalize (nbrs (fst vc)). intros ns. revert t H. induction ns as [|n ns IHn]; intros t H; cbn [fold_left]; [exact H|]. apply IHn, A, H.
  Qed.
  (** reversible walks *)
  Hypothesis nbrs_sym : forall x y, fold_right Z.add 0 (map (delta y) (nbrs x)) = fold_right Z.add 0 (map (delta x) (nbrs y)).
  Lemma walks_S m x y : walks nbrs (S m) x y = total (fun v => walks nbrs m v y) x. Proof. reflexivity. Qed.
  Lemma value_start f x : value f (elements (start x) []) = f x.
  Proof. unfold start. rewrite value_add. cbn [elements value]. lia. Qed.
  Lemma iter_walks x y : forall n m, value (fun v => walks nbrs m v y) (elements (Nat.iter n step (start x)) []) = walks nbrs (n + m) x y.
  Proof.
    induction n as [|n IH]; intros m; [change (Nat.iter 0 step (start x)) with (start x); rewrite value_start; reflexivity|].
    change (Nat.iter (S n) step (start x)) with (step (Nat.iter n step (start x))). rewrite value_step.
    change (total (fun v => walks nbrs m v y)) with (fun u => walks nbrs (S m) u y). rewrite IH. f_equal. lia.
  Qed.
  Lemma fold_map_swap (A B : Type) (F : A -> B -> Z) (l : list A) (l' : list B) :
    fold_right Z.add 0 (map (fun a => fold_right Z.add 0 (map (F a) l')) l) = fold_right Z.add 0 (map (fun b => fold_right Z.add 0 (map (fun a => F a b) l)) l').
  Proof.
    induction l as [|a l IH]; cbn [map fold_right].
    - induction l' as [|b l' IH]; cbn [map fold_right]; [reflexivity|rewrite <- IH; reflexivity].
    - rewrite IH. clear IH. induction l' as [|b l' IH]; cbn [map fold_right]; lia.
  Qed.
  Lemma site_eqb_sym x y : site_eqb x y = site_eqb y x.
  Proof.
    destruct x as [[[a b] c] s], y as [[[a' b'] c'] s']. cbn. rewrite (Z.eqb_sym a), (Z.eqb_sym b), (Z.eqb_sym c), (Nat.eqb_sym s). reflexivity.
  Qed.
  Lemma walks_snoc : forall m x y, walks nbrs (S m) x y = total (fun v => walks nbrs m x v) y.
  Proof.
    induction m as [|m IH]; intros x y.
    - unfold total. transitivity (fold_right Z.add 0 (map (delta y) (nbrs x))); [reflexivity|]. rewrite nbrs_sym. f_equal. apply map_ext. intros v. unfold delta. rewrite site_eqb_sym. reflexivity.
    - change (walks nbrs (S (S m)) x y) with (fold_right Z.add 0 (map (fun n => walks nbrs (S m) n y) (nbrs x))).
      rewrite (map_ext _ _ (fun n => IH n y)). unfold total. rewrite (fold_map_swap _ _ (fun n v => walks nbrs m n v)). reflexivity.
  Qed.
  Lemma walks_sym : forall m x y, walks nbrs m x y = walks nbrs m y x.
  Proof.
    induction m as [|m IH]; intros x y.
    - cbn. rewrite site_eqb_sym. reflexivity.
    - rewrite walks_snoc. rewrite walks_S. unfold total. f_equal. apply map_ext. intros v. apply IH.
  Qed.
  Definition after (x : site) (n : nat) : tree := Nat.iter n step (start x).
  Lemma find_after x v : forall n, find (key v) v (after x n) = value (delta v) (elements (after x n) []).
  Proof.
    assert (S0 : find (key v) v Leaf = value (delta v) (elements Leaf [])) by apply find_Leaf.
    destruct n as [|n].
    - change (after x 0) with (start x). unfold start. rewrite find_add, value_add by auto. rewrite S0.
      destruct (Pos.eqb (key v) (key x)) eqn:E; [reflexivity|]. unfold delta. destruct (site_eqb x v) eqn:E'; [|reflexivity].
      apply site_eqb_eq in E'. subst. rewrite Pos.eqb_refl in E. discriminate.
    - change (after x (S n)) with (fold_left step1 (elements (after x n) []) Leaf). apply find_step. exact S0.
  Qed.
  Lemma meet_walks x n m : meet (after x n) (after x m) = walks nbrs (m + n) x x.
  Proof.
    unfold meet. rewrite <- iter_walks. apply value_ext. intros v. rewrite find_after, walks_sym.
    transitivity (value (fun u => walks nbrs 0 u v) (elements (after x n) [])); [reflexivity|]. unfold after. rewrite iter_walks. f_equal. lia.
  Qed.
  Lemma sweep_spec x : forall n k m, (m <= 2 * n)%nat -> nth m (sweep n (after x k)) 0 = walks nbrs (2 * k + m) x x.
  Proof.
    induction n as [|n IH]; intros k m H; cbn [sweep].
    - replace m with 0%nat by lia. cbn [nth]. rewrite meet_walks. f_equal. lia.
    - destruct m as [|[|m]]; cbn [nth]; cbv zeta.
      + rewrite meet_walks. f_equal. lia.
      + change (step (after x k)) with (after x (S k)). rewrite meet_walks. f_equal. lia.
      + change (step (after x k)) with (after x (S k)). rewrite IH by lia. f_equal. lia.
  Qed.
  Fixpoint zipadd (a b : list Z) : list Z :=
    match a, b with x :: a, y :: b => x + y :: zipadd a b | _, _ => [] end.
  Definition counts (cell : list site) (n : nat) : list Z :=
    fold_right (fun x acc => zipadd (sweep n (start x)) acc) (repeat 0 (2 * n + 1)) cell.
  Lemma nth_zipadd : forall a b m, length a = length b -> nth m (zipadd a b) 0 = nth m a 0 + nth m b 0.
  Proof.
    induction a as [|x a IH]; intros [|y b] m H; try discriminate; destruct m; cbn; try reflexivity.
    apply IH. now injection H.
  Qed.
  Lemma sweep_length : forall n t, length (sweep n t) = (2 * n + 1)%nat.
  Proof. induction n as [|n IH]; intros t; cbn [sweep length]; [reflexivity|]. cbv zeta. rewrite IH. lia. Qed.
  Lemma zipadd_length : forall a b, length a = length b -> length (zipadd a b) = length a.
  Proof. induction a; intros [|y b] H; try discriminate; cbn; auto. Qed.
  Lemma counts_length cell n : length (counts cell n) = (2 * n + 1)%nat.
  Proof.
    unfold counts. induction cell as [|x cell IH]; cbn [fold_right]; [apply repeat_length|].
    rewrite zipadd_length by (now rewrite sweep_length, IH). apply sweep_length.
  Qed.
  Lemma nth_repeat0 : forall n m, nth m (repeat 0 n) 0 = 0.
  Proof. induction n; destruct m; cbn; auto. Qed.
  Lemma counts_spec cell n m : (m <= 2 * n)%nat -> nth m (counts cell n) 0 = closed_walks nbrs cell m.
  Proof.
    intros H. unfold closed_walks. induction cell as [|x cell IH].
    - cbn [counts fold_right map]. apply nth_repeat0.
    - change (counts (x :: cell) n) with (zipadd (sweep n (start x)) (counts cell n)).
      rewrite nth_zipadd by (now rewrite sweep_length, counts_length).
      rewrite IH. change (start x) with (after x 0). rewrite sweep_spec by exact H. cbn [map fold_right]. reflexivity.
  Qed.

End Sweep.
Section Colour.
  Variable nbrs : site -> list site.
  (** two-colourable lattices have no closed walks of odd length *)
  Variable colour : site -> bool.
  Hypothesis colouring : forall x y, In y (nbrs x) -> colour y = negb (colour x).
  Lemma walks_parity : forall m x y, xorb (colour x) (colour y) = negb (Nat.odd m) -> walks nbrs m x y = 0.
  Proof.
    induction m as [|m IH]; intros x y H.
    - cbn. destruct (site_eqb x y) eqn:E; [|reflexivity]. apply site_eqb_eq in E. subst. rewrite xorb_nilpotent in H. discriminate.
    - cbn [walks]. enough (H' : forall n, In n (nbrs x) -> walks nbrs m n y = 0).
      { clear H. induction (nbrs x) as [|n l IHl]; cbn; [reflexivity|].
        rewrite H', IHl by (try (intros; apply H'; right; assumption); left; reflexivity). reflexivity. }
      intros n Hn. apply IH. rewrite (colouring x n Hn).
      rewrite Nat.odd_succ, <- Nat.negb_odd in H. destruct (colour x), (colour y), (Nat.odd m); cbn in *; congruence.
  Qed.
  Lemma closed_walks_odd cell m : Nat.odd m = true -> closed_walks nbrs cell m = 0.
  Proof.
    intros H. unfold closed_walks. induction cell as [|x cell IH]; cbn; [reflexivity|].
    rewrite IH, walks_parity; [reflexivity|]. rewrite xorb_nilpotent, H. reflexivity.
  Qed.
End Colour.

(** ** the lattices are reversible *)
Definition reversible (nbrs : site -> list site) : Prop :=
  forall x y, fold_right Z.add 0 (map (delta y) (nbrs x)) = fold_right Z.add 0 (map (delta x) (nbrs y)).
Definition neg3 (d : Z * Z * Z) : Z * Z * Z := let '(i, j, k) := d in (- i, - j, - k).
Lemma fold_perm l l' : Permutation l l' -> fold_right Z.add 0 l = fold_right Z.add 0 l'.
Proof. induction 1; cbn; lia. Qed.
Lemma bravais_reversible steps : Permutation (map neg3 steps) steps -> reversible (bravais steps).
Proof.
  intros P [[[a b] c] s] [[[a' b'] c'] s']. cbn [bravais]. rewrite !map_map.
  etransitivity; [|apply fold_perm, Permutation_map, P]. rewrite map_map. f_equal. apply map_ext. intros [[i j] k]. unfold delta, neg3. cbn [site_eqb].
  replace (a' + - i =? a) with (a + i =? a') by (destruct (Z.eqb_spec (a + i) a'), (Z.eqb_spec (a' + - i) a); lia || reflexivity).
  replace (b' + - j =? b) with (b + j =? b') by (destruct (Z.eqb_spec (b + j) b'), (Z.eqb_spec (b' + - j) b); lia || reflexivity).
  replace (c' + - k =? c) with (c + k =? c') by (destruct (Z.eqb_spec (c + k) c'), (Z.eqb_spec (c' + - k) c); lia || reflexivity).
  rewrite (Nat.eqb_sym s' s). reflexivity.
Qed.
Lemma eqb_m1 x y : (x - 1 =? y) = (y + 1 =? x). Proof. destruct (Z.eqb_spec (x - 1) y), (Z.eqb_spec (y + 1) x); lia || reflexivity. Qed.
Ltac rev_tac := intros [[[a b] c] s] [[[a' b'] c'] s'];
  destruct s as [|[|[|s]]], s' as [|[|[|s']]]; unfold delta; cbn [honeycomb kagome lieb map fold_right site_eqb Nat.eqb]; rewrite ?andb_false_r, ?andb_true_r, ?eqb_m1;
  rewrite ?(Z.eqb_sym a' a), ?(Z.eqb_sym b' b), ?(Z.eqb_sym c' c); lia.
Lemma honeycomb_rev : reversible honeycomb. Proof. rev_tac. Qed.
Lemma kagome_rev : reversible kagome. Proof. rev_tac. Qed.
Lemma lieb_rev : reversible lieb. Proof. rev_tac. Qed.
Ltac perm_tac := cbn; repeat match goal with
  | |- Permutation (?x :: ?l) ?r => 
      let rec split_at acc r := lazymatch r with
        | x :: ?r' => let acc' := eval cbn in (rev acc) in apply (Permutation_cons_app acc' r'); cbn
        | ?y :: ?r' => split_at (y :: acc) r'
        end in split_at (@nil (Z * Z * Z)) r
  | |- Permutation [] [] => constructor
  end.
Lemma chain_rev : reversible chain. Proof. apply bravais_reversible. perm_tac. Qed.
Lemma square_rev : reversible square. Proof. apply bravais_reversible. perm_tac. Qed.
Lemma sc_rev : reversible simple_cubic. Proof. apply bravais_reversible. perm_tac. Qed.
Lemma bcc_rev : reversible body_centered. Proof. apply bravais_reversible. perm_tac. Qed.
Lemma fcc_rev : reversible face_centered. Proof. apply bravais_reversible. perm_tac. Qed.
Lemma triangular_rev : reversible triangular. Proof. apply bravais_reversible. perm_tac. Qed.
