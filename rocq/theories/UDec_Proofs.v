(** * Proofs about UDecomposition.s *)
From Coq Require Import List Arith Reals Lia Lra Permutation Sorted FinFun.
From Coquelicot Require Import Coquelicot.
From Verif Require Import Base FSum CBase LinPred_Burg Linalg_Model Linalg_Proofs Mat Matrix_Model Matrix_Proofs UDec_Spec UDec_Model.
Import ListNotations.
Local Open Scope C_scope.

Lemma insert_perm x l : Permutation (x :: l) (insert x l).
Proof. induction l as [|y l IH]; cbn; [apply Permutation_refl|]. destruct (Rle_dec x y); [apply Permutation_refl|]. eapply perm_trans; [apply perm_swap|now apply perm_skip]. Qed.
Lemma sort_perm l : Permutation l (np_sort l).
Proof. induction l as [|x l IH]; cbn; [constructor|]. eapply perm_trans; [apply perm_skip, IH|apply insert_perm]. Qed.
Lemma insert_sorted x l : StronglySorted Rle l -> StronglySorted Rle (insert x l).
Proof.
  induction 1 as [|y l H IH F]; cbn; [repeat constructor|]. destruct (Rle_dec x y) as [L|L].
  - constructor; [now constructor|]. constructor; [exact L|]. eapply Forall_impl; [|exact F]. intros z Hz. lra.
  - constructor; [exact IH|]. apply (Permutation_Forall (insert_perm x l)). constructor; [lra|exact F].
Qed.
Lemma sort_sorted l : StronglySorted Rle (np_sort l).
Proof. induction l as [|x l IH]; cbn; [constructor|now apply insert_sorted]. Qed.
Lemma sorted_nth l : StronglySorted Rle l -> forall i j, (i <= j)%nat -> (j < length l)%nat -> (nth i l 0 <= nth j l 0)%R.
Proof.
  induction 1 as [|y l H IH F]; intros i j Hij Hj; cbn in *; [lia|]. destruct i as [|i], j as [|j]; try lia; [lra| |apply IH; lia].
  rewrite Forall_forall in F. apply F, nth_In. lia.
Qed.
Lemma s_length e : length (s e) = length e.
Proof. unfold s. rewrite rev_length, <- (Permutation_length (sort_perm _)). apply map_length. Qed.
Lemma s_perm e : Permutation (map Cmod e) (s e).
Proof. unfold s. eapply perm_trans; [apply sort_perm|apply Permutation_rev]. Qed.
Lemma s_desc e k l : (k <= l)%nat -> (l < length e)%nat -> (nth l (s e) 0 <= nth k (s e) 0)%R.
Proof.
  intros H1 H2. assert (L : length (np_sort (map Cmod e)) = length e) by (rewrite <- (Permutation_length (sort_perm _)); apply map_length).
  unfold s. rewrite !rev_nth by lia. apply sorted_nth; [apply sort_sorted|lia|lia].
Qed.

Lemma sumC_ext n f g : (forall k, (k < n)%nat -> f k = g k) -> sumC n f = sumC n g.
Proof. apply (nsum_ext CF). Qed.
Lemma sumC_list n f : sumC n f = fold_right Cplus (RtoC 0) (map f (seq 0 n)).
Proof.
  unfold sumC. induction n as [|n IH]; [reflexivity|]. rewrite seq_S, map_app, fold_right_app. cbn [nsum map fold_right Nat.add]. rewrite IH.
  generalize (map f (seq 0 n)). intros l. change (@Fadd CF) with Cplus. induction l as [|x l IHl]; cbn [fold_right]; [ring|]. rewrite <- IHl. ring.
Qed.
Lemma fold_perm (l l' : list C) : Permutation l l' -> fold_right Cplus (RtoC 0) l = fold_right Cplus (RtoC 0) l'.
Proof. induction 1; cbn; [reflexivity|now f_equal|ring|congruence]. Qed.
Lemma sumC_bij n p f : (forall k, (k < n)%nat -> (p k < n)%nat) -> (forall k l, (k < n)%nat -> (l < n)%nat -> p k = p l -> k = l) ->
  sumC n (fun k => f (p k)) = sumC n f.
Proof.
  intros B I. rewrite !sumC_list, <- (map_map p f). apply fold_perm, Permutation_map, NoDup_Permutation_bis.
  - assert (G : forall l, NoDup l -> (forall x, In x l -> (x < n)%nat) -> NoDup (map p l)).
    { induction 1 as [|x l H1 H2 IH]; intros Hl; cbn; constructor; [|apply IH; intros; apply Hl; now right].
      intros Hx. apply in_map_iff in Hx. destruct Hx as (y & E & Hy). apply H1. rewrite <- (I y x); [exact Hy|apply Hl; now right|apply Hl; now left|exact E]. }
    apply G; [apply seq_NoDup|]. intros x Hx. apply in_seq in Hx. lia.
  - now rewrite map_length, !seq_length.
  - intros x Hx. apply in_map_iff in Hx. destruct Hx as (y & <- & Hy). apply in_seq in Hy. apply in_seq. specialize (B y). lia.
Qed.

Definition sgn (x : R) : C := if Rle_dec 0 x then RtoC 1 else RtoC (-1).
Lemma sgn_sqr x : sgn x * sgn x = 1.
Proof. unfold sgn. destruct (Rle_dec 0 x); apply C_ext; cbn; ring. Qed.
Lemma sgn_conj x : Cconj (sgn x) = sgn x.
Proof. unfold sgn. destruct (Rle_dec 0 x); apply C_ext; cbn; ring. Qed.
Lemma sgn_abs x : RtoC (Rabs x) * sgn x = RtoC x.
Proof. unfold sgn. destruct (Rle_dec 0 x); [rewrite Rabs_pos_eq by assumption|rewrite Rabs_left by lra]; apply C_ext; cbn; ring. Qed.

(** a unitary diagonalisation with real eigenvalues gives a singular value decomposition *)
Lemma s_of_diag n (A U : nat -> nat -> C) e : length e = n -> unitary_mat n U -> (forall x, In x e -> Cconj x = x) ->
  (forall i j, (i < n)%nat -> (j < n)%nat -> A i j = sumC n (fun k => U i k * nth k e (RtoC 0) * Cconj (U j k))) -> singular_values n A (s e).
Proof.
  intros Le HU He HA.
  destruct (proj1 (Permutation_nth (map Cmod e) (s e) 0%R) (s_perm e)) as (_ & p & Bp & Ip & Ep).
  rewrite map_length, Le in Bp, Ip, Ep.
  assert (En : forall k, (k < n)%nat -> nth k (s e) 0%R = Cmod (nth (p k) e (RtoC 0))).
  { intros k Hk. rewrite Ep by exact Hk. rewrite (nth_indep _ 0%R (Cmod (RtoC 0))) by (rewrite map_length, Le; now apply Bp). apply map_nth. }
  split; [now rewrite s_length|]. split; [intros k Hk; rewrite En by exact Hk; apply Cmod_ge_0|].
  split; [intros k l H1 H2; apply s_desc; lia|].
  assert (UP : forall (c : nat -> C), (forall k, c k * c k = 1) -> (forall k, Cconj (c k) = c k) -> unitary_mat n (fun i k => c k * U i (p k))).
  { intros c C1 C2 k l Hk Hl. rewrite (sumC_ext n _ (fun i => (c k * c l) * (Cconj (U i (p k)) * U i (p l)))) by (intros; rewrite Cconj_mult, C2; ring).
    unfold sumC. rewrite (nsum_mul_l CF). fold (sumC n (fun i => Cconj (U i (p k)) * U i (p l))). rewrite HU by (apply Bp; assumption). unfold delta.
    destruct (Nat.eqb_spec k l) as [->|N]; [rewrite Nat.eqb_refl; change (@Fmul CF) with Cmult; rewrite C1; ring|].
    destruct (Nat.eqb_spec (p k) (p l)) as [Q|Q]; [exfalso; apply N, Ip; assumption|]. change (@Fmul CF) with Cmult. ring. }
  exists (fun i k => 1 * U i (p k)), (fun i k => sgn (fst (nth (p k) e (RtoC 0))) * U i (p k)).
  split; [apply (UP (fun _ => 1)); intros; apply C_ext; cbn; ring|]. split; [apply (UP (fun k => sgn (fst (nth (p k) e (RtoC 0))))); intros; [apply sgn_sqr|apply sgn_conj]|].
  intros i j Hi Hj. rewrite HA by assumption. rewrite <- (sumC_bij n p (fun k => U i k * nth k e (RtoC 0) * Cconj (U j k)) Bp Ip). apply sumC_ext. intros k Hk.
  rewrite En by exact Hk. set (x := nth (p k) e (RtoC 0)). assert (Hx : Cconj x = x) by (apply He, nth_In; rewrite Le; now apply Bp).
  assert (X : x = RtoC (fst x)) by (destruct x as [a b]; apply (f_equal snd) in Hx; cbn in Hx; apply C_ext; cbn; lra).
  rewrite Cconj_mult, sgn_conj. rewrite X at 1 2. rewrite Cmod_R. rewrite <- (sgn_abs (fst x)) at 1. ring.
Qed.
Theorem s_singular eighO close0 (A : mat CF) check d : nr A = nc A -> (forall ev, eighO A = Ok ev -> eigh_spec CF Cconj A ev) ->
  decompose_her (K := CF) Cconj eighO close0 A check = Ok d -> singular_values (nr A) (me A) (s (eig d)).
Proof.
  intros Hs HE Hd. destruct (decompose_her_spec CF Cconj eighO close0 A check Hs HE d Hd) as ((V1 & V2) & _ & Le & MI & RE & CT & RL).
  apply (s_of_diag (nr A) (me A) (me (rv d)) (eig d) Le).
  - intros k l Hk Hl. assert (X := inv_comm CF (nr A) _ _ MI k l Hk Hl). refine (eq_trans _ X). apply sumC_ext. intros i Hi. change (@Fmul CF) with Cmult. now rewrite CT.
  - exact RL.
  - intros i j Hi Hj. rewrite <- RE by assumption. unfold recon_full. cbn [me]. rewrite V2. apply sumC_ext. intros k Hk. change (@Fmul CF) with Cmult. now rewrite CT.
Qed.

(** what singular values are good for: they bound the matrix *)
Lemma rows_of_cols n U : unitary_mat n U -> forall i j, (i < n)%nat -> (j < n)%nat -> sumC n (fun k => U i k * Cconj (U j k)) = delta i j.
Proof. intros HU i j Hi Hj. exact (inv_comm CF n (fun k i => Cconj (U i k)) (fun i l => U i l) HU i j Hi Hj). Qed.
Lemma sumC_delta n i (f : nat -> C) : (i < n)%nat -> sumC n (fun k => delta i k * f k) = f i.
Proof. exact (kron_sum CF n i f). Qed.
Lemma norm2_iso n (U : nat -> nat -> C) y : unitary_mat n U -> norm2 n (fun i => sumC n (fun k => U i k * y k)) = norm2 n y.
Proof.
  intros HU. unfold norm2.
  assert (CS : forall m f, Cconj (sumC m f) = sumC m (fun k => Cconj (f k))).
  { intros m f. unfold sumC. induction m as [|m IH]; cbn [nsum]; [apply C_ext; cbn; ring|]. change (@Fadd CF) with Cplus. now rewrite Cconj_plus, IH. }
  rewrite (sumC_ext n _ (fun i => sumC n (fun k => sumC n (fun l => Cconj (y k) * y l * (Cconj (U i k) * U i l))))).
  2:{ intros i Hi. rewrite CS. unfold sumC at 1 2. rewrite <- (nsum_mul_r CF). apply sumC_ext. intros k Hk. change (@Fmul CF) with Cmult. unfold sumC. rewrite <- (nsum_mul_l CF). apply sumC_ext. intros l Hl. change (@Fmul CF) with Cmult. rewrite Cconj_mult. ring. }
  unfold sumC at 1 2. rewrite (nsum_swap CF). apply sumC_ext. intros k Hk. fold (sumC n).
  rewrite (nsum_swap CF). transitivity (sumC n (fun l => delta k l * (Cconj (y k) * y l))); [|now apply (sumC_delta n k (fun l => Cconj (y k) * y l))].
  apply sumC_ext. intros l Hl. rewrite (nsum_mul_l CF). assert (E := HU k l Hk Hl). unfold sumC in E. rewrite E. change (@Fmul CF) with Cmult. ring.
Qed.
Lemma unitary_ctr n V : unitary_mat n V -> unitary_mat n (fun k j => Cconj (V j k)).
Proof. intros HV j l Hj Hl. refine (eq_trans _ (rows_of_cols n V HV j l Hj Hl)). apply sumC_ext. intros k Hk. now rewrite Cconj_conj. Qed.
Lemma norm2_sqr n x : norm2 n x = sumC n (fun i => RtoC (Cmod (x i) * Cmod (x i))).
Proof. apply sumC_ext. intros i Hi. assert (E := Cmod_sqr (x i)). destruct (x i) as [a b]. apply C_ext; cbn in *; lra. Qed.
Definition coords (n : nat) (V : nat -> nat -> C) (x : nat -> C) (k : nat) : C := sumC n (fun j => Cconj (V j k) * x j).
Lemma apply_svd n A U V (sv : nat -> R) x : (forall i j, (i < n)%nat -> (j < n)%nat -> A i j = sumC n (fun k => U i k * RtoC (sv k) * Cconj (V j k))) ->
  unitary_mat n U -> norm2 n (apply_mat n A x) = sumC n (fun k => RtoC ((sv k * sv k) * (Cmod (coords n V x k) * Cmod (coords n V x k)))).
Proof.
  intros HA HU. transitivity (norm2 n (fun i => sumC n (fun k => U i k * (RtoC (sv k) * coords n V x k)))).
  - unfold norm2. apply sumC_ext. intros i Hi. assert (E : apply_mat n A x i = sumC n (fun k => U i k * (RtoC (sv k) * coords n V x k))); [|now rewrite E].
    unfold apply_mat. rewrite (sumC_ext n _ (fun j => sumC n (fun k => U i k * RtoC (sv k) * (Cconj (V j k) * x j)))).
    + unfold sumC at 1 2. rewrite (nsum_swap CF). apply sumC_ext. intros k Hk. rewrite (nsum_mul_l CF). unfold coords, sumC. change (@Fmul CF) with Cmult. ring.
    + intros j Hj. rewrite HA by assumption. unfold sumC. rewrite <- (nsum_mul_r CF). apply (nsum_ext CF). intros k Hk. change (@Fmul CF) with Cmult. match goal with |- ?a = ?b => change (@eq C a b) end. ring.
  - rewrite norm2_iso by exact HU. rewrite norm2_sqr. apply sumC_ext. intros k Hk. f_equal. rewrite Cmod_mult, Cmod_R. assert (Q := Rabs_mult (sv k) (sv k)). rewrite (Rabs_pos_eq (sv k * sv k)) in Q by nra. rewrite Q. ring.
Qed.
Lemma sumC_real n (f : nat -> R) : sumC n (fun k => RtoC (f k)) = RtoC (nsum (K := RF) n f).
Proof. unfold sumC. induction n as [|n IH]; cbn [nsum]; [reflexivity|]. rewrite IH. change (@Fadd CF) with Cplus. change (@Fadd RF) with Rplus. now rewrite RtoC_plus. Qed.
Lemma nsumR_le n (f g : nat -> R) : (forall k, (k < n)%nat -> (f k <= g k)%R) -> (nsum (K := RF) n f <= nsum (K := RF) n g)%R.
Proof. intros H. induction n as [|n IH]; cbn [nsum]; [cbn; lra|]. change (@Fadd RF) with Rplus. apply Rplus_le_compat; [apply IH; intros; apply H; lia|apply H; lia]. Qed.
Theorem sv_bounds n A sv : singular_values (S n) A sv -> forall x,
  (nth n sv 0 * nth n sv 0 * fst (norm2 (S n) x) <= fst (norm2 (S n) (apply_mat (S n) A x)) <= nth 0 sv 0 * nth 0 sv 0 * fst (norm2 (S n) x))%R.
Proof.
  intros (L & P & D & U & V & HU & HV & HA) x. rewrite (apply_svd (S n) A U V (fun k => nth k sv 0%R) x HA HU).
  rewrite <- (norm2_iso (S n) _ x (unitary_ctr _ V HV)). change (fun i => sumC (S n) (fun k => Cconj (V k i) * x k)) with (coords (S n) V x).
  rewrite norm2_sqr, !sumC_real. cbn [fst RtoC]. change Rmult with (@Fmul RF). rewrite <- !(nsum_mul_l RF). change (@Fmul RF) with Rmult.
  split; apply nsumR_le; intros k Hk; apply Rmult_le_compat_r; try (assert (Q := Cmod_ge_0 (coords (S n) V x k)); nra).
  - assert (A1 := P n ltac:(lia)). assert (A2 := D k n ltac:(lia) ltac:(lia)). nra.
  - assert (A1 := P k Hk). assert (A2 := D 0%nat k ltac:(lia) ltac:(lia)). nra.
Qed.
Theorem sv_attained n A sv k : singular_values n A sv -> (k < n)%nat -> exists x, fst (norm2 n x) = 1%R /\ fst (norm2 n (apply_mat n A x)) = (nth k sv 0 * nth k sv 0)%R.
Proof.
  intros (L & P & D & U & V & HU & HV & HA) Hk. exists (fun j => V j k). split; [unfold norm2; rewrite HV by assumption; unfold delta; now rewrite Nat.eqb_refl|].
  rewrite (apply_svd n A U V (fun k => nth k sv 0%R) _ HA HU).
  rewrite (sumC_ext n _ (fun l => delta k l * RtoC (nth l sv 0 * nth l sv 0)%R)); [rewrite sumC_delta by exact Hk; reflexivity|].
  intros l Hl. unfold coords. rewrite HV by assumption. unfold delta. rewrite (Nat.eqb_sym l k). destruct (k =? l)%nat.
  - rewrite Cmod_1. apply C_ext; cbn; ring.
  - rewrite Cmod_0. apply C_ext; cbn; ring.
Qed.

(** stacked eigenvalues *)
Lemma stacked_rows eigs i : (i < length eigs)%nat -> nth i (s_stacked eigs) [] = rev (s (nth (length eigs - S i) eigs [])).
Proof.
  intros Hi. unfold s_stacked, s. rewrite rev_nth by (now rewrite map_length). rewrite map_length, rev_involutive.
  rewrite (nth_indep _ [] ((fun e => np_sort (map Cmod e)) [])) by (rewrite map_length; lia). apply (map_nth (fun e => np_sort (map Cmod e))).
Qed.

(** decompose_hamiltonian: numpy's eigh reads the lower triangle only *)
Theorem hamiltonian_lower eighO close0 (A : mat CF) d : nr A = nc A ->
  (forall ev, eighO A = Ok ev -> eigh_spec CF Cconj (Mat (K := CF) (nr A) (nr A) (lower_hermitian (me A))) ev) ->
  decompose_hamiltonian eighO close0 A = Ok d ->
  forall i j, (i < nr A)%nat -> (j < nr A)%nat -> me (recon_full d (eig d)) i j = lower_hermitian (me A) i j.
Proof.
  intros Hs HE Hd. unfold decompose_hamiltonian, decompose_her in Hd. cbn [andb] in Hd.
  set (H := Mat (K := CF) (nr A) (nr A) (lower_hermitian (me A))) in *.
  destruct (decompose_her_spec CF Cconj (fun _ => eighO A) (fun _ => true) H false eq_refl HE d) as (_ & _ & _ & _ & RE & _); [exact Hd|exact RE].
Qed.
Lemma lower_hermitian_iff n A : (forall i j, (i < n)%nat -> (j < n)%nat -> lower_hermitian A i j = A i j) <-> hermitian n A.
Proof.
  unfold lower_hermitian. split; intros H i j Hi Hj.
  - assert (E := H i j Hi Hj). assert (E' := H j i Hj Hi). destruct (Nat.ltb_spec j i) as [L|L].
    + destruct (Nat.ltb_spec i j); [lia|]. rewrite <- E'. symmetry. apply Cconj_conj.
    + destruct (Nat.ltb_spec i j) as [M|M]; [now rewrite <- E|]. assert (i = j) by lia. subst j. rewrite <- E. apply C_ext; cbn; ring.
  - destruct (Nat.ltb_spec j i); [reflexivity|]. destruct (Nat.ltb_spec i j); [symmetry; now apply H|]. assert (i = j) by lia. subst j.
    assert (E := H i i Hi Hi). destruct (A i i) as [a b]. apply (f_equal snd) in E. cbn in E. apply C_ext; cbn; lra.
Qed.
