(** * Proofs about Burg's method: reflection coefficients, variance, errors, stability. *)
From Coq Require Import List Arith Lia Bool Reals Lra Psatz.
From Coquelicot Require Import Coquelicot.
From Verif Require Import Base FSum CBase Herm_Model Herm_Proofs LinPred_Model.
Import ListNotations.
Local Open Scope C_scope.

Ltac cring := cbn [Fadd Fmul Fsub Fopp F0 F1 CF]; match goal with |- @eq _ ?a ?b => change (@eq C a b) end; ring.

Lemma Cconj_plus u v : Cconj (u + v) = Cconj u + Cconj v.
Proof. apply C_ext; cbn; ring. Qed.
Lemma Cconj_mult u v : Cconj (u * v) = Cconj u * Cconj v.
Proof. apply C_ext; cbn; ring. Qed.
Lemma Cconj_conj u : Cconj (Cconj u) = u.
Proof. apply C_ext; cbn; ring. Qed.
Lemma Cconj_R (r : R) : Cconj (RtoC r) = RtoC r.
Proof. apply C_ext; cbn; ring. Qed.
Lemma Cmod_conj u : Cmod (Cconj u) = Cmod u.
Proof. unfold Cmod, Cconj; cbn [fst snd]. f_equal. ring. Qed.

Lemma abs2_def z : abs2 z = (fst z * fst z + snd z * snd z)%R.
Proof. apply Cmod_sqr. Qed.
Lemma abs2_nonneg z : (0 <= abs2 z)%R.
Proof. rewrite abs2_def. nra. Qed.
Lemma abs2_conj z : abs2 (Cconj z) = abs2 z.
Proof. unfold abs2. now rewrite Cmod_conj. Qed.
Lemma abs2_mult u v : abs2 (u * v) = (abs2 u * abs2 v)%R.
Proof. unfold abs2. rewrite Cmod_mult. ring. Qed.

Lemma nthC_map_combine (f : C -> C -> C) (u v : list C) i : (i < length u)%nat -> length u = length v ->
  nth i (zipc f u v) 0 = f (nth i u 0) (nth i v 0).
Proof.
  intros H1 H2. unfold zipc. rewrite (nth_map_in _ _ _ _ (RtoC 0, RtoC 0)) by (rewrite combine_length; lia).
  now rewrite combine_nth by exact H2.
Qed.
Lemma zipc_length f u v : length (zipc f u v) = Nat.min (length u) (length v).
Proof. unfold zipc. now rewrite map_length, combine_length. Qed.

Lemma rsum_nonneg l : (forall r, In r l -> (0 <= r)%R) -> (0 <= rsum l)%R.
Proof.
  induction l as [|a l IH]; cbn; intros H; [lra|]. assert (0 <= a)%R by (apply H; now left).
  assert (0 <= rsum l)%R by (apply IH; intros; apply H; now right). unfold rsum in *. lra.
Qed.
Lemma rsum_abs2_nonneg l : (0 <= rsum (map abs2 l))%R.
Proof. apply rsum_nonneg. intros r Hr. apply in_map_iff in Hr. destruct Hr as (z & <- & _). apply abs2_nonneg. Qed.

Lemma denom_nonneg s : (0 <= rsum (map abs2 (b_forw s)) + rsum (map abs2 (b_back s)))%R.
Proof. assert (H1 := rsum_abs2_nonneg (b_forw s)). assert (H2 := rsum_abs2_nonneg (b_back s)). lra. Qed.

Lemma corr_bound f : forall b, (2 * Cmod (csum (zipc (fun f b => f * Cconj b)%C f b)) <= rsum (map abs2 f) + rsum (map abs2 b))%R.
Proof.
  induction f as [|u f IH]; intros [|v b].
  - cbn. rewrite Cmod_0. lra.
  - change (zipc (fun f b => f * Cconj b) [] (v :: b)) with (@nil C). cbn [csum fold_right]. rewrite Cmod_0.
    assert (H := rsum_abs2_nonneg (v :: b)). cbn [map rsum fold_right] in *. lra.
  - cbn [zipc combine map csum fold_right]. rewrite Cmod_0.
    assert (H := rsum_abs2_nonneg (u :: f)). cbn [map rsum fold_right] in *. lra.
  - cbn [zipc combine map fst snd]. cbn [csum fold_right rsum].
    fold (csum (map (fun p => fst p * Cconj (snd p)) (combine f b))).
    specialize (IH b). unfold zipc in IH. fold (rsum (map abs2 f)). fold (rsum (map abs2 b)).
    set (S := csum _) in *. assert (T := Cmod_triangle (u * Cconj v) S).
    rewrite Cmod_mult, Cmod_conj in T.
    change (abs2 u) with (Cmod u * Cmod u)%R. change (abs2 v) with (Cmod v * Cmod v)%R.
    assert (Hs := Rle_0_sqr (Cmod u - Cmod v)). unfold Rsqr in Hs. unfold rsum, csum, Rminus in *. nra.
Qed.

Lemma Cmod_RtoC_pos r : (0 <= r)%R -> Cmod (RtoC r) = r.
Proof. intros H. rewrite Cmod_R. now apply Rabs_pos_eq. Qed.

Lemma RtoC_neq0 r : r <> 0%R -> RtoC r <> 0.
Proof. intros H E. apply H. now injection E. Qed.

(** the reflection coefficient chosen by a step *)
Lemma burg_step_inv s s' : burg_step s = Ok s' ->
  exists kk, (Cmod kk <= 1)%R /\
    (let D := (rsum (map abs2 (b_forw s)) + rsum (map abs2 (b_back s)))%R in
     (0 < D)%R /\ kk * RtoC D = - 2 * csum (zipc (fun f b => f * Cconj b) (b_forw s) (b_back s))) /\
    s' = {| b_a := zipc (fun p q => p + kk * Cconj q) (b_a s) (rev (b_a s)) ++ [kk];
          b_forw := zipc (fun f b => f + kk * b) (tl (b_forw s)) (tl (b_back s));
          b_back := zipc (fun b f => b + Cconj kk * f) (removelast (b_back s)) (removelast (b_forw s));
          b_rho := ((1 - abs2 kk) * b_rho s)%R |}.
Proof.
  unfold burg_step. set (D := (rsum _ + rsum _)%R). destruct (Req_EM_T D 0) as [|ND]; [discriminate|].
  set (Sm := csum _). intros [= <-].
  assert (HD : (0 < D)%R). { assert (H := denom_nonneg s). fold D in H. lra. }
  exists (- 2 * Sm / RtoC D). split; [|split; [|reflexivity]].
  - rewrite Cmod_div by (apply RtoC_neq0; lra). rewrite Cmod_mult, (Cmod_RtoC_pos D) by lra.
    replace (Cmod (-2)) with 2%R by (rewrite Cmod_R, Rabs_left by lra; ring).
    apply Rmult_le_reg_r with D; [lra|]. unfold Rdiv. rewrite Rmult_assoc, Rinv_l by lra.
    assert (H := corr_bound (b_forw s) (b_back s)). fold D in H. fold Sm in H. lra.
  - cbv zeta. split; [exact HD|]. field. now apply RtoC_neq0.
Qed.

Lemma tl_len {A} (l : list A) : length (tl l) = (length l - 1)%nat.
Proof. destruct l; cbn; lia. Qed.
Lemma removelast_len {A} (l : list A) : length (removelast l) = (length l - 1)%nat.
Proof. rewrite removelast_firstn_len, firstn_length. lia. Qed.

(** ** Invariant of the loop *)
(** forward error: x[t+1+k] + Σ a_j x[t+k-j];  backward error: x[t] + Σ conj(a_j) x[t+1+j]. *)
Definition ferr (a x : list C) t : C :=
  nth (t + 1 + length a) x 0 + nsum (K := CF) (length a) (fun j => nth j a 0 * nth (t + length a - j) x 0).
Definition berr (a x : list C) t : C :=
  nth t x 0 + nsum (K := CF) (length a) (fun j => Cconj (nth j a 0) * nth (t + 1 + j) x 0).

Record burg_inv (x : list C) (k : nat) (s : burg_state) : Prop := {
  bi_a : length (b_a s) = k;
  bi_f : length (b_forw s) = (length x - 1 - k)%nat;
  bi_b : length (b_back s) = (length x - 1 - k)%nat;
  bi_fe : forall t, (t < length x - 1 - k)%nat -> nth t (b_forw s) 0 = ferr (b_a s) x t;
  bi_be : forall t, (t < length x - 1 - k)%nat -> nth t (b_back s) 0 = berr (b_a s) x t }.

Lemma nth_tl {A} (l : list A) i d : nth i (tl l) d = nth (S i) l d.
Proof. destruct l; [destruct i; reflexivity|reflexivity]. Qed.
Lemma nth_removelast (l : list C) i : (i < length l - 1)%nat -> nth i (removelast l) 0 = nth i l 0.
Proof. intros H. rewrite removelast_firstn_len. apply nth_firstn'. lia. Qed.

Lemma burg_init_inv x s : burg_init x = Ok s -> burg_inv x 0 s /\ b_rho s = (rsum (map abs2 x) / INR (length x))%R.
Proof.
  destruct x as [|x0 x]; [discriminate|]. intros [= <-]. split; [|reflexivity].
  set (X := x0 :: x). change x with (tl X) at 1.
  split; cbn [b_a b_forw b_back length nth].
  - reflexivity.
  - unfold X. cbn [length tl]. lia.
  - change (length (removelast X) = (length X - 1 - 0)%nat). rewrite removelast_len. lia.
  - intros t Ht. unfold ferr. cbn [length nsum]. change x with (tl X). rewrite nth_tl.
    rewrite Nat.add_0_r, Nat.add_1_r. cbn. ring.
  - intros t Ht. change (nth t (removelast X) 0 = berr [] X t). rewrite nth_removelast by lia. unfold berr. cbn. ring.
Qed.

Lemma Cadd_F (u v : C) : (u + v)%C = (@Fadd CF u v). Proof. reflexivity. Qed.
Lemma Cmul_F (u v : C) : (u * v)%C = (@Fmul CF u v). Proof. reflexivity. Qed.

(** coefficients after one step *)
Lemma step_coef kk (a : list C) j : (j < length a)%nat ->
  nth j (zipc (fun p q => p + kk * Cconj q) a (rev a) ++ [kk]) 0 = nth j a 0 + kk * Cconj (nth (length a - 1 - j) a 0).
Proof.
  intros H. rewrite app_nth1 by (rewrite zipc_length, rev_length; lia).
  rewrite nthC_map_combine by (rewrite ?rev_length; lia). rewrite rev_nth by lia.
  replace (length a - S j)%nat with (length a - 1 - j)%nat by lia. reflexivity.
Qed.
Lemma step_coef_last kk (a : list C) : nth (length a) (zipc (fun p q => p + kk * Cconj q) a (rev a) ++ [kk]) 0 = kk.
Proof.
  rewrite app_nth2 by (rewrite zipc_length, rev_length; lia). rewrite zipc_length, rev_length.
  now replace (length a - Nat.min (length a) (length a))%nat with 0%nat by lia.
Qed.
Lemma step_len kk (a : list C) : length (zipc (fun p q => p + kk * Cconj q) a (rev a) ++ [kk]) = S (length a).
Proof. rewrite app_length, zipc_length, rev_length. cbn. lia. Qed.

(** a linear functional of the new coefficients splits into the two old ones *)
Lemma step_sum kk (a : list C) (g : nat -> C) :
  nsum (K := CF) (S (length a)) (fun j => nth j (zipc (fun p q => p + kk * Cconj q) a (rev a) ++ [kk]) 0 * g j)
  = nsum (K := CF) (length a) (fun j => nth j a 0 * g j)
    + kk * (g (length a) + nsum (K := CF) (length a) (fun j => Cconj (nth j a 0) * g (length a - 1 - j)%nat)).
Proof.
  cbn [nsum]. rewrite step_coef_last.
  rewrite (nsum_ext CF (length a) _ (fun j => @Fadd CF (nth j a 0 * g j) (@Fmul CF kk (Cconj (nth (length a - 1 - j) a 0) * g j)))).
  2:{ intros j Hj. rewrite step_coef by exact Hj. cring. }
  rewrite nsum_add, nsum_mul_l.
  rewrite (nsum_rev CF (length a) (fun j => Cconj (nth (length a - 1 - j) a 0) * g j)).
  rewrite (nsum_ext CF (length a) (fun i => Cconj (nth (length a - 1 - (length a - 1 - i)) a 0) * g (length a - 1 - i)%nat)
             (fun j => Cconj (nth j a 0) * g (length a - 1 - j)%nat)).
  2:{ intros j Hj. replace (length a - 1 - (length a - 1 - j))%nat with j by lia. reflexivity. }
  cring.
Qed.

Lemma nsum_conj n (f : nat -> C) : Cconj (nsum (K := CF) n f) = nsum (K := CF) n (fun j => Cconj (f j)).
Proof. induction n as [|n IH]; cbn [nsum Fadd CF F0]; [apply Cconj_R|]. rewrite Cconj_plus. now rewrite IH. Qed.

Lemma step_sum_conj kk (a : list C) (g : nat -> C) :
  nsum (K := CF) (S (length a)) (fun j => Cconj (nth j (zipc (fun p q => p + kk * Cconj q) a (rev a) ++ [kk]) 0) * g j)
  = nsum (K := CF) (length a) (fun j => Cconj (nth j a 0) * g j)
    + Cconj kk * (g (length a) + nsum (K := CF) (length a) (fun j => nth j a 0 * g (length a - 1 - j)%nat)).
Proof.
  assert (H := step_sum kk a (fun j => Cconj (g j))).
  assert (H2 := f_equal Cconj H). rewrite nsum_conj in H2.
  rewrite (nsum_ext CF (S (length a)) _ (fun j => Cconj (nth j (zipc (fun p q => p + kk * Cconj q) a (rev a) ++ [kk]) 0) * g j)) in H2.
  2:{ intros j Hj. rewrite Cconj_mult, Cconj_conj. reflexivity. }
  rewrite H2. rewrite Cconj_plus, Cconj_mult, Cconj_plus, Cconj_conj, !nsum_conj. f_equal.
  - apply nsum_ext. intros j Hj. rewrite Cconj_mult, Cconj_conj. reflexivity.
  - f_equal. f_equal. apply nsum_ext. intros j Hj. rewrite Cconj_mult, !Cconj_conj. reflexivity.
Qed.

Lemma burg_step_invariant x k s s' : burg_inv x k s -> burg_step s = Ok s' -> burg_inv x (S k) s'.
Proof.
  intros I E. destruct (burg_step_inv s s' E) as (kk & _ & _ & ->). destruct I as [Ia If Ib Ife Ibe].
  split; cbn [b_a b_forw b_back].
  - rewrite step_len. lia.
  - rewrite zipc_length, !tl_len. lia.
  - rewrite zipc_length, !removelast_len. lia.
  - intros t Ht. rewrite nthC_map_combine by (rewrite !tl_len; lia). rewrite !nth_tl, Ife, Ibe by lia.
    unfold ferr. rewrite step_len, step_sum. unfold berr.
    rewrite (nsum_ext CF (length (b_a s)) (fun j => nth j (b_a s) 0 * nth (t + S (length (b_a s)) - j) x 0)
              (fun j => nth j (b_a s) 0 * nth (S t + length (b_a s) - j) x 0)).
    2:{ intros j Hj. f_equal. f_equal. lia. }
    rewrite (nsum_ext CF (length (b_a s)) (fun j => Cconj (nth j (b_a s) 0) * nth (t + S (length (b_a s)) - (length (b_a s) - 1 - j)) x 0)
              (fun j => Cconj (nth j (b_a s) 0) * nth (S t + 1 + j) x 0)).
    2:{ intros j Hj. f_equal. f_equal. lia. }
    replace (t + 1 + S (length (b_a s)))%nat with (S t + 1 + length (b_a s))%nat by lia.
    replace (t + S (length (b_a s)) - length (b_a s))%nat with (S t) by lia. ring.
  - intros t Ht. rewrite nthC_map_combine by (rewrite !removelast_len; lia). rewrite !nth_removelast by lia. rewrite Ife, Ibe by lia.
    unfold berr. rewrite step_len, step_sum_conj. unfold ferr.
    rewrite (nsum_ext CF (length (b_a s)) (fun j => nth j (b_a s) 0 * nth (t + 1 + (length (b_a s) - 1 - j)) x 0)
              (fun j => nth j (b_a s) 0 * nth (t + length (b_a s) - j) x 0)).
    2:{ intros j Hj. f_equal. f_equal. lia. }
    ring.
Qed.

Lemma burg_loop_invariant x k : forall s0 s, burg_inv x 0 s0 -> burg_loop k s0 = Ok s -> burg_inv x k s.
Proof.
  induction k as [|k IH]; cbn [burg_loop]; intros s0 s I E; [now injection E as <-|].
  destruct (burg_loop k s0) as [s1|] eqn:E1; [|discriminate]. cbn [bind] in E.
  eapply burg_step_invariant; [|exact E]. eapply IH; eassumption.
Qed.

(** ** Roots of the prediction polynomial *)
Definition lp_poly (a : list C) (z : C) : C :=
  fpow (K := CF) z (length a) + nsum (K := CF) (length a) (fun j => nth j a 0 * fpow (K := CF) z (length a - 1 - j)).
Definition lp_rev (a : list C) (z : C) : C :=
  1 + nsum (K := CF) (length a) (fun j => Cconj (nth j a 0) * fpow (K := CF) z (j + 1)).

Lemma lp_poly_step kk a z : lp_poly (zipc (fun p q => p + kk * Cconj q) a (rev a) ++ [kk]) z = z * lp_poly a z + kk * lp_rev a z.
Proof.
  unfold lp_poly, lp_rev. rewrite step_len, step_sum.
  replace (S (length a) - 1 - length a)%nat with 0%nat by lia. cbn [fpow].
  rewrite (nsum_ext CF (length a) (fun j => nth j a 0 * fpow (K := CF) z (S (length a) - 1 - j))
            (fun j => @Fmul CF z (nth j a 0 * fpow (K := CF) z (length a - 1 - j)))).
  2:{ intros j Hj. replace (S (length a) - 1 - j)%nat with (S (length a - 1 - j)) by lia. cbn [fpow]. cring. }
  rewrite nsum_mul_l.
  rewrite (nsum_ext CF (length a) (fun j => Cconj (nth j a 0) * fpow (K := CF) z (S (length a) - 1 - (length a - 1 - j)))
            (fun j => Cconj (nth j a 0) * fpow (K := CF) z (j + 1))).
  2:{ intros j Hj. do 2 f_equal. lia. }
  cring.
Qed.

Lemma lp_rev_step kk a z : lp_rev (zipc (fun p q => p + kk * Cconj q) a (rev a) ++ [kk]) z = lp_rev a z + Cconj kk * (z * lp_poly a z).
Proof.
  unfold lp_poly, lp_rev. rewrite step_len, step_sum_conj.
  rewrite (nsum_ext CF (length a) (fun j => nth j a 0 * fpow (K := CF) z (length a - 1 - j + 1))
            (fun j => @Fmul CF z (nth j a 0 * fpow (K := CF) z (length a - 1 - j)))).
  2:{ intros j Hj. rewrite Nat.add_1_r. cbn [fpow]. cring. }
  rewrite nsum_mul_l. rewrite Nat.add_1_r. cbn [fpow]. cring.
Qed.

Lemma cross_identity (kk u v : C) :
  (abs2 (u + kk * v)%C - abs2 (v + Cconj kk * u)%C = (1 - abs2 kk) * (abs2 u - abs2 v))%R.
Proof. rewrite !abs2_def. destruct kk, u, v; cbn. ring. Qed.

Lemma abs2_le_cmod u v : (abs2 u <= abs2 v)%R -> (Cmod u <= Cmod v)%R.
Proof. unfold abs2. intros H. assert (H1 := Cmod_ge_0 u). assert (H2 := Cmod_ge_0 v). nra. Qed.

Lemma step_roots kk a z : (Cmod kk <= 1)%R -> (1 <= Cmod z)%R -> (abs2 (lp_rev a z) <= abs2 (lp_poly a z))%R ->
  let a' := zipc (fun p q => p + kk * Cconj q) a (rev a) ++ [kk] in
  (abs2 (lp_rev a' z) <= abs2 (lp_poly a' z))%R /\
  ((1 < Cmod z)%R \/ (Cmod kk < 1)%R -> lp_poly a z <> 0 -> lp_poly a' z <> 0).
Proof.
  intros Hk Hz H a'. unfold a'. rewrite lp_poly_step, lp_rev_step.
  set (p := lp_poly a z) in *. set (q := lp_rev a z) in *.
  assert (Hkk : (0 <= 1 - abs2 kk)%R). { unfold abs2. assert (H0 := Cmod_ge_0 kk). nra. }
  assert (Hzp : (abs2 p <= abs2 (z * p)%C)%R).
  { rewrite abs2_mult. assert (H1 := abs2_nonneg p). assert (Hz2 : (1 <= abs2 z)%R) by (unfold abs2; nra). nra. }
  assert (X := cross_identity kk (z * p) q). split; [nra|].
  intros Hs Hp E.
  assert (E2 : z * p = - (kk * q)) by (replace (z * p) with ((z * p + kk * q) - kk * q) by ring; rewrite E; ring).
  assert (E3 := f_equal Cmod E2). rewrite Cmod_opp, !Cmod_mult in E3.
  assert (Hq : (Cmod q <= Cmod p)%R) by now apply abs2_le_cmod.
  assert (Hp0 : (0 < Cmod p)%R) by now apply Cmod_gt_0.
  assert (H0 := Cmod_ge_0 kk). assert (H1 := Cmod_ge_0 q).
  destruct Hs as [Hs|Hs].
  - assert (Cmod p < Cmod z * Cmod p)%R by nra. assert (Cmod kk * Cmod q <= Cmod p)%R by nra. lra.
  - assert (Cmod p <= Cmod z * Cmod p)%R by nra. assert (Cmod kk * Cmod q <= Cmod kk * Cmod p)%R by nra.
    assert (Cmod kk * Cmod p < Cmod p)%R by nra. lra.
Qed.

Lemma burg_loop_facts k : forall s0 s, b_a s0 = [] -> (0 <= b_rho s0)%R -> burg_loop k s0 = Ok s ->
  (0 <= b_rho s <= b_rho s0)%R /\ length (b_a s) = k /\
  forall z, (1 <= Cmod z)%R ->
    (abs2 (lp_rev (b_a s) z) <= abs2 (lp_poly (b_a s) z))%R /\
    ((1 < Cmod z)%R \/ (0 < b_rho s)%R -> lp_poly (b_a s) z <> 0).
Proof.
  induction k as [|k IH]; cbn [burg_loop]; intros s0 s Ha Hr E.
  - injection E as <-. rewrite Ha. split; [lra|]. split; [reflexivity|]. intros z Hz.
    unfold lp_poly, lp_rev. cbn [length nsum fpow F0 F1 CF]. replace (RtoC 1 + RtoC 0) with (RtoC 1) by ring. split; [lra|].
    intros _ E1. injection E1. lra.
  - destruct (burg_loop k s0) as [s1|] eqn:E1; [|discriminate]. cbn [bind] in E.
    destruct (IH s0 s1 Ha Hr E1) as (Hrho & Hlen & Hz).
    destruct (burg_step_inv s1 s E) as (kk & Hk & _ & ->). cbn [b_a b_rho].
    assert (Hk0 := Cmod_ge_0 kk).
    assert (Hkk : (0 <= abs2 kk <= 1)%R) by (unfold abs2; split; nra).
    split; [nra|]. split; [rewrite step_len; lia|].
    intros z Hz1. destruct (Hz z Hz1) as (HA & HB).
    destruct (step_roots kk (b_a s1) z Hk Hz1 HA) as (HC & HD). split; [exact HC|].
    intros Hs. apply HD.
    + destruct Hs as [Hs|Hs]; [now left|right]. destruct (Req_dec (abs2 kk) 1) as [E2|N].
      * exfalso. rewrite E2 in Hs. lra.
      * unfold abs2 in N, Hkk. nra.
    + apply HB. destruct Hs as [Hs|Hs]; [now left|right].
      destruct (Req_dec (b_rho s1) 0) as [E2|N]; [exfalso; rewrite E2 in Hs; lra|lra].
Qed.

Theorem burg_spec x order a rho : pcoeff_burg x order = Ok (a, rho) ->
  length a = order /\
  (0 <= rho <= rsum (map abs2 x) / INR (length x))%R /\
  (forall z, (1 < Cmod z)%R -> lp_poly a z <> 0) /\
  ((0 < rho)%R -> forall z, (1 <= Cmod z)%R -> lp_poly a z <> 0).
Proof.
  unfold pcoeff_burg. destruct order as [|k]; [discriminate|].
  destruct (burg_init x) as [s0|] eqn:E0; [|discriminate]. cbn [bind].
  destruct (burg_loop (S k) s0) as [s|] eqn:E1; [|discriminate]. cbn [bind]. intros [= <- <-].
  destruct (burg_init_inv x s0 E0) as (I0 & Hr0).
  assert (Hpos : (0 <= b_rho s0)%R).
  { rewrite Hr0. unfold Rdiv. apply Rmult_le_pos; [apply rsum_abs2_nonneg|].
    destruct x; [discriminate|]. apply Rlt_le, Rinv_0_lt_compat, lt_0_INR. cbn; lia. }
  assert (Ha : b_a s0 = []). { destruct I0 as [Ia _ _ _ _]. destruct (b_a s0); [reflexivity|discriminate]. }
  destruct (burg_loop_facts (S k) s0 s Ha Hpos E1) as (H1 & H2 & H3).
  split; [exact H2|]. split; [rewrite <- Hr0; exact H1|]. split.
  - intros z Hz. apply H3; [lra|]. now left.
  - intros Hr z Hz. apply H3; [lra|]. now right.
Qed.

(** The last coefficient returned (the reflection coefficient) has modulus at most one. *)
Theorem burg_reflection x order a rho : pcoeff_burg x order = Ok (a, rho) ->
  (Cmod (nth (order - 1) a 0) <= 1)%R.
Proof.
  unfold pcoeff_burg. destruct order as [|k]; [discriminate|].
  destruct (burg_init x) as [s0|] eqn:E0; [|discriminate]. cbn [bind burg_loop].
  destruct (burg_loop k s0) as [s1|] eqn:E1; [|discriminate]. cbn [bind].
  destruct (burg_step s1) as [s|] eqn:E2; [|discriminate]. cbn [bind]. intros [= <- <-].
  destruct (burg_init_inv x s0 E0) as (I0 & _).
  assert (I1 := burg_loop_invariant x k s0 s1 I0 E1).
  destruct (burg_step_inv s1 s E2) as (kk & Hk & _ & ->). cbn [b_a].
  replace (S k - 1)%nat with (length (b_a s1)) by (destruct I1; lia). now rewrite step_coef_last.
Qed.

(** ** Optimality of the reflection coefficient *)
Lemma step_energy (c : C) f : forall b, length f = length b ->
  (rsum (map abs2 (zipc (fun f b => f + c * b)%C f b)) + rsum (map abs2 (zipc (fun b f => b + Cconj c * f)%C b f))
   = (1 + abs2 c) * (rsum (map abs2 f) + rsum (map abs2 b))
     + 4 * fst (Cconj c * csum (zipc (fun f b => (f * Cconj b)%C) f b))%C)%R.
Proof.
  induction f as [|u f IH]; intros [|v b]; try discriminate.
  - intros _. cbn. ring.
  - intros [= H]. cbn [zipc combine map fst snd rsum csum fold_right].
    specialize (IH b H). unfold zipc, rsum, csum in *. 
    set (A1 := fold_right Rplus 0%R (map abs2 (map _ (combine f b)))) in *.
    set (A2 := fold_right Rplus 0%R (map abs2 (map _ (combine b f)))) in *.
    set (B1 := fold_right Rplus 0%R (map abs2 f)) in *. set (B2 := fold_right Rplus 0%R (map abs2 b)) in *.
    set (S := fold_right Cplus _ _) in *.
    replace (abs2 (u + c * v)%C + A1 + (abs2 (v + Cconj c * u)%C + A2))%R
      with (abs2 (u + c * v)%C + abs2 (v + Cconj c * u)%C + (A1 + A2))%R by ring.
    rewrite IH. rewrite !abs2_def. destruct c, u, v, S; cbn. ring.
Qed.

Theorem burg_step_optimal s s' : burg_step s = Ok s' -> length (b_forw s) = length (b_back s) ->
  let kk := last (b_a s') 0 in
  let E := fun c : C => (rsum (map abs2 (zipc (fun f b => f + c * b)%C (b_forw s) (b_back s)))
                        + rsum (map abs2 (zipc (fun b f => b + Cconj c * f)%C (b_back s) (b_forw s))))%R in
  (forall c, (E kk <= E c)%R) /\ (forall c, E c = E kk -> c = kk).
Proof.
  intros H HL kk E. destruct (burg_step_inv s s' H) as (k0 & _ & (HD & Hkk) & Es).
  assert (Ek : kk = k0). { unfold kk. rewrite Es. cbn [b_a]. apply last_last. }
  set (D := (rsum _ + rsum _)%R) in *. set (S := csum _) in *.
  assert (HE : forall c, E c = (D * (1 - abs2 k0 + abs2 (c - k0)%C))%R).
  { intros c. unfold E. rewrite step_energy by exact HL. fold D. fold S.
    assert (H1 := f_equal fst Hkk). assert (H2 := f_equal snd Hkk). cbn in H1, H2.
    rewrite !abs2_def. destruct c as [c1 c2], k0 as [k1 k2], S as [s1 s2]. cbn in *.
    assert (s1 = - (k1 * D) / 2)%R by lra. assert (s2 = - (k2 * D) / 2)%R by lra. subst s1 s2. field. }
  rewrite Ek. split.
  - intros c. rewrite !HE. replace (k0 - k0) with (RtoC 0) by ring. assert (H1 := abs2_nonneg (c - k0)).
    replace (abs2 (RtoC 0)) with 0%R by (unfold abs2; rewrite Cmod_0; ring). nra.
  - intros c. rewrite !HE. replace (k0 - k0) with (RtoC 0) by ring.
    replace (abs2 (RtoC 0)) with 0%R by (unfold abs2; rewrite Cmod_0; ring). intros E1.
    assert (E2 : abs2 (c - k0) = 0%R) by nra. unfold abs2 in E2.
    assert (E3 : Cmod (c - k0) = 0%R) by (assert (H1 := Cmod_ge_0 (c - k0)); nra).
    apply Cmod_eq_0 in E3. replace c with ((c - k0) + k0) by ring. rewrite E3. ring.
Qed.

(** ** Stable prediction does not grow *)
Definition outside_unit (e : C) : bool := if Rlt_dec 1 (Cmod e) then true else false.

Definition rmods (l : list C) : R := rsum (map Cmod l).
Lemma rmods_nonneg l : (0 <= rmods l)%R.
Proof. apply rsum_nonneg. intros r Hr. apply in_map_iff in Hr. destruct Hr as (z & <- & _). apply Cmod_ge_0. Qed.
Lemma lsum_mods (l : list C) : (Cmod (lsum (K := CF) l) <= rmods l)%R.
Proof.
  induction l as [|a l IH].
  - unfold rmods. cbn. rewrite Cmod_0. lra.
  - change (lsum (K := CF) (a :: l)) with (a + lsum (K := CF) l). assert (T := Cmod_triangle a (lsum (K := CF) l)).
    unfold rmods, rsum in *. cbn [map fold_right]. lra.
Qed.

Lemma stable_loop_bounded num : forall (eig res xs : list C) B,
  (rmods res <= B)%R ->
  (forall r e, In (r, e) (combine res eig) -> r = 0 \/ (Cmod e <= 1)%R) ->
  let y : list C := stable_loop (K := CF) num eig res xs in
  length y = (length xs + num)%nat /\ firstn (length xs) y = xs /\
  forall i, (length xs <= i)%nat -> (i < length y)%nat -> (Cmod (nth i y 0) <= B)%R.
Proof.
  induction num as [|n IH]; intros eig res xs B HB Hre y; unfold y; clear y; cbn [stable_loop].
  - split; [lia|]. split; [apply firstn_all|]. intros; lia.
  - set (res' := map (fun p : C * C => (@Fmul CF (fst p) (snd p) : C)) (combine res eig)).
    assert (HB' : (rmods res' <= rmods res)%R).
    { unfold res'. clear -Hre. revert eig Hre. induction res as [|r res IH]; intros [|e eig] Hre; try (cbn [combine map]; first [apply Rle_refl | apply rmods_nonneg]).
      cbn [combine map fst snd]. unfold rmods, rsum in *. cbn [map fold_right].
      specialize (IH eig (fun r0 e0 H => Hre r0 e0 (or_intror H))).
      assert (H0 : (Cmod (@Fmul CF r e) <= Cmod r)%R).
      { change (Rle (Cmod (Cmult r e)) (Cmod r)). destruct (Hre r e (or_introl eq_refl)) as [->|He].
        - replace (Cmult (RtoC 0) e) with (RtoC 0) by ring. apply Rle_refl.
        - rewrite Cmod_mult. assert (H1 := Cmod_ge_0 r). assert (H2 := Cmod_ge_0 e). nra. }
      lra. }
    assert (Hre' : forall r e : C, In (r, e) (combine (res' : list C) eig) -> r = 0 \/ (Cmod e <= 1)%R).
    { unfold res'. clear -Hre. revert eig Hre. induction res as [|r res IH]; intros [|e eig] Hre r0 e0; try (cbn; tauto).
      cbn [combine map fst snd In]. intros [H|H].
      - injection H as <- <-. destruct (Hre r e (or_introl eq_refl)) as [->|He]; [left|now right]. cring.
      - apply (IH eig (fun r0 e0 H => Hre r0 e0 (or_intror H)) r0 e0 H). }
    destruct (IH eig res' (xs ++ [lsum (K := CF) res']) B ltac:(lra) Hre') as (H1 & H2 & H3).
    rewrite app_length in *. cbn [length] in *.
    set (y := stable_loop (K := CF) n eig res' (xs ++ [lsum (K := CF) res']) : list C) in *.
    change (length y = (length xs + 1 + n)%nat) in H1. change (firstn (length xs + 1) y = xs ++ [lsum (K := CF) res'] :> list C) in H2.
    change (forall i, (length xs + 1 <= i)%nat -> (i < length y)%nat -> (Cmod (nth i y 0) <= B)%R) in H3.
    change (length y = (length xs + S n)%nat /\ firstn (length xs) y = xs /\
      forall i, (length xs <= i)%nat -> (i < length y)%nat -> (Cmod (nth i y 0) <= B)%R).
    clearbody y. split; [lia|]. split.
    { assert (E2 := f_equal (firstn (length xs)) H2). rewrite firstn_firstn in E2.
      replace (Nat.min (length xs) (length xs + 1)) with (length xs) in E2 by lia.
      rewrite E2, firstn_app, firstn_all, Nat.sub_diag. cbn. apply app_nil_r. }
    intros i Hi1 Hi2. destruct (Nat.eq_dec i (length xs)) as [->|]; [|apply H3; lia].
    replace (nth (length xs) y 0) with (lsum (K := CF) res').
    + assert (T := lsum_mods res'). lra.
    + transitivity (nth (length xs) (firstn (length xs + 1) y) 0); [|apply nth_firstn'; lia].
      rewrite H2, app_nth2 by lia. now rewrite Nat.sub_diag.
Qed.

Theorem predict_stable_bounded (decompose : list (list C) -> decomp (K := CF)) (x pc : list C) :
  exists B : R, forall num (y : list C), predict (K := CF) decompose outside_unit x pc num true = Ok y ->
    length y = (length x + Z.to_nat num)%nat /\ firstn (length x) y = x /\
    forall i, (length x <= i)%nat -> (i < length y)%nat -> (Cmod (nth i y 0) <= B)%R.
Proof.
  unfold predict, predict_stable. 
  match goal with |- context [companion ?a] => destruct (companion a) as [M|e] eqn:EM end.
  2:{ exists 0%R. intros num y. destruct (num <? 0)%Z; intros H; cbn in H; discriminate H. }
  cbn [bind].
  match goal with |- context [Nat.ltb ?a ?b] => destruct (Nat.ltb a b) end.
  { exists 0%R. intros num y. destruct (num <? 0)%Z; intros H; cbn in H; discriminate H. }
  set (res := map _ (combine (map _ _) _)). set (eig := d_eig _) in *.
  exists (rmods res). intros num y. destruct (num <? 0)%Z; [discriminate|]. intros [= <-].
  apply stable_loop_bounded; [apply Rle_refl|].
  intros r e. unfold res. set (res0 := map _ (combine (nth 0 _ _) _)). clearbody res0 eig. clear -res0.
  revert eig. induction res0 as [|r0 res0 IH]; intros [|e0 eig]; try (cbn; tauto).
  cbn [combine map fst snd In]. intros [H|H]; [|exact (IH eig H)].
  injection H as <- <-. unfold outside_unit. destruct (Rlt_dec 1 (Cmod e0)); [now left|right; lra].
Qed.

Theorem burg_monotone x order a rho a' rho' :
  pcoeff_burg x order = Ok (a, rho) -> pcoeff_burg x (S order) = Ok (a', rho') ->
  (rho' <= rho)%R /\ rho' = ((1 - abs2 (nth order a' (RtoC 0))) * rho)%R.
Proof.
  intros H H'. destruct (burg_spec _ _ _ _ H) as (_ & Hr & _).
  assert (HR := burg_reflection _ _ _ _ H'). revert H H'.
  unfold pcoeff_burg. destruct order as [|k]; [discriminate|].
  destruct (burg_init x) as [s0|] eqn:E0; [|discriminate]. cbn [bind].
  change (burg_loop (S (S k)) s0) with (bind (burg_loop (S k) s0) (fun s' => burg_step s')).
  destruct (burg_loop (S k) s0) as [s1|] eqn:E1; [|discriminate]. cbn [bind]. intros [= <- <-].
  destruct (burg_step s1) as [s|] eqn:E2; [|discriminate]. cbn [bind]. intros [= <- <-].
  destruct (burg_init_inv x s0 E0) as (I0 & _).
  assert (I1 := burg_loop_invariant x (S k) s0 s1 I0 E1).
  destruct (burg_step_inv s1 s E2) as (kk & Hk & _ & ->). cbn [b_a b_rho].
  replace (S k) with (length (b_a s1)) by (destruct I1; lia). rewrite step_coef_last. split; [|reflexivity].
  assert (H0 := Cmod_ge_0 kk). assert (0 <= abs2 kk)%R by apply abs2_nonneg. nra.
Qed.

Theorem burg_errors x k s0 s : burg_init x = Ok s0 -> burg_loop k s0 = Ok s ->
  forall t, (t < length x - 1 - k)%nat ->
    nth t (b_forw s) (RtoC 0) = ferr (b_a s) x t /\ nth t (b_back s) (RtoC 0) = berr (b_a s) x t.
Proof.
  intros H H1 t Ht. destruct (burg_init_inv x s0 H) as (I0 & _).
  destruct (burg_loop_invariant x k s0 s I0 H1) as [_ _ _ Hf Hb]. split; [now apply Hf|now apply Hb].
Qed.

Theorem burg_optimal x k s0 s s' : burg_init x = Ok s0 -> burg_loop k s0 = Ok s -> burg_step s = Ok s' ->
  let kk := last (b_a s') 0 in
  let E := fun c : C => (rsum (map abs2 (zipc (fun f b => f + c * b)%C (b_forw s) (b_back s)))
                        + rsum (map abs2 (zipc (fun b f => b + Cconj c * f)%C (b_back s) (b_forw s))))%R in
  (forall c, (E kk <= E c)%R) /\ (forall c, E c = E kk -> c = kk).
Proof.
  intros H H1 H2. apply burg_step_optimal; [exact H2|].
  destruct (burg_init_inv x s0 H) as (I0 & _). destruct (burg_loop_invariant x k s0 s I0 H1) as [_ Hf Hb _ _]. lia.
Qed.

Lemma burg_example : pcoeff_burg [RtoC 1; RtoC 1; RtoC 0] 1 = Ok ([RtoC (-2/3)], (10/27)%R).
Proof.
  assert (A1 : abs2 (RtoC 1) = 1%R) by (rewrite abs2_def; cbn; ring).
  assert (A0 : abs2 (RtoC 0) = 0%R) by (rewrite abs2_def; cbn; ring).
  unfold pcoeff_burg, burg_loop, burg_init, burg_step. cbn [bind b_a b_forw b_back b_rho tl removelast map rsum fold_right].
  rewrite A1, A0. destruct (Req_EM_T (1 + (0 + 0) + (1 + (1 + 0))) 0) as [E|N]; [exfalso; lra|]. cbn [bind b_a b_rho].
  set (kk := _ / RtoC _). assert (Hk : kk = RtoC (-2/3)).
  { unfold kk. cbn. apply C_ext; cbn; field. }
  rewrite Hk. do 2 f_equal. rewrite abs2_def. cbn. field.
Qed.
