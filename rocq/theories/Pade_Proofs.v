(** * Proofs about the Padé model (continued fraction part). *)
From Coq Require Import List Arith ZArith Lia Bool Field.
From Verif Require Import Base FSum Pade_Model Pade_Spec.
Import ListNotations.
Local Open Scope fld_scope.

Section P.
Variable K : Fld.
Add Field KF : (Fth K).

(** ** Three-term recursion *)
Definition st4 := (K * K * K * K)%type.
Fixpoint run3 (z : K) (zs a : list K) (s : st4) : st4 :=
  match zs, a with
  | z0 :: zs', a1 :: a' =>
      let '(P, P', Q, Q') := s in
      let m := (z - z0) * a1 in
      run3 z zs' a' (P + m * P', P, Q + m * Q', Q)
  | _, _ => s
  end.

Lemma run3_cf z zs : forall a a1 z0 P P' Q Q',
  length a = length zs ->
  let '(n, d) := cf_frac z (a1 :: a) zs in
  fst (fst (fst (run3 z (z0 :: zs) (a1 :: a) (P, P', Q, Q')))) = P * d + P' * (z - z0) * n /\
  snd (fst (run3 z (z0 :: zs) (a1 :: a) (P, P', Q, Q'))) = Q * d + Q' * (z - z0) * n.
Proof.
  induction zs as [|z1 zs IH]; intros [|a2 a] a1 z0 P P' Q Q' Hl; simpl in Hl; try discriminate.
  - simpl. split; ring.
  - injection Hl as Hl.
    specialize (IH a a2 z1 (P + (z - z0) * a1 * P') P (Q + (z - z0) * a1 * Q') Q Hl).
    change (run3 z (z0 :: z1 :: zs) (a1 :: a2 :: a) (P, P', Q, Q'))
      with (run3 z (z1 :: zs) (a2 :: a) (P + (z - z0) * a1 * P', P, Q + (z - z0) * a1 * Q', Q)).
    change (cf_frac z (a1 :: a2 :: a) (z1 :: zs))
      with (let '(n, d) := cf_frac z (a2 :: a) zs in (a1 * d, d + (z - z1) * n)).
    destruct (cf_frac z (a2 :: a) zs) as [n d]. destruct IH as [E1 E2].
    rewrite E1, E2. split; ring.
Qed.

(** All coefficients used so far are finite if a yield is finite. *)
Lemma calc_loop_none (ms : list (ext K)) : forall (p pp b : ext K) k,
  b = None \/ p = None -> forall v, nth_error (calc_loop ms p pp b) k <> Some (Some v).
Proof.
  induction ms as [|m ms IH]; intros p pp b k H v.
  - destruct k; discriminate.
  - cbn [calc_loop]. destruct H as [->| ->].
    + replace (odiv m (None : ext K)) with (None : ext K) by (destruct m; reflexivity).
      destruct k; simpl.
      * intros E. destruct p; discriminate E.
      * apply IH. now left.
    + destruct k; simpl.
      * intros E; discriminate E.
      * apply IH. now right.
Qed.

Definition mults (z : K) (zs : list K) (a : list (ext K)) : list (ext K) :=
  map (fun za => omul (Some (z - fst za)) (snd za)) (combine zs a).

Lemma calc_loop_run3 (z : K) : forall k zs a P P' Q Q' v,
  Q <> 0 -> Q' <> 0 ->
  nth_error (calc_loop (mults z zs a) (Some (P / Q)) (Some (P' / Q')) (Some (Q / Q'))) k
    = Some (Some v) ->
  exists b, firstn (S k) a = map Some b /\ length b = S k /\ (S k <= length zs)%nat /\
    let '(Pn, _, Qn, _) := run3 z (firstn (S k) zs) b (P, P', Q, Q') in
    Qn <> 0 /\ v = Pn / Qn.
Proof.
  induction k as [|k IH]; intros zs a P P' Q Q' v HQ HQ' H.
  - destruct zs as [|z0 zs]; [discriminate H|]. destruct a as [|[a1|] a]; [discriminate H| |].
    + cbn in H. destruct (Feq_dec (Q / Q') 0) as [E0|E0].
      { exfalso; revert E0; now apply fdiv_neq0. }
      cbn in H. destruct (Feq_dec (1 + (z - z0) * a1 / (Q / Q')) 0) as [E1|E1]; [discriminate H|].
      injection H as <-. exists [a1]. split; [reflexivity|]. split; [reflexivity|].
      split; [simpl; lia|]. cbn.
      assert (Hn : Q + (z - z0) * a1 * Q' <> 0).
      { intros E. apply E1.
        replace (1 + (z - z0) * a1 / (Q / Q')) with ((Q + (z - z0) * a1 * Q') / Q) by (field; auto).
        rewrite E. field; exact HQ. }
      split; [exact Hn|]. field. repeat split; auto.
    + cbn in H. discriminate H.
  - destruct zs as [|z0 zs]; [discriminate H|]. destruct a as [|[a1|] a]; [discriminate H| |].
    + cbn [mults combine map calc_loop nth_error fst snd] in H. fold (mults z zs a) in H.
      cbn [omul lift2 odiv] in H.
      destruct (Feq_dec (Q / Q') 0) as [E0|E0].
      { exfalso; revert E0; now apply fdiv_neq0. }
      cbn [oadd omul lift2 odiv] in H.
      destruct (Feq_dec (1 + (z - z0) * a1 / (Q / Q')) 0) as [E1|E1].
      { exfalso. revert H. apply calc_loop_none. now right. }
      assert (Hn : Q + (z - z0) * a1 * Q' <> 0).
      { intros E. apply E1.
        replace (1 + (z - z0) * a1 / (Q / Q')) with ((Q + (z - z0) * a1 * Q') / Q) by (field; auto).
        rewrite E. field; exact HQ. }
      replace ((P / Q + (z - z0) * a1 / (Q / Q') * (P' / Q')) / (1 + (z - z0) * a1 / (Q / Q')))
        with ((P + (z - z0) * a1 * P') / (Q + (z - z0) * a1 * Q')) in H
        by (field; repeat split; auto).
      replace (1 + (z - z0) * a1 / (Q / Q')) with ((Q + (z - z0) * a1 * Q') / Q) in H
        by (field; auto).
      apply IH in H; [|exact Hn|exact HQ].
      destruct H as (b & Hb & Hlb & Hlz & Hr).
      exists (a1 :: b). cbn [firstn map] in *. rewrite Hb. split; [reflexivity|].
      split; [simpl; lia|]. split; [simpl; lia|].
      cbn [run3]. exact Hr.
    + exfalso. cbn [mults combine map calc_loop nth_error fst snd] in H. fold (mults z zs a) in H.
      revert H. apply calc_loop_none. left; reflexivity.
Qed.

Lemma calc_loop_finite (z : K) : forall k zs b P P' Q Q',
  Q <> 0 -> Q' <> 0 -> (S k <= length zs)%nat -> (S k <= length b)%nat ->
  (forall j, (j <= k)%nat -> snd (fst (run3 z (firstn (S j) zs) (firstn (S j) b) (P, P', Q, Q'))) <> 0) ->
  exists v, nth_error (calc_loop (mults z zs (map Some b)) (Some (P / Q)) (Some (P' / Q')) (Some (Q / Q'))) k
            = Some (Some v).
Proof.
  induction k as [|k IH]; intros [|z0 zs] [|a1 b] P P' Q Q' HQ HQ' Hz Hb Hd; simpl in Hz, Hb; try lia.
  - assert (Hn := Hd 0%nat (le_n 0)). cbn in Hn. cbn.
    destruct (Feq_dec (Q / Q') 0) as [E0|E0]. { exfalso; revert E0; now apply fdiv_neq0. } cbn.
    destruct (Feq_dec (1 + (z - z0) * a1 / (Q / Q')) 0) as [E1|E1]; [|eauto].
    exfalso. apply Hn.
    replace (Q + (z - z0) * a1 * Q') with (Q * (1 + (z - z0) * a1 / (Q / Q'))) by (field; auto).
    rewrite E1. ring.
  - assert (Hn := Hd 0%nat (Nat.le_0_l _)). cbn in Hn.
    cbn [mults combine map calc_loop nth_error fst snd]. fold (mults z zs (map Some b)).
    cbn [omul lift2 odiv].
    destruct (Feq_dec (Q / Q') 0) as [E0|E0]. { exfalso; revert E0; now apply fdiv_neq0. }
    cbn [oadd omul lift2 odiv].
    destruct (Feq_dec (1 + (z - z0) * a1 / (Q / Q')) 0) as [E1|E1].
    { exfalso. apply Hn.
      replace (Q + (z - z0) * a1 * Q') with (Q * (1 + (z - z0) * a1 / (Q / Q'))) by (field; auto).
      rewrite E1. ring. }
    replace ((P / Q + (z - z0) * a1 / (Q / Q') * (P' / Q')) / (1 + (z - z0) * a1 / (Q / Q')))
      with ((P + (z - z0) * a1 * P') / (Q + (z - z0) * a1 * Q')) by (field; repeat split; auto).
    replace (1 + (z - z0) * a1 / (Q / Q')) with ((Q + (z - z0) * a1 * Q') / Q) by (field; auto).
    apply IH; auto; try lia.
    intros j Hj. specialize (Hd (S j) ltac:(lia)). cbn [firstn run3] in *. exact Hd.
Qed.

(** ** calc_iterator yields the continued fraction *)
Lemma firstn_removelast {A} (l : list A) n : (n <= length l - 1)%nat -> firstn n (removelast l) = firstn n l.
Proof.
  revert n. induction l as [|x l IH]; intros n Hn; [destruct n; reflexivity|].
  destruct l as [|y l]. { simpl in Hn. replace n with 0%nat by lia. reflexivity. }
  destruct n as [|n]; [reflexivity|].
  change (removelast (x :: y :: l)) with (x :: removelast (y :: l)).
  cbn [firstn]. f_equal. apply IH. simpl in *. lia.
Qed.

Lemma removelast_length {A} (l : list A) : length (removelast l) = (length l - 1)%nat.
Proof.
  induction l as [|x l IH]; [reflexivity|]. destruct l as [|y l]; [reflexivity|].
  change (removelast (x :: y :: l)) with (x :: removelast (y :: l)). simpl in *. lia.
Qed.

Lemma map_Some_inj (l1 l2 : list K) : map Some l1 = map Some l2 -> l1 = l2.
Proof. revert l2; induction l1 as [|x l1 IH]; intros [|y l2] H; try discriminate; auto.
  injection H as -> H. f_equal. auto. Qed.

Lemma calc_loop_length ms : forall p pp b, length (@calc_loop K ms p pp b) = length ms.
Proof. induction ms; intros; simpl; auto. Qed.

Lemma calc_iterator_length z zin coeff l :
  @calc_iterator K z zin coeff = Ok l -> length l = (length coeff - 1)%nat /\ length zin = length coeff /\ coeff <> [].
Proof.
  unfold calc_iterator. destruct (Nat.eqb_spec (length coeff) (length zin)) as [E|E]; [|discriminate].
  cbn [negb]. destruct coeff as [|a0 a]; [discriminate|]. intros [= <-].
  rewrite calc_loop_length, map_length, combine_length, removelast_length.
  simpl in *. split; [|split; [lia|discriminate]]. lia.
Qed.

Lemma calc_iterator_yield z zin coeff l k v :
  @calc_iterator K z zin coeff = Ok l -> nth_error l k = Some (Some v) ->
  exists b, firstn (k + 2) coeff = map Some b /\ length b = (k + 2)%nat /\
    (k + 2 <= length zin)%nat /\
    let '(n, d) := cf_frac z b (firstn (k + 1) zin) in d <> 0 /\ v = n / d.
Proof.
  intros H Hk. pose proof (calc_iterator_length _ _ _ _ H) as (Hl & Hz & Hne).
  unfold calc_iterator in H.
  destruct (Nat.eqb_spec (length coeff) (length zin)) as [E|E]; [|discriminate].
  cbn [negb] in H. destruct coeff as [|a0 a]; [discriminate|]. injection H as Hll.
  destruct a0 as [a0|].
  2:{ exfalso. rewrite <- Hll in Hk. revert Hk. apply calc_loop_none. now right. }
  rewrite <- Hll in Hk.
  assert (Hk' : nth_error (calc_loop (mults z (removelast zin) a) (Some (a0 / 1)) (Some (0 / 1)) (Some (1/1))) k
          = Some (Some v)).
  { rewrite <- Hk. unfold mults.
    replace (a0 / 1) with a0 by (field; apply F1_neq_0).
    replace (0 / 1) with (0 : K) by (field; apply F1_neq_0).
    replace (1 / 1) with (1 : K) by (field; apply F1_neq_0). reflexivity. }
  clear Hk; rename Hk' into Hk.
  apply calc_loop_run3 in Hk; [|apply F1_neq_0|apply F1_neq_0].
  destruct Hk as (b & Hb & Hlb & Hlz & Hr).
  rewrite removelast_length in Hlz.
  assert (Hsz : (k + 2 <= length zin)%nat) by lia.
  rewrite firstn_removelast in Hr by lia.
  exists (a0 :: b). replace (k + 2)%nat with (S (S k)) by lia. replace (k + 1)%nat with (S k) by lia.
  split. { cbn [firstn map]. f_equal. exact Hb. }
  split; [simpl; lia|]. split; [lia|].
  destruct zin as [|z0 zin]; [simpl in Hsz; lia|].
  destruct b as [|a1 b]; [discriminate Hlb|].
  cbn [firstn] in *.
  assert (Hlen : length b = length (firstn k zin)).
  { rewrite firstn_length. simpl in *. lia. }
  pose proof (run3_cf z (firstn k zin) b a1 z0 a0 0 1 1 Hlen) as R.
  change (cf_frac z (a0 :: a1 :: b) (z0 :: firstn k zin))
    with (let '(n, d) := cf_frac z (a1 :: b) (firstn k zin) in (a0 * d, d + (z - z0) * n)).
  destruct (cf_frac z (a1 :: b) (firstn k zin)) as [n d].
  destruct (run3 z (z0 :: firstn k zin) (a1 :: b) (a0, 0, 1, 1)) as [[[Pn P'] Qn] Q'] eqn:Er.
  cbn [fst snd] in R. destruct R as [R1 R2]. destruct Hr as [HQ Hv].
  assert (EQ : d + (z - z0) * n = Qn) by (rewrite R2; ring).
  rewrite EQ. split; [exact HQ|]. rewrite Hv, R1. f_equal. ring.
Qed.

Lemma calc_iterator_finite z zin (b : list K) k :
  length zin = length b -> (k + 2 <= length b)%nat ->
  (forall j, (j <= k)%nat -> snd (cf_frac z (firstn (j + 2) b) (firstn (j + 1) zin)) <> 0) ->
  exists l v, calc_iterator z zin (map Some b) = Ok l /\ nth_error l k = Some (Some v).
Proof.
  intros Hl Hk Hd. unfold calc_iterator. rewrite map_length, Hl, Nat.eqb_refl. cbn [negb].
  destruct b as [|a0 b]; [simpl in Hk; lia|]. cbn [map]. eexists.
  assert (H : exists v, nth_error (calc_loop (mults z (removelast zin) (map Some b))
      (Some (a0 / 1)) (Some (0 / 1)) (Some (1/1))) k = Some (Some v)).
  { apply calc_loop_finite; try apply F1_neq_0.
    - rewrite removelast_length. simpl in *. lia.
    - simpl in *. lia.
    - intros j Hj. specialize (Hd j Hj). rewrite firstn_removelast by (simpl in *; lia).
      destruct zin as [|z0 zin]; [simpl in *; lia|].
      replace (j + 2)%nat with (S (S j)) in Hd by lia. replace (j + 1)%nat with (S j) in Hd by lia.
      destruct b as [|a1 b]; [simpl in *; lia|]. cbn [firstn] in *.
      assert (Hlen : length (firstn j b) = length (firstn j zin)).
      { rewrite !firstn_length. simpl in *. lia. }
      pose proof (run3_cf z (firstn j zin) (firstn j b) a1 z0 a0 0 1 1 Hlen) as R.
      change (cf_frac z (a0 :: a1 :: firstn j b) (z0 :: firstn j zin))
        with (let '(n, d) := cf_frac z (a1 :: firstn j b) (firstn j zin) in (a0 * d, d + (z - z0) * n)) in Hd.
      destruct (cf_frac z (a1 :: firstn j b) (firstn j zin)) as [n d]. cbn [snd] in Hd.
      destruct R as [_ R2]. rewrite R2. intros E. apply Hd. rewrite <- E. ring. }
  destruct H as [v Hv]. exists v. split; [reflexivity|]. rewrite <- Hv. unfold mults.
  replace (a0 / 1) with a0 by (field; apply F1_neq_0).
  replace (0 / 1) with (0 : K) by (field; apply F1_neq_0).
  replace (1 / 1) with (1 : K) by (field; apply F1_neq_0). reflexivity.
Qed.

(** Backward evaluation with honest divisions agrees with the fraction. *)
Lemma cf_val_frac (z : K) : forall a zs t,
  cf_val z a zs = Some t -> let '(n, d) := cf_frac z a zs in d <> 0 /\ t = n / d.
Proof.
  induction a as [|a0 a IH]; intros zs t H.
  - injection H as <-. simpl. split; [apply F1_neq_0|]. field. apply F1_neq_0.
  - destruct zs as [|z0 zs].
    + injection H as <-. simpl. split; [apply F1_neq_0|]. field. apply F1_neq_0.
    + cbn [cf_val cf_frac] in *. destruct (cf_val z a zs) as [t'|] eqn:E; [|discriminate].
      specialize (IH zs t' E). destruct (cf_frac z a zs) as [n d]. destruct IH as [Hd Ht'].
      destruct (Feq_dec (1 + (z - z0) * t') 0) as [E0|E0]; [discriminate|]. injection H as <-.
      assert (Hn : d + (z - z0) * n <> 0).
      { intros E1. apply E0. rewrite Ht'.
        replace (1 + (z - z0) * (n / d)) with ((d + (z - z0) * n) / d) by (field; exact Hd).
        rewrite E1. field; exact Hd. }
      split; [exact Hn|]. rewrite Ht'. field. split; auto.
Qed.

(** ** coefficients: suffix-recursive form *)
Definition cmap (r0 : ext K) (z0 : K) (zs : list K) (rs : list (ext K)) : list (ext K) :=
  map (fun zr => odiv (osub (odiv r0 (snd zr)) (Some 1)) (Some (fst zr - z0))) (combine zs rs).

Fixpoint thiele (zs : list K) (rs : list (ext K)) : list (ext K) :=
  match zs, rs with
  | z0 :: zs', r0 :: rs' => r0 :: thiele zs' (cmap r0 z0 zs' rs')
  | _, _ => rs
  end.

Lemma cmap_length r0 z0 zs rs : length zs = length rs -> length (cmap r0 z0 zs rs) = length rs.
Proof. intros H. unfold cmap. rewrite map_length, combine_length. lia. Qed.

Lemma thiele_length zs : forall rs, length zs = length rs -> length (thiele zs rs) = length rs.
Proof.
  induction zs as [|z0 zs IH]; intros [|r0 rs] H; simpl in *; try discriminate; auto.
  rewrite IH; rewrite cmap_length; auto; lia.
Qed.

Lemma nth_skipn_0 {A} (l : list A) n d : nth n l d = nth 0 (skipn n l) d.
Proof. revert n; induction l as [|x l IH]; intros [|n]; simpl; auto. Qed.

Lemma nth_skipn {A} (l : list A) n i d : nth i (skipn n l) d = nth (n + i) l d.
Proof. revert n; induction l as [|x l IH]; intros [|n]; simpl; auto. now destruct i. Qed.

Lemma loop_thiele n : forall (pre : list (ext K)) zs rs zpre,
  length zs = length rs -> length zpre = length pre -> (length zs = S n) ->
  fold_left (coeff_step (zpre ++ zs)) (seq (length pre) n) (pre ++ rs) = pre ++ thiele zs rs.
Proof.
  induction n as [|n IH]; intros pre zs rs zpre Hl Hp Hn.
  - simpl. destruct zs as [|z0 [|z1 zs]]; try discriminate.
    destruct rs as [|r0 [|r1 rs]]; try discriminate. reflexivity.
  - destruct zs as [|z0 zs]; [discriminate|]. destruct rs as [|r0 rs]; [discriminate|].
    simpl in Hl, Hn. cbn [seq fold_left thiele].
    assert (E : coeff_step (zpre ++ z0 :: zs) (pre ++ r0 :: rs) (length pre)
                = (pre ++ [r0]) ++ cmap r0 z0 zs rs).
    { unfold coeff_step. replace (length pre + 1)%nat with (length (pre ++ [r0])) by (rewrite app_length; simpl; lia).
      replace (pre ++ r0 :: rs) with ((pre ++ [r0]) ++ rs) by (rewrite <- app_assoc; reflexivity).
      rewrite firstn_app, firstn_all, Nat.sub_diag. cbn [firstn]. rewrite app_nil_r.
      f_equal.
      replace (skipn (length (pre ++ [r0])) (zpre ++ z0 :: zs)) with zs.
      2:{ replace (zpre ++ z0 :: zs) with ((zpre ++ [z0]) ++ zs) by (rewrite <- app_assoc; reflexivity).
          replace (length (pre ++ [r0])) with (length (zpre ++ [z0])) by (rewrite !app_length; simpl; lia).
          rewrite skipn_app, skipn_all, Nat.sub_diag. reflexivity. }
      rewrite skipn_app, skipn_all, Nat.sub_diag. cbn [skipn app].
      unfold cmap.
      rewrite app_nth1 by (rewrite app_length; simpl; lia).
      rewrite app_nth2 by lia. rewrite Nat.sub_diag. cbn [nth].
      rewrite app_nth2 by lia. rewrite Hp, Nat.sub_diag. cbn [nth]. reflexivity. }
    rewrite E.
    replace (zpre ++ z0 :: zs) with ((zpre ++ [z0]) ++ zs) by (rewrite <- app_assoc; reflexivity).
    replace (S (length pre)) with (length (pre ++ [r0])) by (rewrite app_length; simpl; lia).
    rewrite IH.
    + rewrite <- app_assoc. reflexivity.
    + rewrite cmap_length; lia.
    + rewrite !app_length; simpl; lia.
    + lia.
Qed.

Lemma coefficients_thiele (z f : list K) :
  length z = length f -> coefficients z f = Ok (thiele z (map Some f)).
Proof.
  intros H. unfold coefficients. rewrite (proj2 (Nat.eqb_eq _ _) H). cbn [negb]. f_equal.
  destruct z as [|z0 z].
  - destruct f; [reflexivity|discriminate].
  - change (seq 0 (length (z0 :: z) - 1)) with (seq (length (@nil (ext K))) (length (z0 :: z) - 1)).
    change (z0 :: z) with ([] ++ z0 :: z) at 1.
    change (map Some f) with ([] ++ map Some f) at 1.
    rewrite loop_thiele; try reflexivity.
    + rewrite map_length; exact H.
    + simpl; lia.
Qed.

Lemma combine_firstn_eq {A B} (l : list A) (l' : list B) n :
  combine (firstn n l) (firstn n l') = firstn n (combine l l').
Proof. symmetry. apply combine_firstn. Qed.

Lemma thiele_firstn n : forall zs rs,
  length zs = length rs -> thiele (firstn n zs) (firstn n rs) = firstn n (thiele zs rs).
Proof.
  induction n as [|n IH]; intros [|z0 zs] [|r0 rs] H; simpl in *; try discriminate; auto.
  f_equal. rewrite <- IH by (rewrite cmap_length; lia). f_equal.
  unfold cmap. rewrite combine_firstn_eq. now rewrite firstn_map.
Qed.

(** ** Interpolation *)
Lemma thiele_interp : forall zs gs b j g zj,
  length zs = length gs ->
  (exists n, firstn n (thiele zs gs) = map Some b) ->
  nth_error gs j = Some (Some g) -> nth_error zs j = Some zj -> (j < length b)%nat ->
  forall m, (length b - 1 <= m)%nat ->
  let '(n, d) := cf_frac zj b (firstn m zs) in n = g * d.
Proof.
  intros zs gs b; revert zs gs. induction b as [|a0 b IH]; intros zs gs j g zj Hl [n Hb] Hg Hz Hj m Hm.
  - simpl in Hj. lia.
  - destruct zs as [|z0 zs]; [destruct j; discriminate|].
    destruct gs as [|g0 gs]; [discriminate|].
    simpl in Hl. destruct n as [|n]; [discriminate|].
    cbn [thiele firstn map] in Hb. injection Hb as -> Hb.
    destruct j as [|j].
    + injection Hg as <-. injection Hz as <-.
      destruct m as [|m].
      * simpl. ring.
      * cbn [firstn cf_frac]. destruct (cf_frac z0 b (firstn m zs)) as [nn d]. ring.
    + cbn [nth_error] in Hg, Hz. simpl in Hj, Hm.
      destruct m as [|m]; [lia|].
      (* value of the next-level function at z_j *)
      assert (Hc : nth_error (cmap (Some a0) z0 zs gs) j
                   = Some (odiv (osub (odiv (Some a0) (Some g)) (Some 1)) (Some (zj - z0)))).
      { unfold cmap. rewrite (map_nth_error _ j (combine zs gs) (d := (zj, Some g))); [reflexivity|].
        clear - Hg Hz. revert zs gs Hg Hz. induction j as [|j IHj]; intros [|a zs] [|b gs] Hg Hz; try discriminate.
        - injection Hg as ->. injection Hz as ->. reflexivity.
        - apply IHj; assumption. }
      (* it is finite since its coefficient prefix is finite and j is inside *)
      assert (Hfin : forall zs' gs' n' b' j',
                 length zs' = length gs' ->
                 firstn n' (thiele zs' gs') = map Some b' -> (j' < length b')%nat ->
                 nth_error gs' j' <> Some (None : ext K)).
      { clear. intros zs' gs' n' b'; revert zs' gs' n'.
        induction b' as [|a0 b' IH]; intros zs' gs' n' j' Hl H Hj Hn; [simpl in Hj; lia|].
        destruct n' as [|n']; [discriminate|].
        destruct zs' as [|z0 zs']; destruct gs' as [|g0 gs']; try discriminate.
        cbn [thiele firstn map] in H. injection H as -> H. simpl in Hl.
        destruct j' as [|j']; [discriminate|]. cbn [nth_error] in Hn. simpl in Hj.
        apply (IH zs' (cmap (Some a0) z0 zs' gs') n' j'); [rewrite cmap_length; lia|exact H|lia|].
        assert (Hz : exists zj, nth_error zs' j' = Some zj).
        { destruct (nth_error zs' j') as [zj|] eqn:E; [eauto|].
          apply nth_error_None in E. assert (nth_error gs' j' = None) by (apply nth_error_None; lia).
          congruence. }
        destruct Hz as [zj Hz]. unfold cmap.
        rewrite (map_nth_error _ j' (combine zs' gs') (d := (zj, None))).
        - reflexivity.
        - clear - Hn Hz. revert zs' gs' Hn Hz. induction j' as [|j IHj]; intros [|a zs] [|b gs] Hg Hz; try discriminate.
          + injection Hg as ->. injection Hz as ->. reflexivity.
          + apply IHj; assumption. }
      destruct (odiv (osub (odiv (Some a0) (Some g)) (Some 1)) (Some (zj - z0))) as [g'|] eqn:Eg.
      2:{ exfalso. apply (Hfin zs (cmap (Some a0) z0 zs gs) n b j); auto; [rewrite cmap_length; lia|lia]. }
      assert (IH' := IH zs (cmap (Some a0) z0 zs gs) j g' zj).
      assert (Hl' : length zs = length (cmap (Some a0) z0 zs gs)) by (rewrite cmap_length; lia).
      assert (Hm' : (length b - 1 <= m)%nat) by lia.
      specialize (IH' Hl' (ex_intro _ n Hb) Hc Hz ltac:(lia) m Hm').
      cbn [firstn cf_frac]. destruct (cf_frac zj b (firstn m zs)) as [nn d].
      cbn [odiv osub lift2] in Eg.
      destruct (Feq_dec g 0) as [Eg0|Eg0]; [discriminate|]. cbn [odiv osub lift2] in Eg.
      destruct (Feq_dec (zj - z0) 0) as [Ez|Ez]; [discriminate|]. injection Eg as <-.
      rewrite IH'. field. split; assumption.
Qed.

Theorem pade_interpolates (z f : list K) a j zj fj l k v :
  coefficients z f = Ok a ->
  nth_error z j = Some zj -> nth_error f j = Some fj ->
  calc_iterator zj z a = Ok l ->
  (j <= k + 1)%nat ->
  nth_error l k = Some (Some v) -> v = fj.
Proof.
  intros Ha Hz Hf Hl Hj Hv.
  assert (HL : length z = length f).
  { unfold coefficients in Ha. destruct (Nat.eqb_spec (length z) (length f)); [auto|discriminate]. }
  rewrite coefficients_thiele in Ha by exact HL. injection Ha as <-.
  destruct (calc_iterator_yield _ _ _ _ _ _ Hl Hv) as (b & Hb & Hlb & Hlz & Hr).
  assert (HI := thiele_interp z (map Some f) b j fj zj).
  rewrite map_length in HI.
  specialize (HI HL (ex_intro _ _ Hb) (map_nth_error Some j f Hf) Hz ltac:(lia) (k + 1)%nat ltac:(lia)).
  destruct (cf_frac zj b (firstn (k + 1) z)) as [n d]. destruct Hr as [Hd ->].
  rewrite HI. field; exact Hd.
Qed.

(** ** Prefix stability *)
Theorem coefficients_firstn (z f : list K) a n :
  coefficients z f = Ok a -> coefficients (firstn n z) (firstn n f) = Ok (firstn n a).
Proof.
  intros Ha.
  assert (HL : length z = length f).
  { unfold coefficients in Ha. destruct (Nat.eqb_spec (length z) (length f)); [auto|discriminate]. }
  rewrite coefficients_thiele in Ha by exact HL. injection Ha as <-.
  rewrite coefficients_thiele by (rewrite !firstn_length; lia).
  rewrite <- firstn_map. rewrite thiele_firstn by (rewrite map_length; exact HL). reflexivity.
Qed.

Theorem coefficients_error_iff (z f : list K) :
  (exists e, coefficients z f = @Err (list (ext K)) e) <-> length z <> length f.
Proof.
  unfold coefficients. destruct (Nat.eqb_spec (length z) (length f)) as [E|E]; cbn [negb].
  - split; [intros [e H]; discriminate|contradiction].
  - split; [auto|]. intros _. now exists ValueError.
Qed.

Theorem coefficients_length (z f : list K) a : coefficients z f = Ok a -> @length (ext K) a = length f.
Proof.
  intros Ha.
  assert (HL : length z = length f).
  { unfold coefficients in Ha. destruct (Nat.eqb_spec (length z) (length f)); [auto|discriminate]. }
  rewrite coefficients_thiele in Ha by exact HL. injection Ha as <-.
  rewrite thiele_length; rewrite map_length; auto.
Qed.

Theorem coefficients_head (z f : list K) a (z0 f0 : K) :
  coefficients (z0 :: z) (f0 :: f) = Ok a -> nth_error a 0 = Some (Some f0 : ext K).
Proof.
  intros Ha.
  assert (HL : length (z0 :: z) = length (f0 :: f)).
  { unfold coefficients in Ha. destruct (Nat.eqb_spec (length (z0::z)) (length (f0::f))); [auto|discriminate]. }
  rewrite coefficients_thiele in Ha by exact HL. injection Ha as <-. reflexivity.
Qed.
End P.
