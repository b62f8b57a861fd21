(** * FilterHighVariance: what is removed and what is kept *)
From Coq Require Import List Arith ZArith QArith Lia Bool Permutation Field.
From Verif Require Import Base Pade_Model PadeAvg_Model PadeAvg_Spec PadeAvg_Proofs PadeHV_Spec.
Import ListNotations.
Local Open Scope Q_scope.

Lemma qsumn_ext n f g : (forall i, (i < n)%nat -> f i == g i) -> qsumn n f == qsumn n g.
Proof. induction n as [|n IH]; intros H; cbn; [reflexivity|]. rewrite IH by (intros; apply H; lia). rewrite H by lia. reflexivity. Qed.
Lemma qsumn_mul n a f : qsumn n (fun i => a * f i) == a * qsumn n f.
Proof. induction n as [|n IH]; cbn; [ring|]. rewrite IH. ring. Qed.
Lemma qsumn_shift n f : qsumn (S n) f == f 0%nat + qsumn n (fun i => f (S i)).
Proof. induction n as [|n IH]; [cbn; ring|]. change (qsumn (S (S n)) f) with (qsumn (S n) f + f (S n)). rewrite IH. cbn. ring. Qed.
Lemma qsum_nth l : qsum l == qsumn (length l) (fun k => nth k l 0).
Proof. induction l as [|a l IH]; [reflexivity|]. cbn [length]. rewrite qsumn_shift. cbn [qsum fold_right nth]. fold (qsum l). rewrite IH. reflexivity. Qed.
Lemma qsumn_update n (f : nat -> Q) j : (j < n)%nat -> qsumn n (fun i => if (i =? j)%nat then 0 else f i) == qsumn n f - f j.
Proof.
  induction n as [|n IH]; intros Hj; [lia|]. cbn [qsumn]. destruct (Nat.eqb_spec n j) as [->|Ne].
  - rewrite (qsumn_ext j _ f); [ring|]. intros i Hi. rewrite (proj2 (Nat.eqb_neq i j)) by lia. reflexivity.
  - rewrite IH by lia. ring.
Qed.
Lemma vzip_length f v w : length v = length w -> length (vzip f v w) = length w.
Proof. intros H. unfold vzip. rewrite map_length, combine_length. lia. Qed.
Lemma vzip_nth f v w k : length v = length w -> (k < length w)%nat -> nth k (vzip f v w) (0, 0) = f (nth k v (0, 0)) (nth k w (0, 0)).
Proof.
  intros H Hk. unfold vzip. rewrite (nth_indep _ (0, 0) (f (fst ((0, 0) : cQ, (0, 0) : cQ)) (snd ((0, 0) : cQ, (0, 0) : cQ)))) by (rewrite map_length, combine_length; lia).
  rewrite (map_nth (fun p : cQ * cQ => f (fst p) (snd p))). rewrite combine_nth by exact H. reflexivity.
Qed.

Section HV.
Variable argsort : list Q -> list nat.
Hypothesis Hsort : argsort_ok argsort.
Variable nz : nat.
Variable pades : list (list cQ).
Hypothesis Hnz : forall p, In p pades -> length p = nz.
Notation N := (length pades).

Definition rest_sum (part : cQ -> Q) (removed : list nat) (k : nat) : Q :=
  qsumn N (fun i => if existsb (Nat.eqb i) removed then 0 else part (value_at pades i k)).
Definition is_rest (s : list cQ) (removed : list nat) : Prop :=
  length s = nz /\ forall k, (k < nz)%nat -> fst (nth k s (0, 0)) == rest_sum fst removed k /\ snd (nth k s (0, 0)) == rest_sum snd removed k.

Lemma len_nth i : (i < N)%nat -> length (nth i pades []) = nz.
Proof. intros H. apply Hnz. now apply nth_In. Qed.

Lemma distances_nth nn s removed i : is_rest s removed -> (i < N)%nat -> nn = (N - length removed)%nat -> (0 < nn)%nat ->
  nth i (distances nn pades s) 0 == inject_Z (Z.of_nat nn) ^ 2 * mean_dist nz pades removed i.
Proof.
  intros [Ls Hs] Hi En Hn. unfold distances. set (F := fun v : list cQ => Qred _).
  rewrite (nth_indep _ 0 (F [])) by (now rewrite map_length). rewrite (map_nth F). unfold F. rewrite Qred_correct, qsum_nth.
  assert (Lv := len_nth i Hi). set (v := nth i pades []) in *. set (q := inject_Z (Z.of_nat nn)).
  assert (Lm : length (map (cscale q) v) = length s) by (now rewrite map_length, Lv).
  rewrite map_length, vzip_length by exact Lm. rewrite Ls. unfold mean_dist. rewrite <- qsumn_mul. apply qsumn_ext. intros k Hk.
  rewrite (nth_indep _ 0 (cnorm2 (0, 0))) by (rewrite map_length, vzip_length by exact Lm; lia). rewrite (map_nth cnorm2).
  rewrite vzip_nth by (exact Lm || lia). rewrite (nth_indep _ (0, 0) (cscale q (0, 0))) by (rewrite map_length; lia). rewrite (map_nth (cscale q)).
  destruct (Hs k Hk) as [H1 H2]. unfold mean_rest.
  change (qsumn (@length (list (Q * Q)) pades) (fun i => if existsb (Nat.eqb i) removed then 0 else fst (value_at pades i k))) with (rest_sum fst removed k).
  change (qsumn (@length (list (Q * Q)) pades) (fun i => if existsb (Nat.eqb i) removed then 0 else snd (value_at pades i k))) with (rest_sum snd removed k).
  assert (Eq : inject_Z (Z.of_nat (@length (list (Q * Q)) pades - length removed)) = q) by (unfold q; rewrite En; reflexivity). rewrite Eq.
  unfold cnorm2, csub, cscale. cbn [fst snd]. rewrite H1, H2. fold (value_at pades i k). unfold value_at. fold v.
  assert (Hq : ~ q == 0). { unfold q, Qeq, inject_Z. cbn. lia. }
  change (@nth (Q * Q) k (@nth (list (Q * Q)) i pades []) (0, 0)) with (@nth cQ k v (0, 0)).
  destruct (@nth cQ k v (0, 0)) as [a c]. cbn [fst snd]. generalize (rest_sum fst removed k), (rest_sum snd removed k). intros x y. field. exact Hq.
Qed.

Lemma vsum_rest_gen l : (forall p, In p l -> length p = nz) -> length (vsum nz l) = nz /\
  forall k, (k < nz)%nat -> fst (nth k (vsum nz l) (0, 0)) == qsumn (length l) (fun i => fst (nth k (nth i l []) (0, 0))) /\ snd (nth k (vsum nz l) (0, 0)) == qsumn (length l) (fun i => snd (nth k (nth i l []) (0, 0))).
Proof.
  induction l as [|v l IH]; intros H; cbn [vsum].
  - split; [apply repeat_length|]. intros k Hk. rewrite nth_repeat. cbn. split; reflexivity.
  - destruct IH as [L E]; [intros; apply H; now right|]. assert (Lv : length v = nz) by (apply H; now left).
    split; [rewrite vzip_length; congruence|]. intros k Hk. rewrite vzip_nth by congruence. destruct (E k Hk) as [E1 E2]. cbn [length]. rewrite !qsumn_shift. unfold cadd. cbn [fst snd nth]. rewrite E1, E2. split; reflexivity.
Qed.
Lemma vsum_rest : is_rest (vsum nz pades) [].
Proof. destruct (vsum_rest_gen pades Hnz) as [L E]. split; [exact L|]. intros k Hk. destruct (E k Hk) as [E1 E2]. split; assumption. Qed.

Lemma existsb_app_eqb i bad nb : existsb (Nat.eqb i) (bad ++ [nb]) = (existsb (Nat.eqb i) bad || (i =? nb)%nat)%bool.
Proof. rewrite existsb_app. cbn. now rewrite orb_false_r. Qed.
Lemma rest_step s bad nb : is_rest s bad -> (nb < N)%nat -> ~ In nb bad -> is_rest (vzip csub s (nth nb pades [])) (bad ++ [nb]).
Proof.
  intros [Ls Hs] Hn Hnin. assert (Lv := len_nth nb Hn). split; [rewrite vzip_length; congruence|].
  assert (HU : forall part k, rest_sum part (bad ++ [nb]) k == rest_sum part bad k - part (value_at pades nb k)).
  { intros part k. unfold rest_sum.
    rewrite (qsumn_ext N _ (fun i => if (i =? nb)%nat then 0 else (fun i => if existsb (Nat.eqb i) bad then 0 else part (value_at pades i k)) i)).
    - rewrite qsumn_update by exact Hn. replace (existsb (Nat.eqb nb) bad) with false; [reflexivity|]. symmetry. destruct (existsb (Nat.eqb nb) bad) eqn:E; [|reflexivity]. apply existsb_eqb in E. contradiction.
    - intros i Hi. rewrite existsb_app_eqb. destruct (existsb (Nat.eqb i) bad), (i =? nb)%nat; reflexivity. }
  intros k Hk. rewrite vzip_nth by congruence || (rewrite Lv; exact Hk). destruct (Hs k Hk) as [H1 H2]. unfold csub. cbn [fst snd]. rewrite !HU, H1, H2. split; reflexivity.
Qed.

(** descending order of the distances in the last pass *)
Definition descending (removed : list nat) (b : list nat) : Prop :=
  Permutation b (seq 0 N) /\ forall x y i j, (x <= y)%nat -> nth_error b x = Some i -> nth_error b y = Some j -> mean_dist nz pades removed j <= mean_dist nz pades removed i.
Lemma badness_desc nn s removed : is_rest s removed -> nn = (N - length removed)%nat -> (0 < nn)%nat -> descending removed (rev (argsort (distances nn pades s))).
Proof.
  intros Hr En Hn. destruct (Hsort (distances nn pades s)) as [Hp Ho]. assert (Ld : length (distances nn pades s) = N) by (unfold distances; now rewrite map_length).
  rewrite Ld in Hp. assert (La : length (argsort (distances nn pades s)) = N) by (rewrite (Permutation_length Hp); apply seq_length).
  split; [eapply Permutation_trans; [apply Permutation_sym, Permutation_rev|exact Hp]|].
  set (l := argsort (distances nn pades s)) in *. intros x y i j Hxy Hx Hy.
  assert (Lx : (x < N)%nat) by (rewrite <- La, <- rev_length; apply nth_error_Some; congruence).
  assert (Ly : (y < N)%nat) by (rewrite <- La, <- rev_length; apply nth_error_Some; congruence).
  assert (RV : forall x i, (x < N)%nat -> nth_error (rev l) x = Some i -> nth_error l (N - 1 - x) = Some i /\ (i < N)%nat).
  { clear x y i j Hxy Hx Hy Lx Ly. intros x i Lx Hx. assert (E : nth_error l (N - 1 - x) = Some i).
    { rewrite (nth_error_nth' _ 0%nat) by lia. apply (nth_error_nth _ _ 0%nat) in Hx. rewrite rev_nth in Hx by lia. rewrite La in Hx. rewrite <- Hx. f_equal. f_equal. lia. }
    split; [exact E|]. apply nth_error_In in E. apply (Permutation_in _ Hp) in E. apply in_seq in E. lia. }
  destruct (RV x i Lx Hx) as [Ex Hi]. destruct (RV y j Ly Hy) as [Ey Hj].
  assert (O := Ho (N - 1 - y)%nat (N - 1 - x)%nat j i ltac:(lia) Ey Ex).
  rewrite (distances_nth nn s removed j Hr Hj En Hn), (distances_nth nn s removed i Hr Hi En Hn) in O.
  set (q := inject_Z (Z.of_nat nn)) in *. assert (Hq : 0 < q ^ 2). { assert (Hq : 0 < q) by (unfold q, Qlt, inject_Z; cbn; lia). cbn. setoid_replace 0 with (0 * q) by ring. apply Qmult_lt_r; assumption. }
  apply (Qmult_le_l _ _ (q ^ 2) Hq). exact O.
Qed.

Definition greedy (bad ext : list nat) : Prop :=
  forall k x, nth_error ext k = Some x -> (x < N)%nat /\ ~ In x (bad ++ firstn k ext) /\
    forall j, (j < N)%nat -> ~ In j (bad ++ firstn k ext) -> mean_dist nz pades (bad ++ firstn k ext) j <= mean_dist nz pades (bad ++ firstn k ext) x.

Lemma hv_loop_greedy steps : forall nn s bd bad r,
  is_rest s bad -> nn = (N - length bad)%nat -> (steps <= nn)%nat -> hv_loop argsort steps nn pades s bd bad = Ok r ->
  exists ext, snd r = bad ++ ext /\ length ext = steps /\ greedy bad ext /\
    ((0 < steps)%nat -> exists b, fst r = Some b /\ descending (bad ++ firstn (steps - 1) ext) b).
Proof.
  induction steps as [|steps IH]; intros nn s bd bad r Hr En Hs H.
  - injection H as <-. exists []. cbn [fst snd length]. rewrite app_nil_r. split; [reflexivity|]. split; [reflexivity|]. split; [intros [|k] x E; discriminate E|lia].
  - cbn [hv_loop] in H. assert (D := badness_desc nn s bad Hr En ltac:(lia)). set (b := rev (argsort (distances nn pades s))) in *.
    destruct (filter (fun i => negb (existsb (Nat.eqb i) bad)) b) as [|nb rest] eqn:Ef; [discriminate|].
    assert (Inb : In nb (filter (fun i => negb (existsb (Nat.eqb i) bad)) b)) by (rewrite Ef; now left). apply filter_In in Inb. destruct Inb as [Inb Nnb].
    assert (Lnb : (nb < N)%nat) by (apply (Permutation_in _ (proj1 D)) in Inb; apply in_seq in Inb; lia).
    assert (NI : ~ In nb bad). { intros X. apply existsb_eqb in X. rewrite X in Nnb. discriminate. }
    assert (G0 : forall j, (j < N)%nat -> ~ In j bad -> mean_dist nz pades bad j <= mean_dist nz pades bad nb).
    { intros j Hj Nj. assert (Ij : In j b). { apply (Permutation_in _ (Permutation_sym (proj1 D))). apply in_seq. lia. }
      assert (FirstHit : forall l, filter (fun i => negb (existsb (Nat.eqb i) bad)) l = nb :: rest -> In j l -> exists x y, (x <= y)%nat /\ nth_error l x = Some nb /\ nth_error l y = Some j).
      { induction l as [|a l IHl]; intros E Hin; [destruct Hin|]. cbn [filter] in E. destruct (existsb (Nat.eqb a) bad) eqn:Ea; cbn [negb] in E.
        - destruct Hin as [<-|Hin]; [apply existsb_eqb in Ea; contradiction|]. destruct (IHl E Hin) as (x & y & Hxy & Hx & Hy). exists (S x), (S y). split; [lia|]. split; assumption.
        - injection E as -> _. apply In_nth_error in Hin. destruct Hin as [y Hy]. exists 0%nat, y. split; [lia|]. split; [reflexivity|exact Hy]. }
      destruct (FirstHit b Ef Ij) as (x & y & Hxy & Hx & Hy). exact (proj2 D x y nb j Hxy Hx Hy). }
    destruct (IH (nn - 1)%nat _ (Some b) (bad ++ [nb]) r (rest_step s bad nb Hr Lnb NI)) as (ext & E1 & E2 & G & L); [rewrite app_length; cbn; lia|lia|exact H|].
    exists (nb :: ext). split; [rewrite E1; now rewrite <- app_assoc|]. split; [cbn; lia|]. split.
    + intros [|k] x Ek.
      * injection Ek as <-. cbn [firstn]. rewrite app_nil_r. split; [exact Lnb|]. split; [exact NI|exact G0].
      * cbn [nth_error] in Ek. specialize (G k x Ek). cbn [firstn]. replace (bad ++ nb :: firstn k ext) with ((bad ++ [nb]) ++ firstn k ext) by (now rewrite <- app_assoc). exact G.
    + intros _. destruct steps as [|steps].
      * destruct ext; [|discriminate E2]. cbn [Nat.sub firstn]. rewrite app_nil_r. injection H as <-. exists b. split; [reflexivity|exact D].
      * destruct (L ltac:(lia)) as (b' & Eb & Db). exists b'. split; [exact Eb|]. replace (S (S steps) - 1)%nat with (S (S steps - 1)) by lia. cbn [firstn].
        replace (bad ++ nb :: firstn (S steps - 1) ext) with ((bad ++ [nb]) ++ firstn (S steps - 1) ext) by (now rewrite <- app_assoc). exact Db.
Qed.

Theorem filter_high_variance_greedy n : (0 < n)%nat -> (n < N)%nat ->
  exists mask bad, filter_high_variance argsort (AbsNum (Z.of_nat n)) nz pades = Ok (mask, bad) /\ length bad = (N - n)%nat /\
    greedy [] bad /\
    (forall i j, nth_error mask i = Some true -> nth_error mask j = Some false ->
       mean_dist nz pades (firstn (N - n - 1) bad) i <= mean_dist nz pades (firstn (N - n - 1) bad) j).
Proof.
  intros Hn HN. unfold filter_high_variance.
  destruct (Z.ltb_spec 0 (Z.of_nat n)) as [_|?]; [|lia]. rewrite Nat2Z.id.
  destruct (hv_loop_total argsort Hsort (N - n) N pades (vsum nz pades) None [] ltac:(cbn; lia)) as [[ob bad] Hr].
  destruct (hv_loop_greedy (N - n) N (vsum nz pades) None [] (ob, bad) vsum_rest ltac:(cbn; lia) ltac:(lia) Hr) as (ext & E1 & E2 & G & L). cbn [snd fst app] in *. subst ext.
  destruct (L ltac:(lia)) as (b & Eb & [Hp Ho]). subst ob. rewrite Hr. cbn [bind fst snd].
  eexists _, _. split; [reflexivity|]. split; [exact E2|]. split; [exact G|].
  assert (Lb : length b = N) by (rewrite (Permutation_length Hp); apply seq_length).
  unfold py_take. destruct (Z.ltb_spec (- Z.of_nat n) 0) as [_|?]; [|lia]. replace (Z.to_nat (Z.of_nat (length b) + - Z.of_nat n)) with (N - n)%nat by lia.
  assert (SA : forall i v, nth_error (set_at (firstn (N - n) b) false (repeat true N)) i = Some v -> (i < N)%nat /\ v = negb (existsb (Nat.eqb i) (firstn (N - n) b))).
  { intros i v H. assert (Hi : (i < N)%nat). { assert (X : nth_error (set_at (firstn (N - n) b) false (repeat true N)) i <> None) by congruence. apply nth_error_Some in X. rewrite set_at_length, repeat_length in X. exact X. }
    split; [exact Hi|]. unfold set_at in H. rewrite repeat_length in H.
    rewrite (map_nth_error _ i (combine (seq 0 N) (repeat true N)) (d := (i, true))) in H.
    - injection H as <-. cbn [fst snd]. now destruct (existsb _ _).
    - rewrite (nth_error_nth' _ (0%nat, true)) by (rewrite combine_length, seq_length, repeat_length; lia). rewrite combine_nth by (now rewrite seq_length, repeat_length). rewrite seq_nth by exact Hi. rewrite nth_repeat. reflexivity. }
  intros i j Hi Hj. destruct (SA i true Hi) as [Li Ei]. destruct (SA j false Hj) as [Lj Ej].
  assert (Ni : ~ In i (firstn (N - n) b)). { intros X. apply existsb_eqb in X. rewrite X in Ei. discriminate. }
  assert (Ij : In j (firstn (N - n) b)). { apply existsb_eqb. now destruct (existsb (Nat.eqb j) (firstn (N - n) b)). }
  destruct (firstn_In_nth _ _ _ Ij) as (x & Hx & Ex).
  assert (Ib : In i b) by (apply (Permutation_in _ (Permutation_sym Hp)); apply in_seq; lia). apply In_nth_error in Ib. destruct Ib as [y Ey].
  assert (Hy : (N - n <= y)%nat). { destruct (Nat.le_gt_cases (N - n) y); [assumption|]. exfalso. apply Ni. eapply nth_firstn_In; eauto. }
  exact (Ho x y j i ltac:(lia) Ex Ey).
Qed.
End HV.

Section One.
Variable argsort : list Q -> list nat.
Hypothesis Hsort : argsort_ok argsort.
Variable nz : nat.
Variable pades : list (list cQ).
Hypothesis Hnz : forall p, In p pades -> length p = nz.
Theorem filter_high_variance_one : (2 <= length pades)%nat ->
  exists mask x, filter_high_variance argsort (AbsNum (Z.of_nat (length pades - 1))) nz pades = Ok (mask, [x]) /\ (x < length pades)%nat /\
    (forall i, (i < length pades)%nat -> mean_dist nz pades [] i <= mean_dist nz pades [] x) /\
    (forall i, (i < length pades)%nat -> (nth_error mask i = Some false <-> i = x)).
Proof.
  intros H2. set (N := length pades) in *. unfold filter_high_variance.
  destruct (Z.ltb_spec 0 (Z.of_nat (N - 1))) as [_|?]; [|lia]. rewrite Nat2Z.id. fold N. replace (N - (N - 1))%nat with 1%nat by lia. cbn [hv_loop].
  assert (D := badness_desc argsort Hsort nz pades Hnz N (vsum nz pades) [] (vsum_rest nz pades Hnz) ltac:(cbn; lia) ltac:(lia)). destruct D as [Hp Ho]. fold N in Hp.
  set (b := rev (argsort (distances N pades (vsum nz pades)))) in *.
  assert (EF : filter (fun i => negb (existsb (Nat.eqb i) [])) b = b). { clear. induction b as [|a b IH]; [reflexivity|]. change (a :: filter (fun i => negb (existsb (Nat.eqb i) [])) b = a :: b). now rewrite IH. }
  rewrite EF. assert (Lb : length b = N) by (rewrite (Permutation_length Hp); apply seq_length).
  destruct b as [|x b'] eqn:Eb; [cbn in Lb; lia|]. cbn [bind fst snd app].
  unfold py_take. destruct (Z.ltb_spec (- Z.of_nat (N - 1)) 0) as [_|?]; [|lia]. rewrite Lb. replace (Z.to_nat (Z.of_nat N + - Z.of_nat (N - 1))) with 1%nat by lia. cbn [firstn].
  assert (HB : forall i, In i (x :: b') <-> (i < N)%nat). { intros i. split; intros H; [apply (Permutation_in _ Hp) in H; apply in_seq in H; lia|apply (Permutation_in _ (Permutation_sym Hp)); apply in_seq; lia]. }
  eexists _, x. split; [reflexivity|]. split; [apply HB; now left|]. split.
  - intros i Hi. apply HB in Hi. apply In_nth_error in Hi. destruct Hi as [y Ey]. exact (Ho 0%nat y x i ltac:(lia) eq_refl Ey).
  - intros i Hi. unfold set_at. rewrite repeat_length. rewrite (map_nth_error _ i (combine (seq 0 N) (repeat true N)) (d := (i, true))).
    + cbn [fst snd existsb]. rewrite orb_false_r. destruct (Nat.eqb_spec i x) as [->|Ne]; [tauto|]. split; [intros H; discriminate H|contradiction].
    + rewrite (nth_error_nth' _ (0%nat, true)) by (rewrite combine_length, seq_length, repeat_length; lia). rewrite combine_nth by (now rewrite seq_length, repeat_length). rewrite seq_nth by exact Hi. rewrite nth_repeat. reflexivity.
Qed.
End One.
