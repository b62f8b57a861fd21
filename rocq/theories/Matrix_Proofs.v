(** * Proofs about gftool/matrix.py and gftool/siam.py *)
From Coq Require Import String Ascii List Arith ZArith Bool Reals Lia Lra Field.
From Coquelicot Require Import Coquelicot.
From Verif Require Import Base FSum CBase CExp LinPred_Burg Herm_Proofs Linalg_Model Linalg_Proofs Mat Pole_Model Pole_Time Matrix_Model.
Import ListNotations.
Local Open Scope fld_scope.

Section G.
Variable K : Fld.
Add Field KFmatrix : (Fth K).

(** A B = 1 (n x n) *)
Definition minv (n : nat) (A B : nat -> nat -> K) : Prop :=
  forall i j, (i < n)%nat -> (j < n)%nat -> nsum n (fun k => A i k * B k j) = kron i j.
Definition square (n : nat) (A : mat K) : Prop := nr A = n /\ nc A = n.
(** z - A *)
Definition zsub (z : K) (A : mat K) (i j : nat) : K := z * kron i j - me A i j.

Lemma minv_unique n A B B' : minv n A B -> minv n A B' -> forall i j, (i < n)%nat -> (j < n)%nat -> B i j = B' i j.
Proof.
  intros H H' i j Hi Hj. assert (L := inv_comm K n A B H).
  transitivity (nsum n (fun k => kron i k * B' k j)); [|exact (kron_sum K n i (fun k => B' k j) Hi)].
  rewrite (nsum_ext K n _ (fun k => nsum n (fun m => B i m * (A m k * B' k j)))).
  2:{ intros k Hk. rewrite <- L by lia. rewrite <- nsum_mul_r. apply nsum_ext. intros; ring. }
  rewrite nsum_swap.
  rewrite (nsum_ext K n _ (fun m => kron j m * B i m)).
  2:{ intros m Hm. rewrite nsum_mul_l, H' by lia. unfold kron. rewrite (Nat.eqb_sym m j). ring. }
  symmetry. exact (kron_sum K n j (fun m => B i m) Hj).
Qed.

(** ** reconstruct *)
Section Rec.
Variable d : decomposition K.
Hypothesis S1 : nr (rv_inv d) = nc (rv d).
Hypothesis S2 : nc (rv_inv d) = nr (rv d).
Notation m := (nr (rv d)).
Notation n := (nc (rv d)).

Lemma diag_of_full e i : (i < m)%nat -> nth i (recon_diag d e) 0 = me (recon_full d e) i i.
Proof. intros Hi. unfold recon_diag. rewrite nth_map_seq by exact Hi. cbn. apply nsum_ext. intros; ring. Qed.

Hypothesis LI : forall i j, (i < n)%nat -> (j < n)%nat -> nsum m (fun k => me (rv_inv d) i k * me (rv d) k j) = kron i j.

Lemma recon_mul e f i j : (i < m)%nat -> (j < m)%nat ->
  nsum m (fun k => me (recon_full d e) i k * me (recon_full d f) k j)
  = nsum n (fun k => me (rv d) i k * (nth k e 0 * nth k f 0) * me (rv_inv d) k j).
Proof.
  intros Hi Hj. cbn [recon_full me].
  rewrite (nsum_ext K m _ (fun k => nsum n (fun a => nsum n (fun b =>
     me (rv d) i a * nth a e 0 * (nth b f 0 * me (rv_inv d) b j) * (me (rv_inv d) a k * me (rv d) k b))))).
  2:{ intros k Hk. rewrite <- nsum_mul_r. apply nsum_ext. intros a Ha. rewrite <- nsum_mul_l. apply nsum_ext. intros; ring. }
  rewrite nsum_swap. apply nsum_ext. intros a Ha. rewrite nsum_swap.
  rewrite (nsum_ext K n _ (fun b => kron a b * (me (rv d) i a * nth a e 0 * (nth b f 0 * me (rv_inv d) b j)))).
  2:{ intros b Hb. rewrite nsum_mul_l, LI by lia. ring. }
  rewrite kron_sum by exact Ha. ring.
Qed.
End Rec.

(** inverse reconstruction *)
Theorem recon_inverse (d : decomposition K) n e : square n (rv d) -> square n (rv_inv d) -> length e = n ->
  minv n (me (rv d)) (me (rv_inv d)) -> ~ In 0 e ->
  minv n (me (recon_full d e)) (me (recon_full d (map (fun x => 1 / x) e))) /\
  minv n (me (recon_full d (map (fun x => 1 / x) e))) (me (recon_full d e)).
Proof.
  intros (A1 & A2) (B1 & B2) He HI H0.
  assert (L := inv_comm K n _ _ HI).
  assert (Nz : forall k, (k < n)%nat -> nth k e 0 <> 0) by (intros k Hk E; apply H0; rewrite <- E; apply nth_In; lia).
  assert (P : minv n (me (recon_full d e)) (me (recon_full d (map (fun x => 1 / x) e)))).
  { intros i j Hi Hj. assert (X := recon_mul d). rewrite A1, A2 in X. rewrite X by (assumption || exact L).
    rewrite <- HI by assumption. apply nsum_ext. intros k Hk. rewrite (nth_map_in _ _ _ _ 0) by lia. field. now apply Nz. }
  split; [exact P|]. exact (inv_comm K n _ _ P).
Qed.

(** z - A for A = rv diag(eig) rv_inv *)
Lemma recon_shift (d : decomposition K) n A z : square n (rv d) -> square n (rv_inv d) -> length (eig d) = n ->
  minv n (me (rv d)) (me (rv_inv d)) -> (forall i j, (i < n)%nat -> (j < n)%nat -> me (recon_full d (eig d)) i j = me A i j) ->
  forall i j, (i < n)%nat -> (j < n)%nat -> me (recon_full d (map (fun x => z - x) (eig d))) i j = zsub z A i j.
Proof.
  intros (A1 & A2) (B1 & B2) He HI HA i j Hi Hj. unfold zsub. rewrite <- HA by assumption. rewrite <- HI by assumption.
  cbn [recon_full me]. rewrite A2. rewrite <- nsum_mul_l, <- nsum_sub. apply nsum_ext. intros k Hk.
  rewrite (nth_map_in _ _ _ _ 0) by lia. ring.
Qed.
Theorem recon_resolvent (d : decomposition K) n A z : square n (rv d) -> square n (rv_inv d) -> length (eig d) = n ->
  minv n (me (rv d)) (me (rv_inv d)) -> (forall i j, (i < n)%nat -> (j < n)%nat -> me (recon_full d (eig d)) i j = me A i j) ->
  ~ In z (eig d) ->
  minv n (zsub z A) (me (recon_full d (map (fun x => 1 / (z - x)) (eig d)))).
Proof.
  intros Q1 Q2 He HI HA Hz. destruct (recon_inverse d n (map (fun x => z - x) (eig d)) Q1 Q2) as (P & _).
  - now rewrite map_length.
  - exact HI.
  - intros H. apply in_map_iff in H. destruct H as (x & E & Hx). apply Hz. apply (proj1 (fsub_eq0 K _ _)) in E. now subst.
  - rewrite map_map in P. intros i j Hi Hj. rewrite <- P by assumption. apply nsum_ext. intros k Hk.
    now rewrite (recon_shift d n A z Q1 Q2 He HI HA).
Qed.

(** the API call *)
Theorem reconstruct_diag {X} (ein : string -> mat K -> list K -> mat K -> X) d e kind :
  In (lower kind) [""; "d"; "di"; "dia"; "diag"]%string -> nr (rv_inv d) = nc (rv d) -> nc (rv_inv d) = nr (rv d) ->
  length (match e with Some x => x | None => eig d end) = nc (rv d) ->
  reconstruct ein d e kind = Ok (RDiag (recon_diag d (match e with Some x => x | None => eig d end))).
Proof.
  intros Hk H1 H2 H3. unfold reconstruct. rewrite H1, H2, H3, !Nat.eqb_refl. cbn [andb].
  cbn [In] in Hk. decompose [or] Hk; try contradiction; match goal with H : _ = lower kind |- _ => rewrite <- H end; reflexivity.
Qed.
Theorem reconstruct_full {X} (ein : string -> mat K -> list K -> mat K -> X) d e kind :
  In (lower kind) ["f"; "fu"; "ful"; "full"]%string -> nr (rv_inv d) = nc (rv d) ->
  length (match e with Some x => x | None => eig d end) = nc (rv d) ->
  reconstruct ein d e kind = Ok (RFull (recon_full d (match e with Some x => x | None => eig d end))).
Proof.
  intros Hk H1 H3. unfold reconstruct. rewrite H1, H3, !Nat.eqb_refl. cbn [andb].
  cbn [In] in Hk. decompose [or] Hk; try contradiction; match goal with H : _ = lower kind |- _ => rewrite <- H end; reflexivity.
Qed.
Lemma prefix_diag s : prefix s "diag" = true -> In s [""; "d"; "di"; "dia"; "diag"]%string.
Proof.
  destruct s as [|c s]; [now left|]. cbn [prefix]. destruct (ascii_dec c "d") as [->|]; [|discriminate].
  destruct s as [|c s]; [now right; left|]. cbn [prefix]. destruct (ascii_dec c "i") as [->|]; [|discriminate].
  destruct s as [|c s]; [now right; right; left|]. cbn [prefix]. destruct (ascii_dec c "a") as [->|]; [|discriminate].
  destruct s as [|c s]; [now right; right; right; left|]. cbn [prefix]. destruct (ascii_dec c "g") as [->|]; [|discriminate].
  destruct s as [|c s]; [now right; right; right; right; left|]. discriminate.
Qed.
Lemma prefix_full s : prefix s "full" = true -> In s [""; "f"; "fu"; "ful"; "full"]%string.
Proof.
  destruct s as [|c s]; [now left|]. cbn [prefix]. destruct (ascii_dec c "f") as [->|]; [|discriminate].
  destruct s as [|c s]; [now right; left|]. cbn [prefix]. destruct (ascii_dec c "u") as [->|]; [|discriminate].
  destruct s as [|c s]; [now right; right; left|]. cbn [prefix]. destruct (ascii_dec c "l") as [->|]; [|discriminate].
  destruct s as [|c s]; [now right; right; right; left|]. cbn [prefix]. destruct (ascii_dec c "l") as [->|]; [|discriminate].
  destruct s as [|c s]; [now right; right; right; right; left|]. discriminate.
Qed.
Theorem reconstruct_einsum {X} (ein : string -> mat K -> list K -> mat K -> X) d e kind :
  ~ In (lower kind) [""; "d"; "di"; "dia"; "diag"; "f"; "fu"; "ful"; "full"]%string ->
  reconstruct ein d e kind = Ok (REinsum (ein (lower kind) (rv d) (match e with Some x => x | None => eig d end) (rv_inv d))).
Proof.
  intros H. unfold reconstruct.
  destruct (prefix (lower kind) "diag") eqn:E1; [exfalso; apply H; apply prefix_diag in E1; cbn in *; tauto|].
  destruct (prefix (lower kind) "full") eqn:E2; [exfalso; apply H; apply prefix_full in E2; cbn in *; tauto|]. reflexivity.
Qed.

(** construct_gf is reconstruct(kind='full') *)
Theorem construct_gf_full (d : decomposition K) e i j : length e = nc (rv d) ->
  me (construct_gf (rv d) e (rv_inv d)) i j = me (recon_full d e) i j.
Proof.
  intros He. cbn [construct_gf mm me nc nr recon_full]. rewrite He. apply nsum_ext. intros k Hk. f_equal.
  rewrite (nsum_single K (nc (rv d)) k); [now rewrite Nat.eqb_refl|exact Hk|].
  intros a Ha Hne. rewrite (proj2 (Nat.eqb_neq a k)) by exact Hne. ring.
Qed.

(** ** Decompositions *)
(** np.linalg.eig: eigenvalues and eigenvectors; np.linalg.inv *)
Definition eig_spec (A : mat K) (ev : list K * mat K) : Prop :=
  let (e, v) := ev in square (nr A) v /\ length e = nr A /\
  forall i j, (i < nr A)%nat -> (j < nr A)%nat -> nsum (nr A) (fun k => me A i k * me v k j) = me v i j * nth j e 0.
Lemma minv_inj n A B : minv n A B -> inj K n B.
Proof.
  intros HAB u Hz k Hk. transitivity (nsum n (fun m => nsum n (fun l => A k l * B l m) * u m)).
  - rewrite (nsum_ext K n _ (fun m => kron k m * u m)) by (intros m Hm; now rewrite HAB by lia).
    symmetry. now apply kron_sum.
  - rewrite (nsum_ext K n _ (fun m => nsum n (fun l => A k l * (B l m * u m)))).
    2:{ intros m Hm. rewrite <- nsum_mul_r. apply nsum_ext. intros; ring. }
    rewrite nsum_swap. apply nsum_0'. intros l Hl. rewrite nsum_mul_l, Hz by exact Hl. ring.
Qed.
Lemma inj_minv n A : inj K n A -> exists B, minv n A B.
Proof.
  intros HI.
  assert (X : forall m, exists B : nat -> nat -> K, forall j, (j < m)%nat -> forall i, (i < n)%nat -> nsum n (fun k => A i k * B k j) = kron i j).
  { induction m as [|m (B & HB)]; [exists (fun _ _ => 0); lia|].
    destruct (inj_surj K n A (fun i => kron i m) HI) as (x & Hx).
    exists (fun k j => if (j =? m)%nat then x k else B k j). intros j Hj i Hi. destruct (Nat.eqb_spec j m) as [->|N].
    - now apply Hx.
    - apply HB; lia. }
  destruct (X n) as (B & HB). exists B. intros i j Hi Hj. now apply HB.
Qed.

Lemma eig_reconstructs A e v B : nr A = nc A -> eig_spec A (e, v) -> square (nr A) B -> minv (nr A) (me v) (me B) ->
  let d := Dec v e B in
  forall i j, (i < nr A)%nat -> (j < nr A)%nat -> me (recon_full d (eig d)) i j = me A i j.
Proof.
  intros Hs ((V1 & V2) & He & HA) (B1 & B2) HI d i j Hi Hj. cbn [d recon_full rv rv_inv eig me]. rewrite V2.
  rewrite (nsum_ext K (nr A) _ (fun k => nsum (nr A) (fun m => me A i m * (me v m k * me B k j)))).
  2:{ intros k Hk. rewrite <- HA by assumption. rewrite <- nsum_mul_r. apply nsum_ext. intros; ring. }
  rewrite nsum_swap.
  rewrite (nsum_ext K (nr A) _ (fun m => kron j m * me A i m)).
  2:{ intros m Hm. rewrite nsum_mul_l, HI by assumption. unfold kron. rewrite (Nat.eqb_sym m j). ring. }
  exact (kron_sum K (nr A) j (fun m => me A i m) Hj).
Qed.

Theorem decompose_mat_spec eigO invO (A : mat K) : nr A = nc A ->
  (forall B C : mat K, nr B = nc B -> invO B = Ok C -> square (nr B) C /\ minv (nr B) (me B) (me C)) ->
  (forall ev, eigO A = Ok ev -> eig_spec A ev) ->
  forall d, decompose_mat eigO invO A = Ok d ->
  square (nr A) (rv d) /\ square (nr A) (rv_inv d) /\ length (eig d) = nr A /\ minv (nr A) (me (rv d)) (me (rv_inv d)) /\
  (forall i j, (i < nr A)%nat -> (j < nr A)%nat -> me (recon_full d (eig d)) i j = me A i j).
Proof.
  intros Hs HI HE d Hd. unfold decompose_mat in Hd. destruct (eigO A) as [[e v]|x] eqn:E; [|discriminate]. cbn [bind fst snd] in Hd.
  specialize (HE (e, v) eq_refl). assert (HE' := HE). destruct HE' as ((V1 & V2) & He & HA).
  destruct (invO v) as [B|x] eqn:EB; [|discriminate]. cbn [bind] in Hd. injection Hd as <-. cbn [rv rv_inv eig].
  destruct (HI v B ltac:(congruence) EB) as (SB & MB). rewrite V1 in SB, MB.
  split; [split; assumption|]. split; [exact SB|]. split; [exact He|]. split; [exact MB|].
  now apply eig_reconstructs.
Qed.

(** complex symmetric matrices *)
Theorem decompose_sym_rejects eigO invO close0 rsqrt (A : mat K) i j : (i < nr A)%nat -> (j < nc A)%nat ->
  close0 (me A i j - me A j i) = false -> decompose_sym eigO invO close0 rsqrt A true = Err ValueError.
Proof.
  intros Hi Hj H. unfold decompose_sym. assert (E : allclose0 close0 (msub A (mtr A)) = false); [|now rewrite E].
  apply not_true_is_false. intros T. unfold allclose0 in T. cbn [msub mtr nr nc me] in T.
  rewrite forallb_forall in T. specialize (T i ltac:(apply in_seq; lia)). rewrite forallb_forall in T. specialize (T j ltac:(apply in_seq; lia)). congruence.
Qed.

Theorem decompose_sym_spec eigO invO close0 rsqrt (A : mat K) check : nr A = nc A ->
  (forall B C : mat K, nr B = nc B -> invO B = Ok C -> square (nr B) C /\ minv (nr B) (me B) (me C)) ->
  (forall ev, eigO A = Ok ev -> eig_spec A ev) -> (forall x, x <> 0 -> rsqrt x * rsqrt x * x = 1) ->
  forall d, decompose_sym eigO invO close0 rsqrt A check = Ok d ->
  square (nr A) (rv d) /\ square (nr A) (rv_inv d) /\ length (eig d) = nr A /\ minv (nr A) (me (rv d)) (me (rv_inv d)) /\
  (forall i j, (i < nr A)%nat -> (j < nr A)%nat -> me (recon_full d (eig d)) i j = me A i j) /\
  (forall j, (j < nr A)%nat -> nsum (nr A) (fun i => me (rv d) i j * me (rv d) i j) = 1) /\
  ((forall i j, (i < nr A)%nat -> (j < nr A)%nat -> me A i j = me A j i) -> NoDup (eig d) ->
   (forall i j, (i < nr A)%nat -> (j < nr A)%nat -> me (rv_inv d) i j = me (rv d) j i)).
Proof.
  intros Hs HI HE HR d Hd. unfold decompose_sym in Hd. destruct (check && _); [discriminate|].
  destruct (eigO A) as [[e v]|x] eqn:E; [|discriminate]. cbn [bind] in Hd.
  specialize (HE (e, v) eq_refl). assert (HE' := HE). destruct HE' as ((V1 & V2) & He & HA). set (n := nr A) in *.
  rewrite V1, V2 in Hd. set (s := fun j => nsum n (fun i => me v i j * me v i j)) in *.
  destruct (existsb _ _) eqn:EX; [discriminate|]. change (existsb (fun j => feqb (s j) 0) (seq 0 n) = false) in EX.
  assert (Hs0 : forall j, (j < n)%nat -> s j <> 0).
  { intros j Hj E0. assert (X : existsb (fun j => feqb (s j) 0) (seq 0 n) = true); [|congruence].
    apply existsb_exists. exists j. split; [apply in_seq; lia|]. now apply feqb_true. }
  set (w := Mat n n (fun i j => me v i j * rsqrt (s j))) in *.
  change (bind (invO w) (fun i => Ok (Dec w e i)) = Ok d) in Hd.
  destruct (invO w) as [B|x] eqn:EB; [|discriminate]. cbn [bind] in Hd. injection Hd as <-. cbn [rv rv_inv eig].
  destruct (HI w B eq_refl EB) as (SB & MB). cbn [w nr] in SB, MB.
  assert (EW : eig_spec A (e, w)).
  { split; [split; reflexivity|]. split; [exact He|]. fold n. intros i j Hi Hj. cbn [w me].
    rewrite (nsum_ext K n _ (fun k => me A i k * me v k j * rsqrt (s j))) by (intros; ring). rewrite nsum_mul_r, HA by assumption. ring. }
  assert (NW : forall j, (j < n)%nat -> nsum n (fun i => me w i j * me w i j) = 1).
  { intros j Hj. cbn [w me]. rewrite (nsum_ext K n _ (fun i => rsqrt (s j) * rsqrt (s j) * (me v i j * me v i j))) by (intros; ring).
    rewrite nsum_mul_l. apply HR. now apply Hs0. }
  split; [split; reflexivity|]. split; [exact SB|]. split; [exact He|]. split; [exact MB|]. split; [now apply eig_reconstructs|].
  split; [exact NW|].
  intros HSy HN.
  (* columns are orthogonal: (e_a - e_b) w_a . w_b = 0 *)
  assert (HO : minv n (fun i j => me w j i) (me w)).
  { intros a b Ha Hb. unfold kron. destruct (Nat.eqb_spec a b) as [->|Nab]; [now apply NW|].
    destruct EW as (_ & _ & HW). fold n in HW.
    set (S := nsum n (fun k => me w k a * me w k b)).
    assert (T1 : nsum n (fun k => me w k a * nsum n (fun m => me A k m * me w m b)) = S * nth b e 0).
    { unfold S. rewrite <- nsum_mul_r. apply nsum_ext. intros k Hk. rewrite HW by assumption. ring. }
    assert (T2 : nsum n (fun k => me w k a * nsum n (fun m => me A k m * me w m b)) = S * nth a e 0).
    { rewrite (nsum_ext K n _ (fun k => nsum n (fun m => me w k a * me A k m * me w m b))).
      2:{ intros k Hk. rewrite <- nsum_mul_l. apply nsum_ext. intros; ring. }
      rewrite nsum_swap. unfold S. rewrite <- nsum_mul_r. apply nsum_ext. intros m Hm.
      rewrite (nsum_ext K n _ (fun k => me A m k * me w k a * me w m b)).
      2:{ intros k Hk. rewrite (HSy k m) by assumption. ring. }
      rewrite nsum_mul_r, HW by assumption. ring. }
    assert (Z : S * (nth a e 0 - nth b e 0) = 0).
    { transitivity (S * nth a e 0 - S * nth b e 0); [ring|]. rewrite <- T1, <- T2. ring. }
    destruct (fmul_eq0 K _ _ Z) as [|Z2]; [assumption|]. apply (proj1 (fsub_eq0 K _ _)) in Z2. exfalso. apply Nab.
    cbn [eig] in HN. apply (proj1 (NoDup_nth e 0) HN); congruence || lia. }
  intros i j Hi Hj. assert (HO' := inv_comm K n _ _ HO).
  apply (minv_unique n (me w) (me B) (fun i j => me w j i) MB HO' i j Hi Hj).
Qed.
Theorem decompose_sym_isotropic eigO invO close0 rsqrt (A : mat K) check e v j :
  (check = true -> allclose0 close0 (msub A (mtr A)) = true) -> eigO A = Ok (e, v) -> (j < nc v)%nat ->
  nsum (nr v) (fun i => me v i j * me v i j) = 0 -> decompose_sym eigO invO close0 rsqrt A check = Err NonFinite.
Proof.
  intros HC E Hj H0. unfold decompose_sym. assert (X : check && negb (allclose0 close0 (msub A (mtr A))) = false).
  { destruct check; [rewrite HC; reflexivity|reflexivity]. }
  rewrite X, E. cbn [bind]. assert (T : existsb (fun j => feqb (nsum (nr v) (fun i => me v i j * me v i j)) 0) (seq 0 (nc v)) = true); [|now rewrite T].
  apply existsb_exists. exists j. split; [apply in_seq; lia|]. now apply feqb_true.
Qed.

(** Hermitian matrices *)
Section Her.
Variable conj : K -> K.
Definition eigh_spec (A : mat K) (ev : list K * mat K) : Prop :=
  eig_spec A ev /\ let (e, v) := ev in
  (forall x, In x e -> conj x = x) /\
  (forall i j, (i < nr A)%nat -> (j < nr A)%nat -> nsum (nr A) (fun k => conj (me v k i) * me v k j) = kron i j).

Theorem decompose_her_rejects eighO close0 A i j : (i < nr A)%nat -> (j < nc A)%nat ->
  close0 (me A i j - conj (me A j i)) = false -> decompose_her conj eighO close0 A true = Err ValueError.
Proof.
  intros Hi Hj H. unfold decompose_her. assert (E : allclose0 close0 (msub A (ctr conj A)) = false); [|now rewrite E].
  apply not_true_is_false. intros T. unfold allclose0 in T. cbn [msub ctr nr nc me] in T.
  rewrite forallb_forall in T. specialize (T i ltac:(apply in_seq; lia)). rewrite forallb_forall in T. specialize (T j ltac:(apply in_seq; lia)). congruence.
Qed.
Theorem decompose_her_spec eighO close0 A check : nr A = nc A ->
  (forall ev, eighO A = Ok ev -> eigh_spec A ev) ->
  forall d, decompose_her conj eighO close0 A check = Ok d ->
  square (nr A) (rv d) /\ square (nr A) (rv_inv d) /\ length (eig d) = nr A /\ minv (nr A) (me (rv d)) (me (rv_inv d)) /\
  (forall i j, (i < nr A)%nat -> (j < nr A)%nat -> me (recon_full d (eig d)) i j = me A i j) /\
  (forall i j, me (rv_inv d) i j = conj (me (rv d) j i)) /\ (forall x, In x (eig d) -> conj x = x).
Proof.
  intros Hs HE d Hd. unfold decompose_her in Hd. destruct (check && _); [discriminate|].
  destruct (eighO A) as [[e v]|x] eqn:E; [|discriminate]. cbn [bind fst snd] in Hd. injection Hd as <-. cbn [rv rv_inv eig].
  destruct (HE (e, v) eq_refl) as (HA & He & HU). assert (HA' := HA). destruct HA' as ((V1 & V2) & Le & HA').
  assert (SB : square (nr A) (ctr conj v)) by (split; cbn; assumption).
  assert (MB : minv (nr A) (me v) (me (ctr conj v))) by exact (inv_comm K (nr A) _ _ HU).
  split; [split; assumption|]. split; [exact SB|]. split; [exact Le|]. split; [exact MB|]. split; [now apply eig_reconstructs|].
  split; [reflexivity|exact He].
Qed.
End Her.

(** ** gf_2x2_z *)
Section Two.
Variable conj sqrt : K -> K.
Hypothesis H2 : (1 + 1 : K) <> 0.
Variables e0 e1 h : K.
Notation half := (1 / (1 + 1) : K).
Notation s := (sqrt (half * half * ((e0 - e1) * (e0 - e1)) + h * conj h)).
Hypothesis HS : s * s = half * half * ((e0 - e1) * (e0 - e1)) + h * conj h.
Definition ham2 : mat K := Mat 2 2 (fun i j =>
  match i, j with O, O => e0 | O, _ => h | S _, O => conj h | S _, S _ => e1 end).

Lemma det2 z : (z - (e0 + e1) / (1 + 1) - s) * (z - (e0 + e1) / (1 + 1) + s) = (z - e0) * (z - e1) - h * conj h.
Proof.
  transitivity ((z - (e0 + e1) / (1 + 1)) * (z - (e0 + e1) / (1 + 1)) - s * s); [ring|]. rewrite HS. field. exact H2.
Qed.
Lemma minv2 z R : minv 2 (zsub z ham2) R ->
  (z - e0) * R 0%nat 0%nat - h * R 1%nat 0%nat = 1 /\ (z - e1) * R 1%nat 0%nat - conj h * R 0%nat 0%nat = 0 /\
  (z - e0) * R 0%nat 1%nat - h * R 1%nat 1%nat = 0 /\ (z - e1) * R 1%nat 1%nat - conj h * R 0%nat 1%nat = 1.
Proof.
  intros H. assert (A := H 0%nat 0%nat ltac:(lia) ltac:(lia)). assert (B := H 1%nat 0%nat ltac:(lia) ltac:(lia)).
  assert (C := H 0%nat 1%nat ltac:(lia) ltac:(lia)). assert (D := H 1%nat 1%nat ltac:(lia) ltac:(lia)).
  unfold zsub, kron in *. cbn [ham2 me nsum Nat.eqb] in *. repeat split;
    [refine (eq_trans _ A)|refine (eq_trans _ B)|refine (eq_trans _ C)|refine (eq_trans _ D)]; ring.
Qed.
Theorem gf_2x2_resolvent z R : s <> 0 -> minv 2 (zsub z ham2) R ->
  gf_2x2_z conj sqrt z e0 e1 h None = Ok (R 0%nat 0%nat, R 1%nat 1%nat).
Proof.
  intros Hs0 HR. destruct (minv2 z R HR) as (A & B & C & D).
  set (r00 := R 0%nat 0%nat) in *. set (r10 := R 1%nat 0%nat) in *. set (r01 := R 0%nat 1%nat) in *. set (r11 := R 1%nat 1%nat) in *.
  set (det := (z - e0) * (z - e1) - h * conj h).
  assert (X0 : det * r00 = z - e1).
  { transitivity ((z - e1) * ((z - e0) * r00 - h * r10) + h * ((z - e1) * r10 - conj h * r00)); [unfold det; ring|]. rewrite A, B. ring. }
  assert (X1 : det * r11 = z - e0).
  { transitivity ((z - e0) * ((z - e1) * r11 - conj h * r01) + conj h * ((z - e0) * r01 - h * r11)); [unfold det; ring|]. rewrite C, D. ring. }
  assert (HD : det <> 0).
  { intros E. rewrite E in X0, X1. assert (Z0 : z - e1 = 0) by (rewrite <- X0; ring). assert (Z1 : z - e0 = 0) by (rewrite <- X1; ring).
    rewrite Z0 in B. rewrite Z1 in A.
    (* h * conj h = 0 *)
    assert (HH : h * conj h = 0). { transitivity ((z - e0) * (z - e1) - det); [unfold det; ring|]. rewrite E, Z0. ring. }
    destruct (fmul_eq0 K _ _ HH) as [E1|E1].
    - rewrite E1 in A. apply (F1_neq_0 K). rewrite <- A. ring.
    - rewrite E1 in D. rewrite Z0 in D. apply (F1_neq_0 K). rewrite <- D. ring. }
  assert (DD := det2 z). fold det in DD.
  set (mn := (e0 + e1) / (1 + 1)) in *.
  assert (P1 : z - mn - s <> 0) by (intros E; apply HD; rewrite <- DD, E; ring).
  assert (P2 : z - mn + s <> 0) by (intros E; apply HD; rewrite <- DD, E; ring).
  unfold gf_2x2_z. cbv zeta. fold mn. unfold recip at 1. destruct (Feq_dec (z - mn - s) 0); [contradiction|]. cbn [bind].
  unfold recip. destruct (Feq_dec (z - mn + s) 0); [contradiction|]. cbn [bind]. destruct (Feq_dec s 0); [contradiction|].
  assert (M0 : e0 - mn = z - mn - (z - e0)) by ring.
  assert (F : forall a, (1 / (1 + 1)) / s * ((a - mn + s) * (1 / (z - mn - s)) - (a - mn - s) * (1 / (z - mn + s))) = (z + a - mn - mn) / det).
  { intros a. rewrite <- DD. set (t := s) in *. clearbody t. field. repeat split; assumption. }
  rewrite !F. assert (EM : mn + mn = e0 + e1) by (unfold mn; field; exact H2).
  apply (f_equal Ok). f_equal.
  - apply (fmul_cancel_l K det); [exact HD|]. rewrite X0. replace (z + e0 - mn - mn) with (z - e1); [field; exact HD|].
    transitivity (z + e0 - (mn + mn)); [rewrite EM|]; ring.
  - apply (fmul_cancel_l K det); [exact HD|]. rewrite X1. replace (z + e1 - mn - mn) with (z - e0); [field; exact HD|].
    transitivity (z + e1 - (mn + mn)); [rewrite EM|]; ring.
Qed.
Theorem gf_2x2_degenerate z ht : s = 0 -> (forall x, exists g, ht x = Ok g) -> gf_2x2_z conj sqrt z e0 e1 h (Some ht) = Err NonFinite.
Proof.
  intros Hs Ht. unfold gf_2x2_z. cbv zeta. destruct (Ht (z - (e0 + e1) / (1 + 1) - s)) as (g & ->). cbn [bind].
  destruct (Ht (z - (e0 + e1) / (1 + 1) + s)) as (g' & ->). cbn [bind]. destruct (Feq_dec s 0); [reflexivity|contradiction].
Qed.

(** a Hilbert transform of a discrete density of states: the k-sum of the resolvents *)
Theorem gf_2x2_hilbert z (n : nat) (w eps : nat -> K) ht (R : nat -> nat -> nat -> K) : s <> 0 ->
  (forall x, (forall k, (k < n)%nat -> x <> eps k) -> ht x = Ok (nsum n (fun k => w k / (x - eps k)))) ->
  (forall k, (k < n)%nat -> minv 2 (zsub (z - eps k) ham2) (R k)) ->
  gf_2x2_z conj sqrt z e0 e1 h (Some ht) = Ok (nsum n (fun k => w k * R k 0%nat 0%nat), nsum n (fun k => w k * R k 1%nat 1%nat)).
Proof.
  intros Hs0 Ht HR.
  assert (X : forall k, (k < n)%nat -> gf_2x2_z conj sqrt (z - eps k) e0 e1 h None = Ok (R k 0%nat 0%nat, R k 1%nat 1%nat))
    by (intros k Hk; apply gf_2x2_resolvent; auto).
  unfold gf_2x2_z in X. cbv zeta in X. set (mn := (e0 + e1) / (1 + 1)) in *.
  assert (Y : forall k, (k < n)%nat -> z - mn - s - eps k <> 0 /\ z - mn + s - eps k <> 0 /\
     R k 0%nat 0%nat = half / s * ((e0 - mn + s) * (1 / (z - mn - s - eps k)) - (e0 - mn - s) * (1 / (z - mn + s - eps k))) /\
     R k 1%nat 1%nat = half / s * ((e1 - mn + s) * (1 / (z - mn - s - eps k)) - (e1 - mn - s) * (1 / (z - mn + s - eps k)))).
  { intros k Hk. specialize (X k Hk). replace (z - eps k - mn - s) with (z - mn - s - eps k) in X by ring.
    replace (z - eps k - mn + s) with (z - mn + s - eps k) in X by ring. unfold recip in X.
    destruct (Feq_dec (z - mn - s - eps k) 0); [discriminate|]. cbn [bind] in X. destruct (Feq_dec (z - mn + s - eps k) 0); [discriminate|]. cbn [bind] in X.
    destruct (Feq_dec s 0); [contradiction|]. injection X as X1 X2. auto. }
  unfold gf_2x2_z. cbv zeta. fold mn.
  rewrite Ht. 2:{ intros k Hk E. destruct (Y k Hk) as (Y1 & _). apply Y1. rewrite E. ring. }
  cbn [bind]. rewrite Ht. 2:{ intros k Hk E. destruct (Y k Hk) as (_ & Y1 & _). apply Y1. rewrite E. ring. }
  cbn [bind]. destruct (Feq_dec s 0); [contradiction|].
  assert (SUM : forall a, half / s * ((a - mn + s) * nsum n (fun k => w k / (z - mn - s - eps k)) - (a - mn - s) * nsum n (fun k => w k / (z - mn + s - eps k)))
     = nsum n (fun k => w k * (half / s * ((a - mn + s) * (1 / (z - mn - s - eps k)) - (a - mn - s) * (1 / (z - mn + s - eps k)))))).
  { intros a. rewrite <- !nsum_mul_l, <- nsum_sub, <- nsum_mul_l. apply nsum_ext. intros k Hk. destruct (Y k Hk) as (Y1 & Y2 & _).
    set (t := s) in *. clearbody t. field. repeat split; try assumption; now apply F1_neq_0. }
  rewrite !SUM. apply (f_equal Ok). f_equal; apply nsum_ext; intros k Hk; destruct (Y k Hk) as (_ & _ & Y3 & Y4); now rewrite ?Y3, ?Y4.
Qed.
End Two.

(** ** SIAM *)
Section Siam.
Variable conj cast : K -> K.
Variables (z e : K) (eb hop : list K).
Hypothesis HL : length eb = length hop.
Hypothesis C0 : cast e = e.
Hypothesis C1 : forall x, In x eb -> cast x = x.
Notation H := (hamiltonian_matrix conj cast e eb hop).
Notation nb := (length hop).
Notation hs := (map (fun x => x * conj x) hop).

Theorem ham_shape : square (S nb) H.
Proof. split; reflexivity. Qed.
Theorem ham_hermitian : conj_ok K conj -> conj e = e -> (forall x, In x eb -> conj x = x) ->
  forall i j, (i < S nb)%nat -> (j < S nb)%nat -> me (ctr conj H) i j = me H i j.
Proof.
  intros CJ He Hb [|i] [|j] Hi Hj; cbn [ctr hamiltonian_matrix me].
  - now rewrite C0.
  - now apply conj_conj.
  - reflexivity.
  - rewrite (Nat.eqb_sym j i). destruct (Nat.eqb_spec i j) as [->|]; [|now apply conj_0].
    assert (X : In (nth j eb 0) eb) by (apply nth_In; lia). rewrite C1 by exact X. now apply Hb.
Qed.

Lemma hybrid_ok : ~ In z eb -> hybrid_z z eb hs = Ok (nsum nb (fun b => nth b hop 0 * conj (nth b hop 0) / (z - nth b eb 0))).
Proof.
  intros Hz. unfold hybrid_z. destruct (existsb _ _) eqn:E.
  - exfalso. apply existsb_exists in E. destruct E as (x & Hx & E). apply feqb_true in E. apply (proj1 (fsub_eq0 K _ _)) in E. subst. contradiction.
  - apply (f_equal Ok). rewrite (lsum_nth K). rewrite map_length, combine_length, map_length, HL, Nat.min_id.
    apply nsum_ext. intros b Hb. rewrite (nth_map_in _ _ _ _ (0, 0)) by (rewrite combine_length, map_length; lia).
    rewrite combine_nth by (rewrite map_length; lia). cbn [fst snd]. now rewrite (nth_map_in _ _ _ _ 0) by exact Hb.
Qed.

Lemma ham_row0 (x : nat -> K) : nsum (S nb) (fun k => zsub z H 0 k * x k) = (z - e) * x 0%nat - nsum nb (fun b => nth b hop 0 * x (S b)).
Proof.
  rewrite nsum_S_l. unfold zsub at 1. cbn [hamiltonian_matrix me]. unfold kron at 1. cbn [Nat.eqb]. rewrite C0.
  rewrite (nsum_ext K nb _ (fun b => - (nth b hop 0 * x (S b)))).
  - rewrite nsum_opp. ring.
  - intros b Hb. unfold zsub, kron. cbn [hamiltonian_matrix me Nat.eqb]. ring.
Qed.
Lemma ham_rowS (x : nat -> K) a : (a < nb)%nat ->
  nsum (S nb) (fun k => zsub z H (S a) k * x k) = (z - nth a eb 0) * x (S a) - conj (nth a hop 0) * x 0%nat.
Proof.
  intros Ha. rewrite nsum_S_l. rewrite (nsum_single K nb a); [|exact Ha|].
  - unfold zsub, kron. cbn [hamiltonian_matrix me Nat.eqb]. rewrite Nat.eqb_refl, C1 by (apply nth_In; lia). ring.
  - intros b Hb Hne. unfold zsub, kron. cbn [hamiltonian_matrix me Nat.eqb]. rewrite (proj2 (Nat.eqb_neq a b)) by lia. ring.
Qed.

(** z off the bath energies: the resolvent exists iff gf0_loc_z is finite, and then they agree *)
Theorem siam_resolvent R : ~ In z eb -> minv (S nb) (zsub z H) R -> gf0_loc_z z e eb hs = Ok (R 0%nat 0%nat).
Proof.
  intros Hz HR. unfold gf0_loc_z. rewrite hybrid_ok by exact Hz. cbn [bind]. set (D := nsum nb _).
  assert (A0 := HR 0%nat 0%nat ltac:(lia) ltac:(lia)). rewrite (ham_row0 (fun k => R k 0%nat)) in A0.
  assert (Hne : forall b, (b < nb)%nat -> z - nth b eb 0 <> 0).
  { intros b Hb E. apply (proj1 (fsub_eq0 K _ _)) in E. apply Hz. rewrite E. apply nth_In. lia. }
  assert (AS : forall b, (b < nb)%nat -> R (S b) 0%nat = conj (nth b hop 0) * R 0%nat 0%nat / (z - nth b eb 0)).
  { intros b Hb. assert (A := HR (S b) 0%nat ltac:(lia) ltac:(lia)). rewrite (ham_rowS (fun k => R k 0%nat)) in A by exact Hb.
    cbn [kron Nat.eqb] in A. apply (fmul_cancel_l K (z - nth b eb 0)); [now apply Hne|].
    transitivity (conj (nth b hop 0) * R 0%nat 0%nat); [|field; now apply Hne]. now apply (proj1 (fsub_eq0 K _ _)). }
  assert (E : (z - e - D) * R 0%nat 0%nat = 1).
  { refine (eq_trans _ A0). transitivity ((z - e) * R 0%nat 0%nat - D * R 0%nat 0%nat); [ring|]. f_equal.
    unfold D. rewrite <- nsum_mul_r. apply nsum_ext. intros b Hb. rewrite AS by exact Hb. field. now apply Hne. }
  assert (Hn : z - e - D <> 0) by (intros E0; rewrite E0 in E; apply (F1_neq_0 K); rewrite <- E; ring).
  unfold recip. destruct (Feq_dec (z - e - D) 0); [contradiction|]. apply (f_equal Ok).
  apply (fmul_cancel_l K (z - e - D)); [exact Hn|]. rewrite E. field. exact Hn.
Qed.
Theorem siam_resolvent_exists g : gf0_loc_z z e eb hs = Ok g -> exists R, minv (S nb) (zsub z H) R /\ R 0%nat 0%nat = g.
Proof.
  intros Hg. assert (Hz : ~ In z eb).
  { intros Hin. unfold gf0_loc_z, hybrid_z in Hg. assert (E : existsb (fun e => feqb (z - e) 0) eb = true).
    { apply existsb_exists. exists z. split; [exact Hin|]. apply feqb_true. ring. }
    rewrite E in Hg. discriminate. }
  assert (Hg' := Hg). unfold gf0_loc_z in Hg'. rewrite hybrid_ok in Hg' by exact Hz. cbn [bind] in Hg'. set (D := nsum nb _) in *.
  unfold recip in Hg'. destruct (Feq_dec (z - e - D) 0) as [|Hn]; [discriminate|].
  assert (Hne : forall b, (b < nb)%nat -> z - nth b eb 0 <> 0).
  { intros b Hb E. apply (proj1 (fsub_eq0 K _ _)) in E. apply Hz. rewrite E. apply nth_In. lia. }
  assert (HI : inj K (S nb) (zsub z H)).
  { intros u Hu.
    assert (AS : forall b, (b < nb)%nat -> u (S b) = conj (nth b hop 0) * u 0%nat / (z - nth b eb 0)).
    { intros b Hb. assert (A := Hu (S b) ltac:(lia)). rewrite ham_rowS in A by exact Hb.
      apply (fmul_cancel_l K (z - nth b eb 0)); [now apply Hne|].
      transitivity (conj (nth b hop 0) * u 0%nat); [|field; now apply Hne]. now apply (proj1 (fsub_eq0 K _ _)). }
    assert (U0 : u 0%nat = 0).
    { assert (A := Hu 0%nat ltac:(lia)). rewrite ham_row0 in A.
      assert (E : (z - e - D) * u 0%nat = 0).
      { refine (eq_trans _ A). transitivity ((z - e) * u 0%nat - D * u 0%nat); [ring|]. f_equal.
        unfold D. rewrite <- nsum_mul_r. apply nsum_ext. intros b Hb. rewrite AS by exact Hb. field. now apply Hne. }
      destruct (fmul_eq0 K _ _ E); [contradiction|assumption]. }
    intros [|b] Hb; [exact U0|]. rewrite AS, U0 by lia. field. apply Hne. lia. }
  destruct (inj_minv _ _ HI) as (R & HR). exists R. split; [exact HR|].
  assert (E := siam_resolvent R Hz HR). rewrite E in Hg. now injection Hg.
Qed.
Theorem siam_at_bath : In z eb -> gf0_loc_z z e eb hs = Err NonFinite.
Proof.
  intros Hin. unfold gf0_loc_z, hybrid_z. assert (E : existsb (fun e => feqb (z - e) 0) eb = true); [|now rewrite E].
  apply existsb_exists. exists z. split; [exact Hin|]. apply feqb_true. ring.
Qed.
End Siam.
End G.
