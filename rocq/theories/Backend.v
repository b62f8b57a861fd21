(** * The contracts of the numpy/scipy back-ends are satisfiable

    Library file: complete QR by plane rotations, triangular solve, least squares by orthogonal
    projection, over a field with a positive definite conjugation; instances for the reals and the
    complex numbers. *)
From Coq Require Import List Arith Reals Lia Lra Bool Field.
From Coquelicot Require Import Coquelicot.
From Verif Require Import Base FSum CBase Herm_Proofs LinPred_Burg Linalg_Model Linalg_Proofs Mat.
Import ListNotations.
Local Open Scope fld_scope.

Section B.
Variable K : Fld.
Add Field KFbk : (Fth K).
Variable conj : K -> K.
Hypothesis CJ : conj_ok K conj.
Variable re : K -> R.
Hypothesis re_add : forall x y, re (x + y) = (re x + re y)%R.
Hypothesis re_conj : forall x, re (conj x) = re x.
Hypothesis re_pos : forall x, (0 <= re (conj x * x)%fld)%R.
Hypothesis re_def : forall x, re (conj x * x) = 0%R -> x = 0.
Hypothesis unit2 : forall a b : K, (a <> 0 \/ b <> 0) -> { s : K | conj s = s /\ s * s * (conj a * a + conj b * b) = 1 }.

Lemma cj_opp x : conj (- x) = - conj x.
Proof.
  assert (E := conj_add K conj CJ x (- x)). replace (x + - x) with (0 : K) in E by ring. rewrite (conj_0 K conj CJ) in E.
  transitivity (conj x + conj (- x) - conj x); [ring|]. rewrite <- E. ring.
Qed.
Lemma cj_sub x y : conj (x - y) = conj x - conj y.
Proof. replace (x - y) with (x + - y) by ring. rewrite (conj_add K conj CJ), cj_opp. ring. Qed.

(** <x, y> = sum x conj(y) *)
Definition ip (n : nat) (x y : nat -> K) : K := nsum n (fun j => x j * conj (y j)).
Lemma ip_lin_l n a b (x y z : nat -> K) : ip n (fun j => a * x j + b * y j) z = a * ip n x z + b * ip n y z.
Proof. unfold ip. rewrite <- !nsum_mul_l, <- nsum_add. apply nsum_ext. intros; ring. Qed.
Lemma ip_lin_r n a b (x y z : nat -> K) : ip n z (fun j => a * x j + b * y j) = conj a * ip n z x + conj b * ip n z y.
Proof. unfold ip. rewrite <- !nsum_mul_l, <- nsum_add. apply nsum_ext. intros. rewrite (conj_add K conj CJ), !(conj_mul K conj CJ). ring. Qed.
Lemma ip_sym n x y : conj (ip n x y) = ip n y x.
Proof. unfold ip. rewrite (conj_nsum K conj CJ). apply nsum_ext. intros. rewrite (conj_mul K conj CJ), (conj_conj K conj CJ). ring. Qed.
Lemma conj_1 : conj 1 = 1.
Proof.
  apply (fmul_cancel_l K (conj 1)).
  - apply (conj_neq0 K conj CJ). apply F1_neq_0.
  - rewrite <- (conj_mul K conj CJ). replace (1 * 1 : K) with (1 : K) by ring. ring.
Qed.

Definition unitary (n : nat) (U : nat -> nat -> K) : Prop :=
  forall i j, (i < n)%nat -> (j < n)%nat -> ip n (U i) (U j) = kron i j.
Definition app (n : nat) (u v : nat -> K) : K := nsum n (fun j => u j * v j).
Lemma app_lin n a b x y v : app n (fun j => a * x j + b * y j) v = a * app n x v + b * app n y v.
Proof. unfold app. rewrite <- !nsum_mul_l, <- nsum_add. apply nsum_ext. intros; ring. Qed.

(** one plane rotation of rows p, p+1 *)
Lemma rot n U p (v : nat -> K) : unitary n U -> (S p < n)%nat ->
  { U' | unitary n U' /\ app n (U' (S p)) v = 0 /\ (forall i, i <> p -> i <> S p -> U' i = U i) /\
         forall c, app n (U p) c = 0 -> app n (U (S p)) c = 0 -> app n (U' p) c = 0 /\ app n (U' (S p)) c = 0 }.
Proof.
  intros HU Hp. set (a := app n (U p) v). set (b := app n (U (S p)) v).
  destruct (Feq_dec b 0) as [E|E].
  { exists U. repeat split; auto. }
  destruct (unit2 a b (or_intror E)) as (s & Hs & Hn).
  set (U' := fun i => if (i =? p)%nat then fun j => conj a * s * U p j + conj b * s * U (S p) j
                      else if (i =? S p)%nat then fun j => - b * s * U p j + a * s * U (S p) j else U i).
  assert (Ep : U' p = fun j => conj a * s * U p j + conj b * s * U (S p) j) by (unfold U'; now rewrite Nat.eqb_refl).
  assert (Eq : U' (S p) = fun j => - b * s * U p j + a * s * U (S p) j).
  { unfold U'. rewrite (proj2 (Nat.eqb_neq (S p) p)) by lia. now rewrite Nat.eqb_refl. }
  assert (Eo : forall i, i <> p -> i <> S p -> U' i = U i).
  { intros i H1 H2. unfold U'. now rewrite (proj2 (Nat.eqb_neq i p) H1), (proj2 (Nat.eqb_neq i (S p)) H2). }
  assert (Kpp : ip n (U p) (U p) = 1) by (rewrite HU by lia; unfold kron; now rewrite Nat.eqb_refl).
  assert (Kqq : ip n (U (S p)) (U (S p)) = 1) by (rewrite HU by lia; unfold kron; now rewrite Nat.eqb_refl).
  assert (Kpq : ip n (U p) (U (S p)) = 0) by (rewrite HU by lia; unfold kron; now rewrite (proj2 (Nat.eqb_neq p (S p))) by lia).
  assert (Kqp : ip n (U (S p)) (U p) = 0) by (rewrite HU by lia; unfold kron; now rewrite (proj2 (Nat.eqb_neq (S p) p)) by lia).
  assert (Kn : forall i j, (i < n)%nat -> (j < n)%nat -> i <> j -> ip n (U i) (U j) = 0).
  { intros i j Hi Hj Hne. rewrite HU by lia. unfold kron. now rewrite (proj2 (Nat.eqb_neq i j) Hne). }
  exists U'. split; [|split; [|split]].
  - intros i j Hi Hj.
    destruct (Nat.eq_dec i p) as [->|Nip]; [|destruct (Nat.eq_dec i (S p)) as [->|Niq]];
    (destruct (Nat.eq_dec j p) as [->|Njp]; [|destruct (Nat.eq_dec j (S p)) as [->|Njq]]);
    rewrite ?Ep, ?Eq, ?(Eo i) by assumption; rewrite ?(Eo j) by assumption;
    rewrite ?ip_lin_l, ?ip_lin_r, ?Kpp, ?Kqq, ?Kpq, ?Kqp, ?(conj_mul K conj CJ), ?cj_opp, ?(conj_conj K conj CJ), ?Hs.
    + unfold kron. rewrite Nat.eqb_refl. refine (eq_trans _ Hn). ring.
    + unfold kron. rewrite (proj2 (Nat.eqb_neq p (S p))) by lia. ring.
    + unfold kron. rewrite (proj2 (Nat.eqb_neq p j)) by lia. rewrite !Kn by lia. ring.
    + unfold kron. rewrite (proj2 (Nat.eqb_neq (S p) p)) by lia. ring.
    + unfold kron. rewrite Nat.eqb_refl. refine (eq_trans _ Hn). ring.
    + unfold kron. rewrite (proj2 (Nat.eqb_neq (S p) j)) by lia. rewrite !Kn by lia. ring.
    + unfold kron. rewrite (proj2 (Nat.eqb_neq i p)) by lia. rewrite !Kn by lia. ring.
    + unfold kron. rewrite (proj2 (Nat.eqb_neq i (S p))) by lia. rewrite !Kn by lia. ring.
    + now apply HU.
  - rewrite Eq, app_lin. fold a b. ring.
  - exact Eo.
  - intros c H1 H2. rewrite Ep, Eq, !app_lin, H1, H2. split; ring.
Qed.

(** rotations of rows k .. n-1 clear v below row k *)
Lemma clear n k (v : nat -> K) U : unitary n U ->
  { U' | unitary n U' /\ (forall i, (k < i)%nat -> (i < n)%nat -> app n (U' i) v = 0) /\ (forall i, (i < k)%nat -> U' i = U i) /\
         forall c, (forall i, (k <= i)%nat -> (i < n)%nat -> app n (U i) c = 0) -> forall i, (k <= i)%nat -> (i < n)%nat -> app n (U' i) c = 0 }.
Proof.
  intros HU.
  assert (G : forall m, { U' | unitary n U' /\ (forall i, (k < i)%nat -> (n - m <= i)%nat -> (i < n)%nat -> app n (U' i) v = 0) /\ (forall i, (i < k)%nat -> U' i = U i) /\
         forall c, (forall i, (k <= i)%nat -> (i < n)%nat -> app n (U i) c = 0) -> forall i, (k <= i)%nat -> (i < n)%nat -> app n (U' i) c = 0 }).
  { induction m as [|m (U1 & H1 & H2 & H3 & H4)].
    - exists U. repeat split; auto. intros; lia.
    - destruct (le_lt_dec (n - m) (S k)) as [L|L].
      { exists U1. repeat split; auto. intros i Hi1 Hi2 Hi3. apply H2; lia. }
      destruct (rot n U1 (n - m - 2) v H1 ltac:(lia)) as (U2 & R1 & R2 & R3 & R4).
      exists U2. split; [exact R1|]. split; [|split].
      + intros i Hi1 Hi2 Hi3. destruct (Nat.eq_dec i (S (n - m - 2))) as [->|N]; [exact R2|].
        rewrite R3 by lia. apply H2; lia.
      + intros i Hi. rewrite R3 by lia. now apply H3.
      + intros c Hc i Hi1 Hi2. assert (H5 := H4 c Hc).
        destruct (R4 c (H5 (n - m - 2)%nat ltac:(lia) ltac:(lia)) (H5 (S (n - m - 2))%nat ltac:(lia) ltac:(lia))) as (A1 & A2).
        destruct (Nat.eq_dec i (n - m - 2)) as [->|N1]; [exact A1|].
        destruct (Nat.eq_dec i (S (n - m - 2))) as [->|N2]; [exact A2|]. rewrite R3 by assumption. apply H5; lia. }
  destruct (G n) as (U' & H1 & H2 & H3 & H4). exists U'. repeat split; auto. intros i Hi1 Hi2. apply H2; lia.
Qed.

Lemma triangularize (A : mat K) : forall k,
  { U | unitary (nr A) U /\ forall i j, (i < nr A)%nat -> (j < k)%nat -> (j < i)%nat -> app (nr A) (U i) (fun r => me A r j) = 0 }.
Proof.
  induction k as [|k (U & H1 & H2)].
  - exists (fun i j => kron i j). split; [|intros; lia]. intros i j Hi Hj. unfold ip. rewrite kron_sum by exact Hi.
    unfold kron. rewrite (Nat.eqb_sym j i). destruct (i =? j)%nat; [apply conj_1|apply (conj_0 K conj CJ)].
  - destruct (clear (nr A) k (fun r => me A r k) U H1) as (U' & C1 & C2 & C3 & C4).
    exists U'. split; [exact C1|]. intros i j Hi Hj Hlt.
    destruct (Nat.eq_dec j k) as [->|N]; [now apply C2|].
    destruct (le_lt_dec k i) as [L|L].
    + apply C4; [|exact L|exact Hi]. intros i' Hi' Hi''. apply H2; lia.
    + rewrite C3 by exact L. apply H2; lia.
Qed.

Lemma qr_exists (A : mat K) : { QR | qr_spec K conj A QR }.
Proof.
  destruct (triangularize A (nc A)) as (U & HU & HT).
  exists (Mat (nr A) (nr A) (fun i k => conj (U k i)), Mat (nr A) (nc A) (fun k j => app (nr A) (U k) (fun r => me A r j))).
  assert (HV := inv_comm K (nr A) U (fun k j => conj (U j k)) HU). cbv beta in HV.
  unfold qr_spec. cbn [nr nc me]. repeat split; auto.
  - intros i j Hi Hj. unfold app.
    rewrite (nsum_ext K (nr A) _ (fun k => nsum (nr A) (fun r => conj (U k i) * U k r * me A r j))).
    2:{ intros k Hk. rewrite <- nsum_mul_l. apply nsum_ext. intros; ring. }
    rewrite nsum_swap. rewrite (nsum_ext K (nr A) _ (fun r => kron i r * me A r j)).
    2:{ intros r Hr. rewrite nsum_mul_r, HV by assumption. reflexivity. }
    now rewrite kron_sum.
  - intros i j Hi Hj. rewrite <- (HU i j Hi Hj). unfold ip. apply nsum_ext. intros k Hk. now rewrite (conj_conj K conj CJ).
  - intros i j Hi Hj. rewrite <- (HV i j Hi Hj). apply nsum_ext. intros k Hk. now rewrite (conj_conj K conj CJ).
Qed.
Definition bqr (A : mat K) : mat K * mat K := proj1_sig (qr_exists A).

(** triangular solve *)
Definition btri (r : mat K) (d : list K) : result (list K) :=
  if forallb (fun i => if Feq_dec (me r i i) 0 then false else true) (seq 0 (nr r)) then mat_solve K (ctr conj r) d else Err LinAlgError.
Lemma btri_spec r d : nr r = nc r -> length d = nr r -> upper K r -> tri_spec K conj btri r d.
Proof.
  intros Hsq Hd Hup. unfold tri_spec, btri. destruct (forallb _ _) eqn:EF; [|reflexivity].
  rewrite forallb_forall in EF.
  destruct (proj1 (mat_solve_spec K (ctr conj r) d ltac:(cbn; lia) ltac:(cbn; lia))) as (y & E & Hy & Hyd).
  - split; [cbn; lia|]. cbn [ctr nr nc me]. intros u Hz j Hj.
    apply (tri_inj K conj r (nc r) u (fun _ => 0) CJ); [| | |exact Hj].
    + intros a b Ha Hb Hlt. apply Hup; lia.
    + intros i Hi. assert (E := EF i ltac:(apply in_seq; lia)). destruct (Feq_dec (me r i i) 0); [discriminate|assumption].
    + intros i Hi. rewrite Hz by exact Hi. symmetry. apply nsum_0'. intros; ring.
  - exists y. split; [exact E|]. split; [cbn in Hy; lia|exact Hyd].
Qed.

(** orthogonal projection on the span of the first N columns *)
Definition lin (N : nat) (A : nat -> nat -> K) (x : nat -> K) (i : nat) : K := nsum N (fun j => A i j * x j).
Lemma ip_zero n (v : nat -> K) : re (ip n v v) = 0%R -> forall j, (j < n)%nat -> v j = 0.
Proof.
  assert (P : forall m, (0 <= re (ip m v v))%R /\ (re (ip m v v) = 0%R -> forall j, (j < m)%nat -> v j = 0)).
  { assert (r0 : re 0 = 0%R).
    { assert (E := re_add 0 0). replace (0 + 0 : K) with (0 : K) in E by ring. lra. }
    induction m as [|m (IH1 & IH2)].
    - split; [cbn; lra|intros; lia].
    - unfold ip in *. cbn [nsum]. rewrite re_add. assert (Q := re_pos (v m)). replace (v m * conj (v m)) with (conj (v m) * v m) by ring.
      split; [lra|]. intros E j Hj. destruct (Nat.eq_dec j m) as [->|N]; [apply re_def; lra|apply IH2; [lra|lia]]. }
  apply P.
Qed.

Lemma proj_exists M (A : nat -> nat -> K) : forall N (b : nat -> K),
  { x | forall j, (j < N)%nat -> ip M (fun i => b i - lin N A x i) (fun i => A i j) = 0 }.
Proof.
  induction N as [|N IH]; intros b.
  - exists (fun _ => 0). intros; lia.
  - destruct (IH b) as (x & Hx). destruct (IH (fun i => A i N)) as (y & Hy).
    set (ap := fun i => A i N - lin N A y i) in *. set (r := fun i => b i - lin N A x i) in *.
    assert (Hlin : forall u (f : nat -> K), (forall j, (j < N)%nat -> ip M f (fun i => A i j) = 0) -> ip M f (lin N A u) = 0).
    { intros u f Hf. unfold ip, lin. rewrite (nsum_ext K M _ (fun i => nsum N (fun j => f i * conj (A i j) * conj (u j)))).
      2:{ intros i Hi. rewrite (conj_nsum K conj CJ), <- nsum_mul_l. apply nsum_ext. intros. rewrite (conj_mul K conj CJ). ring. }
      rewrite nsum_swap. apply nsum_0'. intros j Hj. rewrite nsum_mul_r. unfold ip in Hf. rewrite Hf by exact Hj. ring. }
    assert (HaN : forall f, ip M f (fun i => A i N) = ip M f ap + ip M f (lin N A y)).
    { intros f. unfold ip. rewrite <- nsum_add. apply nsum_ext. intros i Hi. unfold ap. rewrite cj_sub. ring. }
    destruct (Feq_dec (ip M ap ap) 0) as [E|E].
    + exists (fun j => if (j <? N)%nat then x j else 0).
      assert (El : forall i, lin (S N) A (fun j => if (j <? N)%nat then x j else 0) i = lin N A x i).
      { intros i. unfold lin. cbn [nsum]. rewrite Nat.ltb_irrefl.
        rewrite (nsum_ext K N _ (fun j => A i j * x j)); [ring|]. intros j Hj. now rewrite (proj2 (Nat.ltb_lt j N) Hj). }
      intros j Hj. transitivity (ip M r (fun i => A i j)).
      { unfold ip. apply nsum_ext. intros i Hi. now rewrite El. }
      destruct (Nat.eq_dec j N) as [->|Nj]; [|apply Hx; lia].
      rewrite HaN, (Hlin y r Hx). 
      assert (Z : forall i, (i < M)%nat -> ap i = 0).
      { apply ip_zero. rewrite E. assert (E2 := re_add 0 0). replace (0 + 0 : K) with (0 : K) in E2 by ring. lra. }
      replace (ip M r ap) with (0 : K); [ring|]. symmetry. unfold ip. apply nsum_0'. intros i Hi. rewrite Z by exact Hi. rewrite (conj_0 K conj CJ). ring.
    + set (c := ip M r ap / ip M ap ap).
      exists (fun j => if (j <? N)%nat then x j - c * y j else c).
      assert (El : forall i, b i - lin (S N) A (fun j => if (j <? N)%nat then x j - c * y j else c) i = 1 * r i + (- c) * ap i).
      { intros i. unfold lin. cbn [nsum]. rewrite Nat.ltb_irrefl.
        rewrite (nsum_ext K N _ (fun j => A i j * x j - c * (A i j * y j))).
        2:{ intros j Hj. rewrite (proj2 (Nat.ltb_lt j N) Hj). ring. }
        rewrite nsum_sub, nsum_mul_l. unfold r, ap, lin. ring. }
      intros j Hj. 
      transitivity (ip M (fun i => 1 * r i + (- c) * ap i) (fun i => A i j)).
      { unfold ip. apply nsum_ext. intros i Hi. now rewrite El. }
      rewrite ip_lin_l. destruct (Nat.eq_dec j N) as [->|Nj].
      * rewrite !HaN, (Hlin y r Hx), (Hlin y ap Hy). unfold c. field. exact E.
      * rewrite Hx, Hy by lia. ring.
Qed.

Definition nrm (u : list K) : R := fold_right (fun z s => (re (conj z * z)%fld + s)%R) 0%R u.
Lemma nrm_ip (u : list K) : nrm u = re (ip (length u) (fun i => nth i u 0) (fun i => nth i u 0)).
Proof.
  assert (r0 : re 0 = 0%R).
  { assert (E := re_add 0 0). replace (0 + 0 : K) with (0 : K) in E by ring. lra. }
  induction u as [|a u IH]; [cbn; now rewrite r0|]. cbn [nrm fold_right length]. unfold ip. rewrite (nsum_S_l K). cbn [nth].
  rewrite re_add. fold (nrm u). rewrite IH. unfold ip. f_equal. f_equal. ring.
Qed.
Definition blstsq (A : mat K) (b : list K) : list K * list K :=
  (map (proj1_sig (proj_exists (nr A) (me A) (nc A) (fun i => nth i b 0))) (seq 0 (nc A)),
   if (nr A <=? nc A)%nat then [] else [0]).
Lemma blstsq_spec A b : length b = nr A -> lstsq_spec K (fun u v => (nrm u <= nrm v)%R) A b (fst (blstsq A b)).
Proof.
  intros Hb. unfold blstsq. destruct (proj_exists (nr A) (me A) (nc A) (fun i => nth i b 0)) as (x & Hx). cbn [fst proj1_sig].
  split; [now rewrite map_length, seq_length|]. intros x' Hx'. rewrite !nrm_ip.
  rewrite !vsub_length, !mv_length, Hb, Nat.min_id. set (M := nr A) in *. set (N := nc A) in *.
  set (r := fun i => nth i b 0 - lin N (me A) x i) in *.
  set (d := lin N (me A) (fun j => nth j x' 0 - x j)).
  assert (E1 : forall i, (i < M)%nat -> nth i (vsub (mv A (map x (seq 0 N))) b) 0 = - r i).
  { intros i Hi. rewrite vsub_nth by (rewrite mv_length; fold M; lia). rewrite mv_nth by exact Hi. unfold r, lin. fold N.
    rewrite (nsum_ext K N _ (fun j => me A i j * x j)); [ring|]. intros j Hj. now rewrite nth_map_seq. }
  assert (E2 : forall i, (i < M)%nat -> nth i (vsub (mv A x') b) 0 = 1 * d i + (- (1)) * r i).
  { intros i Hi. rewrite vsub_nth by (rewrite mv_length; fold M; lia). rewrite mv_nth by exact Hi. unfold d, r, lin. fold N.
    rewrite (nsum_ext K N (fun j => me A i j * (nth j x' 0 - x j)) (fun j => me A i j * nth j x' 0 - me A i j * x j)) by (intros; ring).
    rewrite nsum_sub. ring. }
  assert (I1 : ip M (fun i => nth i (vsub (mv A (map x (seq 0 N))) b) 0) (fun i => nth i (vsub (mv A (map x (seq 0 N))) b) 0) = ip M r r).
  { unfold ip. apply nsum_ext. intros i Hi. rewrite E1 by exact Hi. rewrite cj_opp. ring. }
  assert (I2 : ip M (fun i => nth i (vsub (mv A x') b) 0) (fun i => nth i (vsub (mv A x') b) 0) = ip M (fun i => 1 * d i + (- (1)) * r i) (fun i => 1 * d i + (- (1)) * r i)).
  { unfold ip. apply nsum_ext. intros i Hi. now rewrite E2 by exact Hi. }
  rewrite I1, I2, ip_lin_l, !ip_lin_r, cj_opp, conj_1.
  assert (Z : ip M r d = 0).
  { unfold ip, d, lin. rewrite (nsum_ext K M _ (fun i => nsum N (fun j => r i * conj (me A i j) * conj (nth j x' 0 - x j)))).
    2:{ intros i Hi. rewrite (conj_nsum K conj CJ), <- nsum_mul_l. apply nsum_ext. intros. rewrite (conj_mul K conj CJ). ring. }
    rewrite nsum_swap. apply nsum_0'. intros j Hj. rewrite nsum_mul_r. unfold ip in Hx. rewrite Hx by exact Hj. ring. }
  assert (Z' : ip M d r = 0) by (rewrite <- ip_sym, Z; apply (conj_0 K conj CJ)).
  rewrite Z, Z'.
  replace (1 * (1 * ip M d d + - (1) * 0) + - (1) * (1 * 0 + - (1) * ip M r r)) with (ip M d d + ip M r r) by ring.
  rewrite re_add. assert (P : (0 <= re (ip M d d))%R); [|lra].
  unfold ip. induction M as [|m IHm].
  - cbn. assert (E := re_add 0 0). replace (0 + 0 : K) with (0 : K) in E by ring. lra.
  - cbn [nsum]. rewrite re_add. replace (d m * conj (d m)) with (conj (d m) * d m) by ring. assert (Q := re_pos (d m)).
    assert (IH2 : (0 <= re (nsum m (fun j => d j * conj (d j))%fld))%R); [|lra].
    clear -re_add re_pos. induction m as [|m IH].
    + cbn. assert (E := re_add 0 0). replace (0 + 0 : K) with (0 : K) in E by ring. lra.
    + cbn [nsum]. rewrite re_add. replace (d m * conj (d m)) with (conj (d m) * d m) by ring. assert (Q := re_pos (d m)). lra.
Qed.

Theorem backend_exists : backend_ok K conj (fun u v => (nrm u <= nrm v)%R) bqr btri blstsq (fun _ => true).
Proof.
  repeat split.
  - intros A. unfold bqr. destruct (qr_exists A). assumption.
  - intros. now apply btri_spec.
  - now apply blstsq_spec.
  - now apply blstsq_spec.
  - intros A b H. cbn. now rewrite (proj2 (Nat.leb_le _ _) H).
Qed.
End B.

(** ** The reals and the complex numbers *)
Definition rle (u v : list R) : Prop :=
  (fold_right (fun z s => (z * z + s)%R) 0%R u <= fold_right (fun z s => (z * z + s)%R) 0%R v)%R.
Theorem real_backend : exists qr tri lstsq allclose0, backend_ok RF (fun x => x) rle qr tri lstsq allclose0.
Proof.
  assert (CJ : conj_ok RF (fun x => x)) by (repeat split).
  assert (U : forall a b : RF, (a <> 0 \/ b <> 0) -> { s : RF | s = s /\ s * s * (a * a + b * b) = 1 }).
  { intros a b H. set (t := (a * a + b * b)%R : R).
    assert (P : (0 < t)%R).
    { assert (A1 := Rle_0_sqr a). assert (B1 := Rle_0_sqr b). unfold Rsqr in *. unfold t.
      destruct H as [H|H]; assert (N := Rlt_0_sqr _ H); unfold Rsqr in N; cbn in *; lra. }
    exists (/ sqrt t)%R. split; [reflexivity|]. change ((/ sqrt t * / sqrt t * t)%R = 1%R). 
    assert (S := sqrt_sqrt t ltac:(lra)). assert (S2 := sqrt_lt_R0 t P). rewrite <- S at 3. field. lra. }
  assert (B := backend_exists RF (fun x => x) CJ (fun x => x) (fun x y => eq_refl)
    (fun x => Rle_0_sqr x) (fun x H => Rsqr_0_uniq x H) U).
  eexists _, _, _, _. exact B.
Qed.

Definition cle (u v : list C) : Prop :=
  (fold_right (fun z s => (Cmod z * Cmod z + s)%R) 0%R u <= fold_right (fun z s => (Cmod z * Cmod z + s)%R) 0%R v)%R.
Theorem complex_backend : exists qr tri lstsq allclose0, backend_ok CF Cconj cle qr tri lstsq allclose0.
Proof.
  assert (CJ : conj_ok CF Cconj) by (repeat split; cbn; intros; [apply Cconj_plus|apply Cconj_mult|apply Cconj_conj]).
  assert (M : forall z : C, fst (Cmult (Cconj z) z) = (Cmod z * Cmod z)%R).
  { intros z. assert (E := Cmod_sqr z). destruct z as [a b]. cbn in *. lra. }
  assert (M2 : forall z : C, Cmult (Cconj z) z = RtoC (Cmod z * Cmod z)).
  { intros z. apply C_ext; [apply M|]. destruct z as [a b]. cbn. ring. }
  assert (U : forall a b : CF, (a <> 0 \/ b <> 0) -> { s : CF | Cconj s = s /\ Cmult (Cmult s s) (Cplus (Cmult (Cconj a) a) (Cmult (Cconj b) b)) = RtoC 1%R }).
  { intros a b H. set (t := (Cmod a * Cmod a + Cmod b * Cmod b)%R).
    assert (P : (0 < t)%R).
    { unfold t. assert (A1 := Rle_0_sqr (Cmod a)). assert (B1 := Rle_0_sqr (Cmod b)). unfold Rsqr in *.
      destruct H as [H|H]; assert (N := proj1 (Cmod_gt_0 _) H); nra. }
    exists (RtoC (/ sqrt t)). split; [apply C_ext; cbn; ring|].
    change (Cmult (Cmult (RtoC (/ sqrt t)) (RtoC (/ sqrt t))) (Cplus (Cmult (Cconj a) a) (Cmult (Cconj b) b)) = RtoC 1%R).
    rewrite !M2, <- RtoC_plus, <- !RtoC_mult. f_equal. fold t.
    assert (S := sqrt_sqrt t ltac:(lra)). assert (S2 := sqrt_lt_R0 t P). rewrite <- S at 3. field. lra. }
  assert (B := backend_exists CF Cconj CJ (fst : C -> R) (fun x y => eq_refl)).
  assert (P1 : forall x : C, (0 <= fst (Cmult (Cconj x) x))%R) by (intros x; rewrite M; apply Rle_0_sqr).
  assert (P2 : forall x : C, fst (Cmult (Cconj x) x) = 0%R -> x = RtoC 0).
  { intros x E. rewrite M in E. apply Cmod_eq_0. apply Rsqr_0_uniq. exact E. }
  specialize (B P1 P2 U). destruct B as (H1 & H2 & H3 & H4). eexists _, _, _, (fun _ => true).
  split; [exact H1|]. split; [exact H2|]. split; [|exact H4].
  intros A b Hb. specialize (H3 A b Hb). destruct H3 as (L & H3). split; [exact L|]. intros x' Hx'. specialize (H3 x' Hx').
  assert (E : forall u : list C, nrm CF Cconj (fst : C -> R) u = fold_right (fun z s => (Cmod z * Cmod z + s)%R) 0%R u).
  { induction u as [|z u IH]; [reflexivity|]. cbn [nrm fold_right]. unfold nrm in IH. rewrite IH. f_equal. apply M. }
  unfold cle. rewrite <- !E. exact H3.
Qed.
