(** * The spectral theorem: every Hermitian matrix has a unitary eigenbasis with real eigenvalues

    Library file: shows that the contract of np.linalg.eigh is satisfiable. *)
From Coq Require Import List Arith Reals Lia Lra Bool Field.
From Coquelicot Require Import Coquelicot.
From Verif Require Import Base FSum CBase Herm_Proofs LinPred_Burg Linalg_Model Linalg_Proofs Mat Backend Schur FTA PPade_Sat Matrix_Proofs.
Import ListNotations.
Local Open Scope fld_scope.

Section S.
Variable K : Fld.
Add Field KFsp : (Fth K).
Variable conj : K -> K.
Hypothesis CJ : conj_ok K conj.
Hypothesis unit2 : forall a b : K, (a <> 0 \/ b <> 0) -> { s : K | conj s = s /\ s * s * (conj a * a + conj b * b) = 1 }.
Hypothesis AC : alg_closed K.
Notation ip := (ip K conj).
Notation app := (app K).
Notation unitary := (unitary K conj).

(** x^T H conj(y) *)
Definition bil (n : nat) (H : nat -> nat -> K) (x y : nat -> K) : K := app n x (fun a => nsum n (fun b => H a b * conj (y b))).
Definition herm (n : nat) (H : nat -> nat -> K) : Prop := forall i j, (i < n)%nat -> (j < n)%nat -> conj (H i j) = H j i.
Lemma bil_conj n H x y : herm n H -> conj (bil n H x y) = bil n H y x.
Proof.
  intros HH. unfold bil, app. rewrite (conj_nsum K conj CJ).
  rewrite (nsum_ext K n (fun j => y j * _) (fun j => nsum n (fun a => y j * (H j a * conj (x a))))) by (intros; now rewrite nsum_mul_l).
  rewrite (nsum_swap K). apply nsum_ext. intros a Ha. rewrite (conj_mul K conj CJ), (conj_nsum K conj CJ), <- nsum_mul_l. apply nsum_ext. intros b Hb.
  rewrite (conj_mul K conj CJ), (conj_conj K conj CJ), HH by assumption. ring.
Qed.
Lemma bil_sum_r n H x m (c : nat -> K) (y : nat -> nat -> K) : bil n H x (fun b => nsum m (fun k => c k * y k b)) = nsum m (fun k => conj (c k) * bil n H x (y k)).
Proof.
  unfold bil, app. rewrite (nsum_ext K m (fun k => conj (c k) * _) (fun k => nsum n (fun j => conj (c k) * (x j * nsum n (fun b => H j b * conj (y k b)))))) by (intros; now rewrite nsum_mul_l).
  rewrite (nsum_swap K). apply nsum_ext. intros j Hj. rewrite (nsum_ext K m _ (fun k => x j * nsum n (fun b => conj (c k) * (H j b * conj (y k b))))) by (intros; rewrite nsum_mul_l; ring).
  rewrite nsum_mul_l. f_equal. rewrite (nsum_swap K). apply nsum_ext. intros b Hb. rewrite (conj_nsum K conj CJ), <- nsum_mul_l. apply nsum_ext. intros k Hk. rewrite (conj_mul K conj CJ). ring.
Qed.
Lemma ip_sum_r n x m (c : nat -> K) (y : nat -> nat -> K) : ip n x (fun b => nsum m (fun k => c k * y k b)) = nsum m (fun k => conj (c k) * ip n x (y k)).
Proof.
  unfold ip. rewrite (nsum_ext K m (fun k => conj (c k) * _) (fun k => nsum n (fun j => conj (c k) * (x j * conj (y k j))))) by (intros; now rewrite nsum_mul_l).
  rewrite (nsum_swap K). apply nsum_ext. intros b Hb. rewrite (conj_nsum K conj CJ), <- nsum_mul_l. apply nsum_ext. intros k Hk. rewrite (conj_mul K conj CJ). ring.
Qed.
(** a vector is determined by its products with the rows of a unitary matrix *)
Lemma rows_inj n U (x y : nat -> K) : unitary n U -> (forall a, (a < n)%nat -> app n (U a) x = app n (U a) y) -> forall j, (j < n)%nat -> x j = y j.
Proof.
  intros HU E j Hj. assert (HV := inv_comm K n U (fun k j => conj (U j k)) HU). cbv beta in HV.
  assert (X : forall z : nat -> K, z j = nsum n (fun a => conj (U a j) * app n (U a) z)).
  { intros z. unfold app. rewrite (nsum_ext K n _ (fun a => nsum n (fun b => conj (U a j) * U a b * z b))) by (intros; rewrite <- nsum_mul_l; apply nsum_ext; intros; ring).
    rewrite (nsum_swap K), (nsum_ext K n _ (fun b => kron j b * z b)); [symmetry; now apply kron_sum|]. intros b Hb. rewrite nsum_mul_r, HV by assumption. reflexivity. }
  rewrite (X x), (X y). apply nsum_ext. intros a Ha. now rewrite E.
Qed.
Lemma unitary_id n : unitary n (fun i j => kron i j).
Proof.
  intros i j Hi Hj. unfold Backend.ip. rewrite kron_sum by exact Hi. unfold kron. rewrite (Nat.eqb_sym j i). destruct (i =? j)%nat; [apply (conj_1 K conj CJ)|apply (conj_0 K conj CJ)].
Qed.
Theorem spectral n : forall H, herm n H -> exists W d, unitary n W /\ (forall i, (i < n)%nat -> conj (d i) = d i) /\
  forall i j, (i < n)%nat -> (j < n)%nat -> nsum n (fun k => H j k * conj (W i k)) = d i * conj (W i j).
Proof.
  induction n as [|n IH]; intros H HH.
  - exists (fun _ _ => 0), (fun _ => 0). split; [|split]; intros i; intros; lia.
  - destruct (eigvec_exists K AC (S n) H ltac:(lia)) as (lam & w & (p & Hp & Ew) & Hw).
    destruct (clear K conj CJ unit2 (S n) 0 w (fun i j => kron i j) (unitary_id (S n))) as (U & HU & HC & _ & _).
    set (c := app (S n) (U 0%nat) w).
    assert (Uw : forall j, (j < S n)%nat -> w j = c * conj (U 0%nat j)).
    { apply (rows_inj (S n) U w (fun j => c * conj (U 0%nat j)) HU). intros a Ha.
      assert (Q : app (S n) (U a) (fun j => c * conj (U 0%nat j)) = c * kron a 0). { rewrite <- (HU a 0%nat Ha ltac:(lia)). unfold app, Backend.ip. rewrite <- nsum_mul_l. apply nsum_ext. intros; ring. }
      rewrite Q. destruct a as [|a]; [unfold kron; cbn [Nat.eqb]; fold c; ring|]. rewrite HC by lia. unfold kron. cbn [Nat.eqb]. ring. }
    assert (Hc : c <> 0). { intros Z. apply Ew. rewrite Uw by exact Hp. rewrite Z. ring. }
    assert (HU0 : forall j, (j < S n)%nat -> nsum (S n) (fun k => H j k * conj (U 0%nat k)) = lam * conj (U 0%nat j)).
    { intros j Hj. apply (fmul_cancel_l K c); [exact Hc|]. rewrite <- nsum_mul_l. transitivity (nsum (S n) (fun k => H j k * w k)).
      - apply nsum_ext. intros k Hk. rewrite (Uw k Hk). ring.
      - rewrite Hw by exact Hj. rewrite (Uw j Hj). ring. }
    assert (B0 : forall x, bil (S n) H x (U 0%nat) = lam * ip (S n) x (U 0%nat)).
    { intros x. unfold bil, app, Backend.ip. rewrite <- nsum_mul_l. apply nsum_ext. intros j Hj. rewrite HU0 by exact Hj. ring. }
    assert (Hlam : conj lam = lam).
    { assert (E := B0 (U 0%nat)). rewrite (HU 0%nat 0%nat) in E by lia. unfold kron in E. cbn [Nat.eqb] in E. assert (E' : bil (S n) H (U 0%nat) (U 0%nat) = lam) by (rewrite E; ring). rewrite <- E' at 1. rewrite bil_conj by exact HH. exact E'. }
    set (T := fun k l => bil (S n) H (U (S k)) (U (S l))).
    assert (HT : herm n T) by (intros i j Hi Hj; unfold T; now apply bil_conj).
    destruct (IH T HT) as (W' & d' & HW' & Hd' & HE).
    set (W := fun i => match i with O => U 0%nat | S i => fun b => nsum n (fun k => W' i k * U (S k) b) end).
    set (d := fun i => match i with O => lam | S i => d' i end).
    assert (IU : forall a i, (a < S n)%nat -> ip (S n) (U a) (W (S i)) = match a with O => 0 | S a => conj (W' i a) end).
    { intros a i Ha. unfold W. rewrite ip_sum_r. destruct a as [|a].
      - apply nsum_0'. intros k Hk. rewrite HU by lia. unfold kron. cbn [Nat.eqb]. ring.
      - rewrite (nsum_single K n a); [rewrite HU by lia; unfold kron; rewrite Nat.eqb_refl; ring|lia|]. intros k Hk Hne. rewrite HU by lia. unfold kron. rewrite (proj2 (Nat.eqb_neq (S a) (S k))) by lia. ring. }
    exists W, d. split; [|split].
    + intros i j Hi Hj. destruct j as [|j]; [destruct i as [|i]|].
      * cbn [W]. now apply HU.
      * rewrite <- (ip_sym K conj CJ). change (W 0%nat) with (U 0%nat). rewrite IU by lia. unfold kron. cbn [Nat.eqb]. apply (conj_0 K conj CJ).
      * destruct i as [|i]; [change (W 0%nat) with (U 0%nat); rewrite IU by lia; reflexivity|].
        rewrite <- (ip_sym K conj CJ). unfold W at 2. rewrite ip_sum_r.
        rewrite (nsum_ext K n _ (fun k => conj (W' i k) * W' j k)).
        -- rewrite (conj_nsum K conj CJ). assert (E := HW' i j ltac:(lia) ltac:(lia)). unfold Backend.ip in E. unfold kron in *. cbn [Nat.eqb]. rewrite <- E. apply nsum_ext. intros k Hk. rewrite (conj_mul K conj CJ), (conj_conj K conj CJ). ring.
        -- intros k Hk. f_equal. rewrite <- (ip_sym K conj CJ), IU by lia. apply (conj_conj K conj CJ).
    + intros [|i] Hi; cbn [d]; [exact Hlam|apply Hd'; lia].
    + intros i j Hi Hj. destruct i as [|i]; [now apply HU0|]. cbn [d].
      apply (rows_inj (S n) U (fun j => nsum (S n) (fun k => H j k * conj (W (S i) k))) (fun j => d' i * conj (W (S i) j)) HU); [|exact Hj]. intros a Ha.
      change (bil (S n) H (U a) (W (S i)) = app (S n) (U a) (fun j => d' i * conj (W (S i) j))).
      assert (R : app (S n) (U a) (fun j => d' i * conj (W (S i) j)) = d' i * ip (S n) (U a) (W (S i))). { unfold app, Backend.ip. rewrite <- nsum_mul_l. apply nsum_ext. intros; ring. }
      rewrite R, IU by exact Ha. destruct a as [|a].
      * rewrite <- bil_conj by exact HH. rewrite B0, <- (ip_sym K conj CJ), IU by lia. rewrite (conj_0 K conj CJ). replace (lam * 0) with (0 : K) by ring. rewrite (conj_0 K conj CJ). ring.
      * unfold W. rewrite bil_sum_r. rewrite <- (HE i a ltac:(lia) ltac:(lia)). apply nsum_ext. intros k Hk. change (conj (W' i k) * T a k = T a k * conj (W' i k)). ring.
Qed.
End S.

Lemma C_unit2 : forall a b : CF, (a <> RtoC 0 \/ b <> RtoC 0) -> { s : CF | Cconj s = s /\ Cmult (Cmult s s) (Cplus (Cmult (Cconj a) a) (Cmult (Cconj b) b)) = RtoC 1%R }.
Proof.
  intros a b H. set (t := (Cmod a * Cmod a + Cmod b * Cmod b)%R).
  assert (M2 : forall z : C, Cmult (Cconj z) z = RtoC (Cmod z * Cmod z)) by (intros z; assert (E := Cmod_sqr z); destruct z as [x y]; apply C_ext; cbn in *; lra).
  assert (P : (0 < t)%R).
  { unfold t. assert (A1 := Rle_0_sqr (Cmod a)). assert (B1 := Rle_0_sqr (Cmod b)). unfold Rsqr in *. destruct H as [H|H]; assert (N := proj1 (Cmod_gt_0 _) H); nra. }
  exists (RtoC (/ sqrt t)). split; [apply C_ext; cbn; ring|].
  rewrite !M2, <- RtoC_plus, <- !RtoC_mult. f_equal. fold t. assert (S := sqrt_sqrt t ltac:(lra)). assert (S2 := sqrt_lt_R0 t P). rewrite <- S at 3. field. lra.
Qed.
Lemma C_conj_ok : conj_ok CF Cconj.
Proof. repeat split; cbn; intros; [apply Cconj_plus|apply Cconj_mult|apply Cconj_conj]. Qed.

(** np.linalg.eigh of a Hermitian matrix *)
Theorem eigh_exists (A : mat CF) : nr A = nc A -> (forall i j, (i < nr A)%nat -> (j < nr A)%nat -> me A i j = Cconj (me A j i)) ->
  exists ev, eigh_spec CF Cconj A ev.
Proof.
  intros Hs HA. destruct (spectral CF Cconj C_conj_ok C_unit2 C_alg_closed (nr A) (me A)) as (W & d & HW & Hd & HE); [intros i j Hi Hj; symmetry; now apply HA|].
  exists (map d (seq 0 (nr A)), Mat (K := CF) (nr A) (nr A) (fun k i => Cconj (W i k))). unfold eigh_spec, eig_spec. split; [|split].
  - split; [split; reflexivity|]. split; [now rewrite map_length, seq_length|]. intros i j Hi Hj. cbn [me]. rewrite (nth_map_seq d (nr A) j) by exact Hj. refine (eq_trans (HE j i Hj Hi) _). cring.
  - intros x Hx. apply in_map_iff in Hx. destruct Hx as (i & <- & Hi). apply Hd. apply in_seq in Hi. lia.
  - intros i j Hi Hj. cbn [me]. refine (eq_trans _ (HW i j Hi Hj)). unfold ip. apply (nsum_ext CF). intros k Hk. change (@Fmul CF) with Cmult. now rewrite Cconj_conj.
Qed.
