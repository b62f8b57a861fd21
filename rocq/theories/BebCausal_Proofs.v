(** * Causality of the local Green's function of gftool/beb.py *)
From Coq Require Import List Arith Lia Bool Reals Lra.
From Coquelicot Require Import Coquelicot.
From Verif Require Import Base FSum CBase Linalg_Proofs Mat Matrix_Model Matrix_Proofs MatAlg.
Import ListNotations.
Local Open Scope R_scope.

Ltac ringC := match goal with |- @eq _ ?a ?b => change (@eq C a b) end; ring.
Notation csum := (nsum (K := CF)).
Fixpoint rsum (n : nat) (f : nat -> R) : R := match n with O => 0 | S m => rsum m f + f m end.
Lemma snd_csum n (f : nat -> C) : snd (csum n f : C) = rsum n (fun i => snd (f i)).
Proof. induction n as [|n IH]; [reflexivity|]. cbn [nsum rsum]. rewrite <- IH. reflexivity. Qed.
Lemma fst_csum n (f : nat -> C) : fst (csum n f : C) = rsum n (fun i => fst (f i)).
Proof. induction n as [|n IH]; [reflexivity|]. cbn [nsum rsum]. rewrite <- IH. reflexivity. Qed.
Lemma conj_csum n (f : nat -> C) : Cconj (csum n f) = csum n (fun i => Cconj (f i)).
Proof. induction n as [|n IH]; [apply injective_projections; cbn; ring|]. cbn [nsum]. rewrite <- IH. apply injective_projections; cbn; ring. Qed.
Lemma rsum_le n f g : (forall i, (i < n)%nat -> f i <= g i) -> rsum n f <= rsum n g.
Proof. induction n as [|n IH]; intros H; cbn; [lra|]. assert (H1 := IH (fun i Hi => H i (Nat.lt_lt_succ_r _ _ Hi))). assert (H2 := H n (Nat.lt_succ_diag_r n)). lra. Qed.
Lemma rsum_pos n f : (forall i, (i < n)%nat -> 0 <= f i) -> forall k, (k < n)%nat -> f k <= rsum n f.
Proof.
  induction n as [|n IH]; intros H k Hk; [lia|]. cbn. assert (P := fun i Hi => H i (Nat.lt_lt_succ_r _ _ Hi)). 
  destruct (Nat.eq_dec k n) as [->|N].
  - assert (0 <= rsum n f); [|lra]. clear -P. induction n as [|n IH]; cbn; [lra|]. assert (H1 := IH (fun i Hi => P i (Nat.lt_lt_succ_r _ _ Hi))). assert (H2 := P n (Nat.lt_succ_diag_r n)). lra.
  - assert (A := IH P k ltac:(lia)). assert (B := H n (Nat.lt_succ_diag_r n)). lra.
Qed.

(** v^+ A v *)
Definition qform (n : nat) (A : nat -> nat -> C) (v : nat -> C) : C := csum n (fun i => csum n (fun j => (Cconj (v i) * A i j * v j)%C)).
Definition sq (n : nat) (v : nat -> C) : R := rsum n (fun i => fst (v i) * fst (v i) + snd (v i) * snd (v i)).
Lemma sq_pos n v k : (k < n)%nat -> v k <> RtoC 0 -> 0 < sq n v.
Proof.
  intros Hk N. unfold sq. assert (P := rsum_pos n (fun i => fst (v i) * fst (v i) + snd (v i) * snd (v i)) (fun i _ => ltac:(nra)) k Hk). cbv beta in P.
  assert (0 < fst (v k) * fst (v k) + snd (v k) * snd (v k)); [|lra].
  destruct (Req_dec (fst (v k)) 0) as [E|E]; [|nra]. destruct (Req_dec (snd (v k)) 0) as [F|F]; [|nra]. exfalso. apply N. destruct (v k) as (a, b). cbn in E, F. now subst.
Qed.

(** the quadratic form of the inverse *)
Lemma qform_inv n (A R : nat -> nat -> C) v k : minv CF n A R -> (k < n)%nat -> v k <> RtoC 0 ->
  exists u l, (l < n)%nat /\ u l <> RtoC 0 /\ Cconj (qform n R v) = qform n A u.
Proof.
  intros MR Hk N. set (u := fun i => csum n (fun j => (R i j * v j)%C) : C).
  assert (MU : forall i, (i < n)%nat -> csum n (fun j => (A i j * u j)%C) = v i).
  { intros i Hi. unfold u. rewrite (nsum_ext CF n _ (fun l => csum n (fun j => (A i l * R l j * v j)%C))).
    2:{ intros l Hl. change Cmult with (Fmul (f := CF)). rewrite <- (nsum_mul_l CF n). apply (nsum_ext CF n). intros j Hj. change (Fmul (f := CF)) with Cmult. ringC. }
    rewrite (nsum_swap CF n n (fun l j => (A i l * R l j * v j)%C : CF)). rewrite (nsum_ext CF n _ (fun j => Fmul (f := CF) (kron i j) (v j))).
    - exact (kron_sum CF n i v Hi).
    - intros j Hj. rewrite <- (MR i j Hi Hj). exact (nsum_mul_r CF n (v j) (fun l => Fmul (f := CF) (A i l) (R l j))). }
  assert (E : Cconj (qform n R v) = qform n A u).
  { unfold qform. rewrite conj_csum. apply (nsum_ext CF n). intros i Hi.
    transitivity (Cconj (u i) * v i)%C.
    - transitivity (Cconj (Cconj (v i) * u i)%C); [|apply injective_projections; cbn; ring]. f_equal. unfold u.
      refine (eq_trans _ (nsum_mul_l CF n (Cconj (v i)) (fun j => (R i j * v j)%C))). apply (nsum_ext CF n). intros j Hj. change (Fmul (f := CF)) with Cmult. ringC.
    - rewrite <- (MU i Hi) at 1. refine (eq_trans (eq_sym (nsum_mul_l CF n (Cconj (u i)) (fun j => (A i j * u j)%C))) _). apply (nsum_ext CF n). intros j Hj. change (Fmul (f := CF)) with Cmult. ringC. }
  assert (U : exists l, (l < n)%nat /\ u l <> RtoC 0).
  { destruct (forallb (fun l => if Ceq_dec (u l) (RtoC 0) then true else false) (seq 0 n)) eqn:F.
    - exfalso. apply N. rewrite forallb_forall in F. rewrite <- (MU k Hk). rewrite (nsum_ext CF n _ (fun _ => RtoC 0 : CF)); [exact (nsum_0 CF n)|]. intros j Hj.
      specialize (F j ltac:(apply in_seq; lia)). destruct (Ceq_dec (u j) (RtoC 0)) as [Q|]; [|discriminate]. rewrite Q. apply injective_projections; cbn; ring.
    - assert (X : existsb (fun l => negb (if Ceq_dec (u l) (RtoC 0) then true else false)) (seq 0 n) = true).
      { clear -F. induction (seq 0 n) as [|a l IH]; [discriminate|]. cbn in F |- *. destruct (Ceq_dec (u a) (RtoC 0)); cbn in *; [now apply IH|reflexivity]. }
      apply existsb_exists in X. destruct X as (l & Hl & X). apply in_seq in Hl. exists l. split; [lia|]. destruct (Ceq_dec (u l) (RtoC 0)); [discriminate|assumption]. }
  destruct U as (l & Hl & Ul). exists u, l. auto.
Qed.
Section Res.
Variables (n : nat) (z : C) (Sg T : nat -> nat -> C) (e : R).
Hypothesis Hz : 0 < snd z.
Hypothesis HS : forall v, snd (qform n Sg v) <= 0.
Hypothesis HT : forall i j, (i < n)%nat -> (j < n)%nat -> T j i = Cconj (T i j).
Definition Mk (i j : nat) : C := ((if (i =? j)%nat then z else RtoC 0) - Sg i j - RtoC e * T i j)%C.

Lemma herm_real v : snd (qform n T v) = 0.
Proof.
  assert (E : Cconj (qform n T v) = qform n T v).
  { unfold qform. rewrite conj_csum. rewrite (nsum_ext CF n _ (fun i => csum n (fun j => (Cconj (v j) * T j i * v i)%C))).
    - apply (nsum_swap CF n n (fun i j => (Cconj (v j) * T j i * v i)%C : CF)).
    - intros i Hi. rewrite conj_csum. apply (nsum_ext CF n). intros j Hj. rewrite (HT i j Hi Hj). apply injective_projections; cbn; ring. }
  apply (f_equal snd) in E. cbn in E. lra.
Qed.
Lemma qform_lin v : qform n Mk v = (z * RtoC (sq n v) - qform n Sg v - RtoC e * qform n T v)%C.
Proof.
  assert (D : RtoC (sq n v) = csum n (fun i => csum n (fun j => Fmul (f := CF) (kron (K := CF) i j) (Cconj (v i) * v j)%C))).
  { unfold sq. transitivity (csum n (fun i => RtoC (fst (v i) * fst (v i) + snd (v i) * snd (v i)))).
    - clear. induction n as [|m IH]; [reflexivity|]. cbn [nsum rsum]. rewrite <- IH. exact (RtoC_plus _ _).
    - apply (nsum_ext CF n). intros i Hi. rewrite (kron_sum CF n i (fun j => (Cconj (v i) * v j)%C) Hi). apply injective_projections; cbn; ring. }
  rewrite D. unfold qform.
  rewrite <- (nsum_mul_l CF n z), <- (nsum_mul_l CF n (RtoC e)), <- (nsum_sub CF n), <- (nsum_sub CF n). apply (nsum_ext CF n). intros i Hi.
  rewrite <- (nsum_mul_l CF n z), <- (nsum_mul_l CF n (RtoC e)), <- (nsum_sub CF n), <- (nsum_sub CF n). apply (nsum_ext CF n). intros j Hj.
  change (@eq C (Cconj (v i) * Mk i j * v j)%C (z * ((if (i =? j)%nat then RtoC 1 else RtoC 0) * (Cconj (v i) * v j)) - Cconj (v i) * Sg i j * v j - RtoC e * (Cconj (v i) * T i j * v j))%C).
  unfold Mk. destruct (i =? j)%nat; ring.
Qed.
Lemma q_res v : snd z * sq n v <= snd (qform n Mk v).
Proof.
  rewrite qform_lin. assert (H1 := HS v). assert (H2 := herm_real v). set (a := qform n Sg v) in *. set (b := qform n T v) in *. cbn. rewrite H2. lra.
Qed.
Lemma Mk_inj : inj CF n Mk.
Proof.
  intros u Hu j Hj. destruct (Ceq_dec (u j) (RtoC 0)) as [E|N]; [exact E|exfalso]. assert (P := sq_pos n u j Hj N). assert (Q := q_res u).
  assert (Z : qform n Mk u = RtoC 0).
  { unfold qform. rewrite (nsum_ext CF n _ (fun _ => RtoC 0 : CF)); [exact (nsum_0 CF n)|]. intros i Hi.
    rewrite (nsum_ext CF n _ (fun j => (Cconj (u i) * (Mk i j * u j))%C : CF)) by (intros; change (@eq C (Cconj (u i) * Mk i i0 * u i0) (Cconj (u i) * (Mk i i0 * u i0)))%C; ring).
    rewrite (nsum_mul_l CF n (Cconj (u i))). change (Fmul (f := CF)) with Cmult. assert (Y := Hu i Hi). change (csum n (fun j => (Mk i j * u j)%C) = RtoC 0) in Y. rewrite Y. apply injective_projections; cbn; ring. }
  rewrite Z in Q. cbn in Q. assert (0 < snd z * sq n u) by (apply Rmult_lt_0_compat; assumption). lra.
Qed.
(** the resolvent is dissipative *)
Lemma res_neg R v k : minv CF n Mk R -> (k < n)%nat -> v k <> RtoC 0 -> snd (qform n R v) < 0.
Proof.
  intros MR Hk N. destruct (qform_inv n Mk R v k MR Hk N) as (u & l & Hl & Ul & E). assert (P := sq_pos n u l Hl Ul). assert (Q := q_res u). rewrite <- E in Q. cbn in Q.
  assert (0 < snd z * sq n u) by (apply Rmult_lt_0_compat; assumption). lra.
Qed.
End Res.
Lemma qform_unit n A i : (i < n)%nat -> qform n A (fun j => kron (K := CF) i j) = A i i.
Proof.
  intros Hi. unfold qform. transitivity (csum n (fun a => Fmul (f := CF) (kron i a) (A a i))); [|exact (kron_sum CF n i (fun a => A a i) Hi)].
  apply (nsum_ext CF n). intros a Ha. transitivity (csum n (fun j => Fmul (f := CF) (kron i j) (Cconj (kron (K := CF) i a) * A a j)%C)).
  - apply (nsum_ext CF n). intros j Hj. change (Fmul (f := CF)) with Cmult. ringC.
  - rewrite (kron_sum CF n i (fun j => (Cconj (kron (K := CF) i a) * A a j)%C) Hi). change (Fmul (f := CF)) with Cmult. f_equal. unfold kron. destruct (i =? a)%nat; apply injective_projections; cbn; ring.
Qed.
Lemma kron_nz i : (kron (K := CF) i i : C) <> RtoC 0.
Proof. unfold kron. rewrite Nat.eqb_refl. intros Z. apply (f_equal (@fst R R)) in Z. cbn in Z. lra. Qed.
(** the average of the resolvents *)
Lemma sum_neg n (z : C) (Sg T : nat -> nat -> C) : 0 < snd z -> (forall v, snd (qform n Sg v) <= 0) -> (forall i j, (i < n)%nat -> (j < n)%nat -> T j i = Cconj (T i j)) ->
  forall N (w eps : nat -> R) (R : nat -> nat -> nat -> C), (forall k, (k < N)%nat -> 0 <= w k) -> csum N (fun k => RtoC (w k)) = RtoC 1 ->
  (forall k, (k < N)%nat -> minv CF n (Mk z Sg T (eps k)) (R k)) ->
  forall v k, (k < n)%nat -> v k <> RtoC 0 -> snd (qform n (fun i j => csum N (fun l => (RtoC (w l) * R l i j)%C)) v) < 0.
Proof.
  intros Hz HS HT N w eps R P1 P2 HR v k Hk Nk.
  assert (Q : qform n (fun i j => csum N (fun l => (RtoC (w l) * R l i j)%C)) v = nsum (K := CF) N (fun l => (RtoC (w l) * qform n (R l) v)%C)).
  { unfold qform.
    transitivity (nsum (K := CF) n (fun i => nsum (K := CF) N (fun l => (RtoC (w l) * nsum (K := CF) n (fun j => (Cconj (v i) * R l i j * v j)%C))%C))).
    - apply (nsum_ext CF). intros i Hi. transitivity (nsum (K := CF) n (fun j => nsum (K := CF) N (fun l => (RtoC (w l) * (Cconj (v i) * R l i j * v j))%C))).
      + apply (nsum_ext CF). intros j Hj. symmetry.
        transitivity (nsum (K := CF) N (fun l => Fmul (f := CF) (Fmul (f := CF) (Cconj (v i)) (RtoC (w l) * R l i j)%C) (v j))); [apply (nsum_ext CF); intros l Hl; change (Fmul (f := CF)) with Cmult; ringC|].
        rewrite (nsum_mul_r CF N (v j)), (nsum_mul_l CF N (Cconj (v i))). reflexivity.
      + rewrite (nsum_swap CF). apply (nsum_ext CF). intros l Hl. exact (nsum_mul_l CF n (RtoC (w l)) _).
    - rewrite (nsum_swap CF). apply (nsum_ext CF). intros l Hl. exact (nsum_mul_l CF n (RtoC (w l)) _). }
  rewrite Q, snd_csum. assert (O : rsum N w = 1).
  { apply (f_equal fst) in P2. rewrite fst_csum in P2. exact P2. }
  assert (F : forall M, (M <= N)%nat -> rsum M (fun l => snd (RtoC (w l) * qform n (R l) v)%C) <= 0 /\ (0 < rsum M w -> rsum M (fun l => snd (RtoC (w l) * qform n (R l) v)%C) < 0)).
  { induction M as [|M IH]; intros HM; [cbn; split; lra|]. destruct (IH ltac:(lia)) as (I1 & I2). assert (W := P1 M ltac:(lia)).
    assert (D := res_neg n z Sg T (eps M) Hz HS HT (R M) v k (HR M ltac:(lia)) Hk Nk). cbn [rsum].
    replace (snd (RtoC (w M) * qform n (R M) v)%C) with (w M * snd (qform n (R M) v)) by (set (q := qform n (R M) v); cbn; ring).
    split; [nra|]. intros Pp. destruct (Req_dec (w M) 0) as [Z|Z]; [rewrite Z in *; assert (0 < rsum M w) by lra; specialize (I2 H); lra|]. assert (0 < w M) by lra. nra. }
  apply (proj2 (F N (Nat.le_refl N))). rewrite O. lra.
Qed.
