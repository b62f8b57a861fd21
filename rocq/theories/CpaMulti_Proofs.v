(** * Lattices with several sites per cell have retarded Green's functions *)
From Coq Require Import List Arith Lia Bool Reals Lra.
From Coquelicot Require Import Coquelicot.
From Verif Require Import Base FSum CBase CExp Linalg_Proofs Mat Matrix_Proofs MatAlg Fourier_Filon LatInt_Spec LatDer_Spec BebCausal_Proofs CpaCausal_Proofs.
Local Open Scope R_scope.

Section Site.
Variables (n : nat) (z : C) (H G : nat -> nat -> C) (h : R).
Hypothesis Hz : 0 < snd z.
Hypothesis HH : forall i j, (i < n)%nat -> (j < n)%nat -> H j i = Cconj (H i j).
Hypothesis Hh : forall i j, (i < n)%nat -> (j < n)%nat -> Cmod (H i j) <= h.
Hypothesis HG : is_resolvent n H z G.
Lemma zero_damp v : snd (qform n (fun _ _ => RtoC 0) v) <= 0.
Proof.
  assert (E : qform n (fun _ _ => RtoC 0) v = RtoC 0); [|rewrite E; cbn; lra]. unfold qform.
  apply (nsum_0' CF). intros i _. apply (nsum_0' CF). intros j _. apply injective_projections; cbn; ring.
Qed.
Lemma Mk_res i l : Mk z (fun _ _ => RtoC 0) H 1 i l = ((if Nat.eqb i l then z else RtoC 0) - H i l)%C.
Proof. unfold Mk. ringC. Qed.
Lemma site_sq i : (i < n)%nat -> snd z * sq n (fun l => G l i) <= - snd (G i i).
Proof.
  intros Hi. assert (Q := q_res n z (fun _ _ => RtoC 0) H 1 zero_damp HH (fun l => G l i)).
  assert (E : qform n (Mk z (fun _ _ => RtoC 0) H 1) (fun l => G l i) = Cconj (G i i)).
  { unfold qform. transitivity (csum n (fun a => Fmul (f := CF) (kron i a) (Cconj (G a i)))); [|exact (kron_sum CF n i (fun a => Cconj (G a i)) Hi)].
    apply (nsum_ext CF). intros a Ha. transitivity (Cconj (G a i) * csum n (fun l => (((if Nat.eqb a l then z else RtoC 0) - H a l) * G l i)%C))%C.
    - refine (eq_trans _ (nsum_mul_l CF n (Cconj (G a i)) _)). apply (nsum_ext CF). intros l Hl. rewrite Mk_res. change (Fmul (f := CF)) with Cmult. ringC.
    - rewrite (HG a i Ha Hi). unfold kron. rewrite (Nat.eqb_sym i a). destruct (Nat.eqb a i); apply injective_projections; cbn; ring. }
  rewrite E in Q. exact Q.
Qed.
Lemma sq_ge v k : (k < n)%nat -> n2 (v k) <= sq n v.
Proof. intros Hk. exact (rsum_pos n (fun i => fst (v i) * fst (v i) + snd (v i) * snd (v i)) (fun i _ => ltac:(nra)) k Hk). Qed.
Lemma cmod_sum m (f : nat -> C) (b : R) : (forall i, (i < m)%nat -> Cmod (f i) <= b) -> Cmod (csum m f) <= INR m * b.
Proof.
  induction m as [|m IH]; intros Hf; [cbn; change (Cmod (RtoC 0) <= 0 * b); rewrite Cmod_0; lra|]. rewrite S_INR. cbn [nsum].
  apply Rle_trans with (1 := Cmod_triangle (csum m f) (f m)). assert (A := IH (fun i Hi => Hf i (Nat.lt_lt_succ_r _ _ Hi))). assert (B := Hf m (Nat.lt_succ_diag_r m)). lra.
Qed.
Lemma site_disc i : (i < n)%nat -> disc (snd z) (snd z / ((INR n * (Cmod z + h)) * (INR n * (Cmod z + h)))) (G i i).
Proof.
  intros Hi. assert (S := site_sq i Hi). assert (A := sq_ge (fun l => G l i) i Hi). cbv beta in A. split; [nra|].
  assert (h0 : 0 <= h) by (apply Rle_trans with (1 := Cmod_ge_0 (H i i)); now apply Hh). assert (z0 : 0 < Cmod z) by (apply Cmod_gt_0; intros E; rewrite E in Hz; cbn in Hz; lra).
  assert (N : 0 < INR n) by (apply lt_0_INR; lia). set (b := Cmod z + h). set (s := sq n (fun l => G l i)) in *.
  assert (s0 : 0 <= s) by (assert (0 <= n2 (G i i)) by (unfold n2; nra); lra).
  assert (B : 1 <= INR n * (b * sqrt s)).
  { assert (E := HG i i Hi Hi). rewrite Nat.eqb_refl in E. replace 1 with (Cmod (RtoC 1)) by (rewrite Cmod_1; reflexivity). rewrite <- E. apply cmod_sum. intros l Hl. rewrite Cmod_mult. apply Rmult_le_compat; try apply Cmod_ge_0.
    - unfold b. apply Rle_trans with (1 := Cmod_triangle _ _). rewrite Cmod_opp. apply Rplus_le_compat; [|now apply Hh]. destruct (Nat.eqb i l); [lra|rewrite Cmod_0; lra].
    - unfold Cmod. apply sqrt_le_1_alt. assert (X := sq_ge (fun l => G l i) l Hl). unfold n2 in X. cbn [pow]. rewrite !Rmult_1_r. exact X. }
  assert (Q : 1 <= (INR n * b) * (INR n * b) * s). { rewrite <- (sqrt_sqrt s s0). assert (0 <= sqrt s) by apply sqrt_pos. replace (INR n * b * (INR n * b) * (sqrt s * sqrt s)) with ((INR n * (b * sqrt s)) * (INR n * (b * sqrt s))) by ring. nra. }
  assert (P : 0 < INR n * b) by (apply Rmult_lt_0_compat; unfold b; lra). assert (P2 : 0 < INR n * b * (INR n * b)) by (apply Rmult_lt_0_compat; exact P).
  apply Rle_trans with (snd z * s); [|exact S]. apply Rmult_le_compat_l; [lra|]. apply (Rmult_le_reg_l _ _ _ P2). rewrite Rinv_r by lra. exact Q.
Qed.
End Site.
Lemma avg_lin a b c n (f : nat -> C) : (0 < n)%nat -> (forall i, (i < n)%nat -> 0 <= a * fst (f i) + b * snd (f i) + c) -> 0 <= a * fst (csum n f / RtoC (INR n))%C + b * snd (csum n f / RtoC (INR n))%C + c.
Proof.
  intros Hn H. assert (N : 0 < INR n) by (now apply lt_0_INR).
  assert (S : forall m, (m <= n)%nat -> 0 <= a * fst (csum m f : C) + b * snd (csum m f : C) + INR m * c).
  { induction m as [|m IH]; intros Hm; [cbn; lra|]. rewrite S_INR. assert (I := IH ltac:(lia)). assert (J := H m ltac:(lia)). cbn [nsum]. change (fst (Fadd (f := CF) (csum m f) (f m))) with (fst (csum m f : C) + fst (f m)). change (snd (Fadd (f := CF) (csum m f) (f m))) with (snd (csum m f : C) + snd (f m)). lra. }
  specialize (S n (Nat.le_refl n)). set (q := csum n f : C) in *.
  replace (fst (q / RtoC (INR n))%C) with (fst q / INR n) by (cbn; field; lra). replace (snd (q / RtoC (INR n))%C) with (snd q / INR n) by (cbn; field; lra).
  apply (Rmult_le_reg_l (INR n)); [exact N|]. rewrite Rmult_0_r. replace (INR n * (a * (fst q / INR n) + b * (snd q / INR n) + c)) with (a * fst q + b * snd q + INR n * c) by (field; lra). exact S.
Qed.
(** the local Green's function of a Hermitian lattice *)
Theorem multi_average n (z g : C) (H G : R * R -> nat -> nat -> C) h : (0 < n)%nat -> 0 < snd z ->
  (forall k i j, (i < n)%nat -> (j < n)%nat -> H k j i = Cconj (H k i j)) -> (forall k i j, (i < n)%nat -> (j < n)%nat -> Cmod (H k i j) <= h) ->
  (forall k, is_resolvent n (H k) z (G k)) -> is_bz_average (fun k => site_average n (G k)) g -> g <> RtoC 0 /\ snd z <= snd (/ g)%C /\ snd g < 0.
Proof.
  intros Hn Hz HH Hh HG (inner & I1 & I2).
  assert (h0 : 0 <= h) by (apply Rle_trans with (1 := Cmod_ge_0 (H (0, 0) O O)); now apply Hh). assert (z0 : 0 < Cmod z) by (apply Cmod_gt_0; intros E; rewrite E in Hz; cbn in Hz; lra).
  assert (N : 0 < INR n) by (now apply lt_0_INR). assert (P : 0 < INR n * (Cmod z + h)) by (apply Rmult_lt_0_compat; lra).
  apply (disc_out _ (snd z / ((INR n * (Cmod z + h)) * (INR n * (Cmod z + h))))); [exact Hz|apply Rdiv_lt_0_compat; [exact Hz|apply Rmult_lt_0_compat; exact P]|]. apply disc_lin; [lra|]. intros a b c Hl.
  assert (X := lin_avg a b (c * (PI - - PI)) _ _ _ _ mpi_pi I2 (fun k1 _ => lin_avg a b c _ _ _ _ mpi_pi (I1 k1)
     (fun k2 _ => avg_lin a b c n _ Hn (fun i Hi => Hl _ (site_disc n z (H (k1, k2)) (G (k1, k2)) h Hz (HH _) (Hh _) (HG _) i Hi))))).
  cbn [fst snd Cmult RtoC] in X. assert (Pp := PI_RGT_0). apply (Rmult_le_reg_l (4 * (PI * PI))); [nra|]. nra.
Qed.
