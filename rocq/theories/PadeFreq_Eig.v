(** * The generalised eigenvalue problem of the Padé frequencies *)
From Coq Require Import List Arith ZArith Bool Reals Lia Lra Psatz.
From Coquelicot Require Import Coquelicot.
From Verif Require Import Base FSum CBase LinPred_Burg Linalg_Model Linalg_Proofs Matrix_Proofs MatAlg Matsu_Ser Matsu_Main PadeFreq_Tanh PadeFreq_Model.
Import ListNotations.
Local Open Scope R_scope.

(** ** three term recurrence *)
Fixpoint qq (s : R) (i : nat) : R * R := match i with O => (0, 1) | S i => let (a, b) := qq s i in (b, s * (2 * INR i + 1) * b - a) end.
Definition q (s : R) (i : nat) : R := snd (qq s i).
Lemma q_0 s : q s 0 = 1. Proof. reflexivity. Qed.
Lemma q_1 s : q s 1 = s. Proof. unfold q. cbn. ring. Qed.
Lemma q_SS s i : q s (S (S i)) = s * (2 * INR (S i) + 1) * q s (S i) - q s i.
Proof.
  assert (F : forall i, fst (qq s (S i)) = q s i) by (intros j; unfold q; cbn [qq]; destruct (qq s j); reflexivity).
  rewrite <- F. unfold q. cbn [qq]. destruct (qq s i) as [a b]. reflexivity.
Qed.
Lemma q_parity s i : q (- s) i = (-1) ^ i * q s i.
Proof.
  assert (H : q (- s) i = (-1) ^ i * q s i /\ q (- s) (S i) = (-1) ^ S i * q s (S i)); [|apply H].
  induction i as [|i [IH1 IH2]].
  - rewrite !q_0, !q_1. cbn. split; ring.
  - split; [exact IH2|]. rewrite !q_SS, IH1, IH2. cbn [pow]. ring.
Qed.
Definition form (M : nat) (f g : nat -> R) : R := nsum (K := RF) M (fun i => (2 * INR i + 1) * f i * g i).
Lemma form_S M f g : form (S M) f g = form M f g + (2 * INR M + 1) * f M * g M.
Proof. reflexivity. Qed.
Lemma darboux s t n : form (S n) (q s) (q t) * (s - t) = q s (S n) * q t n - q s n * q t (S n).
Proof.
  induction n as [|n IH].
  - rewrite form_S. unfold form. cbn [nsum]. change (@F0 RF) with 0. rewrite !q_0, !q_1. cbn [INR]. ring.
  - rewrite form_S, Rmult_plus_distr_r, IH, !q_SS. ring.
Qed.
Lemma form_pos s n : 1 <= form (S n) (q s) (q s).
Proof.
  induction n as [|n IH]; rewrite form_S; [unfold form; cbn [nsum]; change (@F0 RF) with 0; rewrite q_0; cbn [INR]; lra|].
  assert (I := pos_INR (S n)). assert (0 <= q s (S n) * q s (S n)) by nra. assert (0 <= (2 * INR (S n) + 1) * (q s (S n) * q s (S n))) by (apply Rmult_le_pos; lra). rewrite Rmult_assoc. lra.
Qed.
Lemma form_parity s M : form M (q (- s)) (q (- s)) = form M (q s) (q s).
Proof.
  unfold form. apply nsum_ext_lt. intros i _. rewrite q_parity. replace ((2 * INR i + 1) * ((-1) ^ i * q s i) * ((-1) ^ i * q s i)) with ((2 * INR i + 1) * q s i * q s i * ((-1) ^ i * (-1) ^ i)) by ring. rewrite <- Rpow_mult_distr. replace (-1 * -1) with 1 by ring. rewrite pow1. ring.
Qed.

Local Open Scope C_scope.
Lemma Cmult_integral (x y : C) : x * y = RtoC 0 -> x = RtoC 0 \/ y = RtoC 0.
Proof. intros E. destruct (Ceq_dec x 0) as [Z|Z]; [now left|right]. transitivity (/ x * (x * y)); [field; exact Z|]. rewrite E. ring. Qed.
Definition nrm (m : nat) (s : R) : R := form (S m) (q s) (q s).
Ltac ceq := match goal with |- ?a = ?b => change (@eq C a b) end.
Ltac cnz := repeat split; first [assumption | let Z := fresh in intros Z; first [apply RtoC_inj in Z; lra | apply (f_equal fst) in Z; cbn in Z; lra] | idtac].
Lemma nsum_pick M j (x : nat -> C) : nsum (K := CF) M (fun k => if (k =? j)%nat then x k else RtoC 0) = if (j <? M)%nat then x j else RtoC 0.
Proof.
  destruct (Nat.ltb_spec j M) as [H|H].
  - rewrite (nsum_single CF M j); [rewrite Nat.eqb_refl; reflexivity|exact H|]. intros k _ N. rewrite (proj2 (Nat.eqb_neq k j) N). reflexivity.
  - apply (nsum_0' CF). intros k Hk. destruct (Nat.eqb_spec k j); [lia|reflexivity].
Qed.
Definition prev (x : nat -> C) (i : nat) : C := match i with O => RtoC 0 | S i => x i end.
Lemma brow M i (x : nat -> C) : (i < M)%nat -> x M = RtoC 0 -> nsum (K := CF) M (fun k => me (mat_b M) i k * x k) = RtoC (1 / 2) * (prev x i + x (S i)).
Proof.
  intros Hi HM. transitivity (nsum (K := CF) M (fun k => @Fadd CF (if (k =? S i)%nat then RtoC (1 / 2) * x k else RtoC 0) (match i with O => RtoC 0 | S i' => if (k =? i')%nat then RtoC (1 / 2) * x k else RtoC 0 end))).
  - apply (nsum_ext CF). intros k Hk. cbn [me mat_b]. rewrite (Nat.eqb_sym i (S k)). destruct i as [|i].
    + cbn [Nat.eqb orb]. destruct (Nat.eqb_spec k 1); cring.
    + rewrite (Nat.eqb_sym (S k) (S i)). change (S i =? S k)%nat with (i =? k)%nat. rewrite (Nat.eqb_sym i k). destruct (Nat.eqb_spec k i), (Nat.eqb_spec k (S (S i))); cbn [orb]; try lia; cring.
  - rewrite (nsum_add CF), nsum_pick. destruct i as [|i]; cbn [prev].
    + rewrite (nsum_0 CF). destruct (Nat.ltb_spec 1 M) as [H|H]; [cring|]. replace 1%nat with M by lia. rewrite HM. cring.
    + rewrite nsum_pick, (proj2 (Nat.ltb_lt i M)) by lia. destruct (Nat.ltb_spec (S (S i)) M) as [H|H]; [cring|]. replace (S (S i)) with M by lia. rewrite HM. cring.
Qed.
Lemma arow M i (x : nat -> C) : (i < M)%nat -> nsum (K := CF) M (fun k => me (mat_a M) i k * x k) = RtoC (- (2 * INR i + 1)) * x i.
Proof.
  intros Hi. rewrite (nsum_single CF M i); [cbn [me mat_a]; rewrite Nat.eqb_refl; reflexivity|exact Hi|].
  intros k _ N. cbn [me mat_a]. destruct (Nat.eqb_spec i k); [congruence|]. cring.
Qed.

Section E.
  Variables (m : nat) (e : list CF) (v vi : mat CF).
  Notation M := (S m).
  Hypothesis Hgen : forall i j, (i < M)%nat -> (j < M)%nat -> nsum (K := CF) M (fun k => me (mat_a M) i k * me v k j) = nsum (K := CF) M (fun k => me (mat_b M) i k * me v k j) * nth j e (RtoC 0).
  Hypothesis Hinv : minv CF M (me v) (me vi).
  Definition lam (p : nat) : C := nth p e (RtoC 0).
  Definition U (p i : nat) : C := if (i <? M)%nat then me v i p else RtoC 0.
  Lemma U_in p i : (i < M)%nat -> U p i = me v i p.
  Proof. intros H. unfold U. now rewrite (proj2 (Nat.ltb_lt i M)). Qed.
  Lemma U_out p : U p M = RtoC 0.
  Proof. unfold U. now rewrite Nat.ltb_irrefl. Qed.
  Lemma row p i : (i < M)%nat -> (p < M)%nat -> RtoC (- (2 * INR i + 1)) * U p i = RtoC (1 / 2) * (prev (U p) i + U p (S i)) * lam p.
  Proof.
    intros Hi Hp. rewrite <- (arow M i (U p) Hi), <- (brow M i (U p) Hi (U_out p)). unfold lam. refine (eq_trans (eq_trans _ (Hgen i p Hi Hp)) _).
    - apply (nsum_ext CF). intros k Hk. now rewrite U_in.
    - f_equal. apply (nsum_ext CF). intros k Hk. now rewrite U_in.
  Qed.
  Lemma col_nz p : (p < M)%nat -> ~ forall i, (i < M)%nat -> U p i = RtoC 0.
  Proof.
    intros Hp H. assert (E := minv_comm _ _ _ _ Hinv p p Hp Hp). rewrite (nsum_0' CF) in E.
    - unfold kron in E. rewrite Nat.eqb_refl in E. apply (f_equal fst) in E. cbn in E. lra.
    - intros k Hk. rewrite <- (U_in p k Hk), H by exact Hk. cring.
  Qed.
  Lemma lam_nz p : (p < M)%nat -> lam p <> RtoC 0.
  Proof.
    intros Hp E. apply (col_nz p Hp). intros i Hi. assert (R := row p i Hi Hp). rewrite E in R. rewrite Cmult_0_r in R. apply Cmult_integral in R. destruct R as [R|R]; [|exact R].
    apply (f_equal fst) in R. cbn in R. assert (I := pos_INR i). lra.
  Qed.
  (** theta = -2/lambda *)
  Definition theta (p : nat) : C := - (2 / lam p).
  Lemma rec p i : (i < M)%nat -> (p < M)%nat -> U p (S i) = theta p * RtoC (2 * INR i + 1) * U p i - prev (U p) i.
  Proof.
    intros Hi Hp. assert (L := lam_nz p Hp). assert (R := row p i Hi Hp). unfold theta. rewrite RtoC_opp in R.
    assert (E : prev (U p) i + U p (S i) = - (2 / lam p) * RtoC (2 * INR i + 1) * U p i).
    { transitivity (2 / lam p * (RtoC (1 / 2) * (prev (U p) i + U p (S i)) * lam p)).
      - replace (RtoC (1 / 2)) with (/ 2)%C by (apply C_ext; cbn; field). field. cnz.
      - rewrite <- R. field. exact L. }
    rewrite <- E. ring.
  Qed.
  Lemma theta_real p : (p < M)%nat -> snd (theta p) = 0%R.
  Proof.
    intros Hp. assert (W : forall i, (i <= M)%nat -> snd (prev (fun k => Cconj (U p k) * U p (S k)) i) = (snd (theta p) * nsum (K := RF) i (fun k => (2 * INR k + 1) * (fst (U p k) ^ 2 + snd (U p k) ^ 2))%R)%R).
    { intros i. induction i as [|i IH]; intros Hi; [cbn; ring|]. specialize (IH ltac:(lia)). cbn [prev nsum]. rewrite (rec p i Hi Hp). change (@Fadd RF) with Rplus. rewrite Rmult_plus_distr_l, <- IH. destruct i as [|i]; cbn [prev]; [cbn; ring|].
      set (a := U p i). set (b := U p (S i)). set (t := theta p). set (c := (2 * INR (S i) + 1)%R). clearbody a b t c. cbn. ring. }
    specialize (W M (le_n _)). cbn [prev] in W. rewrite U_out in W. replace (snd (Cconj (U p m) * 0)) with 0%R in W by (cbn; ring). symmetry in W. apply Rmult_integral in W. destruct W as [W|W]; [exact W|exfalso].
    apply (col_nz p Hp). assert (P : forall N, (0 <= nsum (K := RF) N (fun k => (2 * INR k + 1) * (fst (U p k) ^ 2 + snd (U p k) ^ 2)))%R /\ (nsum (K := RF) N (fun k => (2 * INR k + 1) * (fst (U p k) ^ 2 + snd (U p k) ^ 2))%R = 0%R -> forall i, (i < N)%nat -> U p i = RtoC 0)).
    { induction N as [|N [IH1 IH2]]; [split; [apply Rle_refl|intros; lia]|]. cbn [nsum]. change (@Fadd RF) with Rplus. assert (I := pos_INR N). assert (S2 : (0 <= fst (U p N) ^ 2 + snd (U p N) ^ 2)%R) by nra. assert (S3 : (0 <= (2 * INR N + 1) * (fst (U p N) ^ 2 + snd (U p N) ^ 2))%R) by (apply Rmult_le_pos; lra).
      set (a := nsum (K := RF) N (fun k => (2 * INR k + 1) * (fst (U p k) ^ 2 + snd (U p k) ^ 2))%R) in *. change (car RF) with R in a. clearbody a. split; [lra|]. intros Z i Hi. destruct (Nat.eq_dec i N) as [-> | Hn]; [|apply IH2; [lra|lia]].
      assert (Q : ((2 * INR N + 1) * (fst (U p N) ^ 2 + snd (U p N) ^ 2) = 0)%R) by lra. apply Rmult_integral in Q. destruct Q as [Q|Q]; [lra|]. apply C_ext; cbn; nra. }
    apply (P M), W.
  Qed.
  Definition th (p : nat) : R := fst (theta p).
  Lemma theta_th p : (p < M)%nat -> theta p = RtoC (th p).
  Proof. intros Hp. apply C_ext; [reflexivity|now apply theta_real]. Qed.
  Lemma th_nz p : (p < M)%nat -> th p <> 0%R.
  Proof.
    intros Hp E. assert (T := theta_th p Hp). rewrite E in T. unfold theta in T. assert (L := lam_nz p Hp). assert (Q : (RtoC 2 : C) = RtoC 0). { transitivity (- (- (2 / lam p)) * lam p)%C; [field; cnz|]. rewrite T. ring. }
    apply (f_equal fst) in Q. cbn in Q. lra.
  Qed.
  Lemma lam_th p : (p < M)%nat -> lam p = RtoC (- 2 / th p).
  Proof.
    intros Hp. assert (T := theta_th p Hp). assert (L := lam_nz p Hp). assert (N := th_nz p Hp). unfold Rdiv. rewrite RtoC_mult, RtoC_inv by exact N. rewrite <- T. unfold theta. replace (RtoC (- 2)) with (- RtoC 2) by (apply C_ext; cbn; ring). field. cnz.
  Qed.
  Lemma U_q p i : (i <= M)%nat -> (p < M)%nat -> U p i = U p 0 * RtoC (q (th p) i).
  Proof.
    intros Hi Hp. assert (H : forall i, (S i <= M)%nat -> U p i = U p 0 * RtoC (q (th p) i) /\ U p (S i) = U p 0 * RtoC (q (th p) (S i))).
    { induction i0 as [|j IH]; intros Hj.
      - rewrite rec, (theta_th p Hp) by (first [lia|exact Hp]). cbn [prev INR]. rewrite q_0, q_1. split; apply C_ext; cbn; ring.
      - destruct (IH ltac:(lia)) as [A B]. split; [exact B|]. rewrite rec, (theta_th p Hp) by (first [lia|exact Hp]). cbn [prev]. rewrite A, B, q_SS, RtoC_minus, !RtoC_mult. ring. }
    destruct i as [|i]; [rewrite q_0; ring|]. apply (H i Hi).
  Qed.
  Lemma U0_nz p : (p < M)%nat -> U p 0 <> RtoC 0.
  Proof. intros Hp E. apply (col_nz p Hp). intros i Hi. rewrite U_q by (first [lia|exact Hp]). rewrite E. ring. Qed.
  Lemma th_root p : (p < M)%nat -> q (th p) M = 0%R.
  Proof.
    intros Hp. assert (E := U_q p M (le_n _) Hp). rewrite U_out in E. symmetry in E. apply Cmult_integral in E. destruct E as [E|E]; [now apply U0_nz in E|]. now apply (f_equal fst) in E.
  Qed.
  Lemma th_inj p p' : (p < M)%nat -> (p' < M)%nat -> th p = th p' -> p = p'.
  Proof.
    intros Hp Hp' E. destruct (Nat.eq_dec p p') as [|N]; [assumption|exfalso]. apply (U0_nz p' Hp').
    assert (A := minv_comm _ _ _ _ Hinv p p Hp Hp). assert (B := minv_comm _ _ _ _ Hinv p p' Hp Hp'). unfold kron in A, B. rewrite Nat.eqb_refl in A. rewrite (proj2 (Nat.eqb_neq p p') N) in B.
    transitivity (U p' 0 * nsum (K := CF) M (fun k => @Fmul CF (me vi p k) (me v k p)) - U p 0 * nsum (K := CF) M (fun k => @Fmul CF (me vi p k) (me v k p'))).
    - rewrite A, B. cring.
    - apply (eq_trans (f_equal2 Cminus (eq_sym (nsum_mul_l CF M (U p' 0) _)) (eq_sym (nsum_mul_l CF M (U p 0) _)))). refine (eq_trans (eq_sym (nsum_sub CF M _ _)) _). apply (nsum_0' CF). intros k Hk.
      rewrite <- (U_in p k Hk), <- (U_in p' k Hk). rewrite (U_q p k), (U_q p' k) by (first [lia|assumption]). rewrite E. cring.
  Qed.
  Lemma orth p p' : (p < M)%nat -> (p' < M)%nat -> p <> p' -> form M (q (th p)) (q (th p')) = 0%R.
  Proof.
    intros Hp Hp' N. assert (D := darboux (th p) (th p') m). rewrite (th_root p Hp), (th_root p' Hp') in D. assert (Z : (form M (q (th p)) (q (th p')) * (th p - th p') = 0)%R) by lra. apply Rmult_integral in Z. destruct Z as [Z|Z]; [exact Z|]. exfalso. apply N, th_inj; [assumption..|lra].
  Qed.
  Notation nrm := (nrm m).
  Lemma nsum_RtoC N (f : nat -> R) : nsum (K := CF) N (fun k => RtoC (f k)) = RtoC (nsum (K := RF) N f).
  Proof. induction N as [|N IH]; [reflexivity|]. cbn [nsum]. rewrite IH. symmetry. apply RtoC_plus. Qed.
  Lemma vi_eq p : (p < M)%nat -> me vi p 0 = / (U p 0 * RtoC (nrm (th p))).
  Proof.
    intros Hp. assert (NP : forall p, (RtoC (nrm (th p)) : C) <> RtoC 0) by (intros r Z; apply (f_equal fst) in Z; change (nrm (th r) = 0%R) in Z; assert (P := form_pos (th r) m); unfold nrm in Z; lra).
    set (Z := fun p i => RtoC ((2 * INR i + 1) * q (th p) i) / (U p 0 * RtoC (nrm (th p)))).
    assert (HZ : minv CF M Z (me v)).
    { intros i j Hi Hj. transitivity (RtoC (form M (q (th i)) (q (th j))) * (U j 0 / (U i 0 * RtoC (nrm (th i))))).
      - unfold form. rewrite <- nsum_RtoC. refine (eq_trans _ (nsum_mul_r CF M _ _)). apply (nsum_ext CF). intros k Hk. unfold Z. rewrite <- (U_in j k Hk), (U_q j k) by (first [lia|assumption]). change (@Fmul CF) with Cmult. rewrite !RtoC_mult. unfold Cdiv. ceq. ring.
      - unfold kron. destruct (Nat.eqb_spec i j) as [<-|N].
        + change (form M (q (th i)) (q (th i))) with (nrm (th i)). assert (A := NP i). assert (B := U0_nz i Hi). change (@F1 CF) with (RtoC 1). ceq. field. split; assumption.
        + rewrite orth by assumption. change (@F0 CF) with (RtoC 0). unfold Cdiv. ceq. ring. }
    assert (E := minv_unique CF M (me v) (me vi) Z Hinv (minv_comm _ _ _ _ HZ) p 0%nat Hp ltac:(lia)). rewrite E. unfold Z. rewrite q_0. cbn [INR]. replace (RtoC ((2 * 0 + 1) * 1)) with (RtoC 1) by (f_equal; ring). unfold Cdiv. ceq. ring.
  Qed.
  Lemma weight p : (p < M)%nat -> me v 0 p * me vi p 0 = RtoC (/ nrm (th p)).
  Proof.
    intros Hp. rewrite <- (U_in p 0%nat) by lia. rewrite (vi_eq p Hp). assert (B := U0_nz p Hp). assert (P := form_pos (th p) m). fold (nrm (th p)) in P. rewrite RtoC_inv by lra. field. cnz.
  Qed.
  Lemma root_in s : q s M = 0%R -> exists p', (p' < M)%nat /\ th p' = s.
  Proof.
    intros R0.
    assert (D : forall N, (exists p', (p' < N)%nat /\ th p' = s) \/ forall p', (p' < N)%nat -> th p' <> s).
    { induction N as [|N [IH|IH]]; [right; lia|left; destruct IH as (x & A & B); exists x; split; [lia|exact B]|]. destruct (Req_EM_T (th N) s) as [E|E]; [left; exists N; split; [lia|exact E]|right]. intros x Hx. destruct (Nat.eq_dec x N) as [-> |]; [exact E|apply IH; lia]. }
    destruct (D M) as [D'|D']; [exact D'|exfalso]. clear D. rename D' into D.
    assert (O : forall p', (p' < M)%nat -> nsum (K := CF) M (fun k => RtoC ((2 * INR k + 1) * q s k) * me v k p') = RtoC 0).
    { intros p' Hp'. assert (F : form M (q s) (q (th p')) = 0%R). { assert (X := darboux s (th p') m). rewrite R0, (th_root p' Hp') in X. assert (Y : (form M (q s) (q (th p')) * (s - th p') = 0)%R) by lra. apply Rmult_integral in Y. destruct Y as [Y|Y]; [exact Y|]. exfalso. apply (D p' Hp'). lra. }
      transitivity (RtoC (form M (q s) (q (th p'))) * U p' 0); [|rewrite F; ceq; ring]. unfold form. rewrite <- nsum_RtoC. refine (eq_trans _ (nsum_mul_r CF M _ _)). apply (nsum_ext CF). intros k Hk. rewrite <- (U_in p' k Hk), (U_q p' k) by (first [lia|assumption]). change (@Fmul CF) with Cmult. rewrite !RtoC_mult. ceq. ring. }
    assert (E : nsum (K := CF) M (fun j => @Fmul CF (nsum (K := CF) M (fun k => RtoC ((2 * INR k + 1) * q s k) * me v k j)) (me vi j 0)) = RtoC 0).
    { apply (nsum_0' CF). intros j Hj. rewrite O by exact Hj. cring. }
    assert (E2 : nsum (K := CF) M (fun k => @Fmul CF (RtoC ((2 * INR k + 1) * q s k)) (kron k 0)) = RtoC 0).
    { rewrite <- E. transitivity (nsum (K := CF) M (fun k => nsum (K := CF) M (fun j => @Fmul CF (@Fmul CF (RtoC ((2 * INR k + 1) * q s k)) (me v k j)) (me vi j 0)))).
      - apply (nsum_ext CF). intros k Hk. rewrite <- (Hinv k 0%nat Hk ltac:(lia)). refine (eq_trans (eq_sym (nsum_mul_l CF M _ _)) _). apply (nsum_ext CF). intros j _. cring.
      - rewrite (nsum_swap CF). apply (nsum_ext CF). intros j _. exact (nsum_mul_r CF M _ _). }
    rewrite (nsum_single CF M 0%nat) in E2; [|lia|intros k _ Hk; unfold kron; rewrite (proj2 (Nat.eqb_neq k 0) Hk); cring]. unfold kron in E2. cbn [Nat.eqb] in E2. rewrite q_0 in E2. apply (f_equal fst) in E2. cbn in E2. lra.
  Qed.

  Lemma mirror p : (p < M)%nat -> exists p', (p' < M)%nat /\ th p' = (- th p)%R.
  Proof. intros Hp. apply root_in. rewrite q_parity, th_root by exact Hp. ring. Qed.

  (** ** the resolvent is the continued fraction *)
  Lemma cf_pos y k i : (0 < cf y k i)%R.
  Proof. assert (A := cf_ge y k i). assert (B := pos_INR i). lra. Qed.
  Variable x : R.
  Definition gg (p : nat) : C := / (1 - Ci * RtoC x / lam p).
  Definition ww (i : nat) : C := nsum (K := CF) M (fun p => U p i * gg p * me vi p 0).
  Lemma gg_ok p : (p < M)%nat -> 1 - Ci * RtoC x / lam p <> RtoC 0.
  Proof.
    intros Hp E. rewrite (lam_th p Hp) in E. apply (f_equal fst) in E. cbn in E. assert (N := th_nz p Hp). assert (Q : (- 2 / th p <> 0)%R). { unfold Rdiv. intros Z. apply Rmult_integral in Z. assert (X := Rinv_neq_0_compat _ N). destruct Z; lra. }
    set (l := (- 2 / th p)%R) in *. clearbody l. replace (1 + - ((0 * x - 1 * 0) * (l / (l * (l * 1) + 0 * (0 * 1))) - (0 * 0 + 1 * x) * (- 0 / (l * (l * 1) + 0 * (0 * 1)))))%R with 1%R in E; [lra|]. field. nra.
  Qed.
  Lemma ww_out : ww M = RtoC 0.
  Proof. unfold ww. apply (nsum_0' CF). intros p _. rewrite U_out. cring. Qed.
  Lemma ww_eq i : (i < M)%nat -> RtoC (2 * INR i + 1) * ww i + Ci * RtoC (x / 2) * (prev ww i + ww (S i)) = kron (K := CF) i 0.
  Proof.
    intros Hi. assert (P : prev ww i = nsum (K := CF) M (fun p => prev (U p) i * gg p * me vi p 0)). { destruct i as [|i]; [|reflexivity]. cbn [prev]. symmetry. apply (nsum_0' CF). intros p _. cring. }
    rewrite P. unfold ww.
    transitivity (nsum (K := CF) M (fun p => @Fadd CF (@Fmul CF (RtoC (2 * INR i + 1)) (U p i * gg p * me vi p 0)) (@Fmul CF (Ci * RtoC (x / 2)) (@Fadd CF (prev (U p) i * gg p * me vi p 0) (U p (S i) * gg p * me vi p 0))))).
    { rewrite (nsum_add CF), !(nsum_mul_l CF), (nsum_add CF). reflexivity. }
    transitivity (RtoC (2 * INR i + 1) * nsum (K := CF) M (fun p => @Fmul CF (me v i p) (me vi p 0))).
    - refine (eq_trans _ (nsum_mul_l CF M _ _)). apply (nsum_ext CF). intros p Hp. rewrite <- (U_in p i Hi). assert (L := lam_nz p Hp). assert (G := gg_ok p Hp). assert (R := row p i Hi Hp). rewrite RtoC_opp in R.
      assert (E : prev (U p) i + U p (S i) = - (2 * RtoC (2 * INR i + 1) * U p i / lam p)). { rewrite (rec p i Hi Hp). unfold theta. unfold Cdiv. ceq. ring. }
      change (@Fadd CF) with Cplus. change (@Fmul CF) with Cmult. transitivity (((RtoC (2 * INR i + 1) * U p i) + Ci * RtoC (x / 2) * (prev (U p) i + U p (S i))) * gg p * me vi p 0); [ceq; ring|]. rewrite E. unfold gg in *. replace (RtoC (x / 2)) with (RtoC x / 2)%C by (apply C_ext; cbn; field).
      ceq. field. cnz. intros Z. apply G. transitivity ((lam p - Ci * RtoC x) / lam p); [field; cnz|]. rewrite Z. unfold Cdiv. ceq. ring.
    - rewrite (Hinv i 0%nat Hi ltac:(lia)). unfold kron. destruct (Nat.eqb_spec i 0) as [-> |]; [cbn [INR]; apply C_ext; cbn; ring|cring].
  Qed.
  Lemma ww_down k : forall i, (S i + k = m)%nat -> RtoC (cf (x / 2) k (S i)) * ww (S i) = - (Ci * RtoC (x / 2)) * ww i.
  Proof.
    induction k as [|k IH]; intros i Hi.
    - assert (E := ww_eq (S i) ltac:(lia)). cbn [prev] in E. replace (S (S i)) with M in E by lia. rewrite ww_out in E. unfold kron in E. cbn [Nat.eqb] in E. cbn [cf]. change (@F0 CF) with (RtoC 0) in E.
      transitivity (RtoC (2 * INR (S i) + 1) * ww (S i) + Ci * RtoC (x / 2) * (ww i + 0) - Ci * RtoC (x / 2) * ww i); [ring|]. rewrite E. ring.
    - assert (E := ww_eq (S i) ltac:(lia)). cbn [prev] in E. unfold kron in E. cbn [Nat.eqb] in E. change (@F0 CF) with (RtoC 0) in E. cbn [cf]. assert (F := IH (S i) ltac:(lia)). assert (P := cf_pos (x / 2) k (S (S i))).
      assert (N : RtoC (cf (x / 2) k (S (S i))) <> RtoC 0) by (intros Z; apply (f_equal fst) in Z; cbn -[cf] in Z; lra).
      assert (W : ww (S (S i)) = - (Ci * RtoC (x / 2)) * ww (S i) / RtoC (cf (x / 2) k (S (S i)))) by (rewrite <- F; field; exact N).
      rewrite W in E. unfold Rdiv at 1. rewrite RtoC_plus, RtoC_mult, RtoC_inv by lra. replace (RtoC ((x / 2) ^ 2)) with (- (Ci * RtoC (x / 2)) * (Ci * RtoC (x / 2)))%C by (apply C_ext; cbn; ring).
      transitivity (RtoC (2 * INR (S i) + 1) * ww (S i) + Ci * RtoC (x / 2) * (ww i + - (Ci * RtoC (x / 2)) * ww (S i) / RtoC (cf (x / 2) k (S (S i)))) - Ci * RtoC (x / 2) * ww i); [unfold Cdiv; ring|]. rewrite E. ring.
  Qed.
  Theorem ww_cf : RtoC (cf (x / 2) m 0) * ww 0 = RtoC 1.
  Proof.
    assert (E := ww_eq 0%nat ltac:(lia)). cbn [prev] in E. unfold kron in E. cbn [Nat.eqb] in E. change (@F1 CF) with (RtoC 1) in E. destruct (Nat.eq_dec m 0) as [Hm|Hm].
    - assert (C0 : cf (x / 2) m 0 = (2 * INR 0 + 1)%R) by (rewrite Hm; reflexivity). rewrite C0, <- E. assert (W1 : ww 1 = RtoC 0) by (replace 1%nat with M by lia; apply ww_out). rewrite W1. ring.
    - destruct (Nat.lt_exists_pred 0 m ltac:(lia)) as (k & Hk & _). assert (C0 : cf (x / 2) m 0 = cf (x / 2) (S k) 0) by (rewrite Hk; reflexivity). rewrite C0. assert (F := ww_down k 0%nat ltac:(lia)). assert (P := cf_pos (x / 2) k 1). assert (N : RtoC (cf (x / 2) k 1) <> RtoC 0) by (intros Z; apply (f_equal fst) in Z; cbn -[cf] in Z; lra).
      assert (W : ww 1 = - (Ci * RtoC (x / 2)) * ww 0 / RtoC (cf (x / 2) k 1)) by (rewrite <- F; field; exact N). rewrite W in E. rewrite <- E. cbn [cf]. unfold Rdiv at 1. rewrite RtoC_plus, RtoC_mult, RtoC_inv by lra. replace (RtoC ((x / 2) ^ 2)) with (- (Ci * RtoC (x / 2)) * (Ci * RtoC (x / 2)))%C by (apply C_ext; cbn; ring). unfold Cdiv. ceq. ring.
  Qed.
  Definition ll (p : nat) : R := (- 2 / th p)%R.
  Theorem sum_cf : nsum (K := RF) M (fun p => ll p ^ 2 / nrm (th p) / (ll p ^ 2 + x ^ 2))%R = (/ cf (x / 2) m 0)%R.
  Proof.
    assert (E := ww_cf). assert (P := cf_pos (x / 2) m 0). apply (f_equal fst) in E. replace (fst (RtoC (cf (x / 2) m 0) * ww 0)) with (cf (x / 2) m 0 * fst (ww 0))%R in E by (cbn; ring). change (fst (RtoC 1)) with 1%R in E.
    assert (F : fst (ww 0) = nsum (K := RF) M (fun p => ll p ^ 2 / nrm (th p) / (ll p ^ 2 + x ^ 2))%R).
    { unfold ww. transitivity (nsum (K := RF) M (fun p => fst (U p 0 * gg p * me vi p 0))).
      - generalize M as N. induction N as [|N IH]; [reflexivity|]. cbn [nsum]. rewrite <- IH. reflexivity.
      - apply nsum_ext_lt. intros p Hp. assert (N := th_nz p Hp). assert (FP := form_pos (th p) m). fold (nrm (th p)) in FP. replace (U p 0 * gg p * me vi p 0) with (gg p * (me v 0 p * me vi p 0)) by (rewrite (U_in p 0%nat) by lia; ring). rewrite (weight p Hp). unfold gg. rewrite (lam_th p Hp). fold (ll p).
        assert (L : (ll p <> 0)%R) by (unfold ll, Rdiv; intros Z; apply Rmult_integral in Z; assert (X := Rinv_neq_0_compat _ N); destruct Z; lra). set (l := ll p) in *. set (n := nrm (th p)) in *. clearbody l n.
        replace (1 - Ci * RtoC x / RtoC l) with ((1, - (x / l)) : C)%R by (apply C_ext; cbn; field; cnz). cbn. assert (0 < l * l)%R by nra. field. repeat split; nra. }
    rewrite <- F. apply (Rmult_eq_reg_l (cf (x / 2) m 0)); [|lra]. rewrite E. field. lra.
  Qed.
End E.
