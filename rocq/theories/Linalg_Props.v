(** * Properties C24, C25, C58: linalg.py *)
From Coq Require Import List Arith Reals Lia Lra Bool.
From Coquelicot Require Import Coquelicot.
From Verif Require Import Base FSum CBase Herm_Model Herm_Spec Herm_Proofs Herm_Gauss LinPred_Burg Linalg_Model Linalg_Proofs Backend.
Import ListNotations.
Local Open Scope fld_scope.

(** C24.  [le] is any comparison of residual vectors that the least-squares back-end minimises; below
    it is instantiated with the Euclidean norm of complex vectors. *)
Theorem C24_lstsq_ec :
  forall (K : Fld) conj qr solve_triangular lstsq allclose0 (le : list K -> list K -> Prop),
  conj_ok K conj -> forall a b c d,
  (0 < nr c)%nat -> nc c = nc a -> length b = nr a -> length d = nr c -> full_row_rank K c ->
  qr_spec K conj (ctr conj c) (qr (ctr conj c)) ->
  tri_spec K conj solve_triangular (rows_to (length d) (snd (qr (ctr conj c)))) d ->
  (forall b', length b' = nr a -> let A := cols_from (nr c) (mm a (fst (qr (ctr conj c)))) in lstsq_spec K le A b' (fst (lstsq A b'))) ->
  exists x, lstsq_ec conj qr solve_triangular lstsq allclose0 a b c d = Ok x /\ length x = nc a /\
    mv c x = d /\
    forall x', length x' = nc a -> mv c x' = d -> le (vsub (mv a x) b) (vsub (mv a x') b).
Proof. intros; now apply lstsq_ec_spec. Qed.
Print Assumptions C24_lstsq_ec.

Definition sumsq (u : list C) : R := fold_right (fun z s => (Cmod z * Cmod z + s)%R) 0%R u.
Lemma Cconj_ok : conj_ok CF Cconj.
Proof. repeat split; cbn; intros. apply Cconj_plus. apply Cconj_mult. apply Cconj_conj. Qed.
Theorem C24_lstsq_ec_complex :
  forall (qr : mat CF -> mat CF * mat CF) solve_triangular lstsq allclose0,
  backend_ok CF Cconj (fun u v => (sumsq u <= sumsq v)%R) qr solve_triangular lstsq allclose0 ->
  forall a b c d,
  (0 < nr c)%nat -> nc c = nc a -> length b = nr a -> length d = nr c -> full_row_rank CF c ->
  exists x, lstsq_ec (K := CF) Cconj qr solve_triangular lstsq allclose0 a b c d = Ok x /\ length x = nc a /\
    mv c x = d /\
    forall x', length x' = nc a -> mv c x' = d -> (sumsq (vsub (mv a x) b) <= sumsq (vsub (mv a x') b))%R.
Proof.
  intros qr st ls ac HB a b c d H4 H5 H6 H7 H8.
  now apply (lstsq_ec_full CF Cconj qr st ls ac (fun u v => (sumsq u <= sumsq v)%R) Cconj_ok).
Qed.
Print Assumptions C24_lstsq_ec_complex.

Theorem C24_lstsq_ec_unconstrained :
  forall (K : Fld) conj qr solve_triangular lstsq allclose0 (a c : mat K) b,
  nr c = 0%nat -> nc a <> 0%nat ->
  lstsq_ec conj qr solve_triangular lstsq allclose0 a b c [] = Ok (fst (lstsq a b)).
Proof. intros; now apply lstsq_ec_unconstrained. Qed.
Print Assumptions C24_lstsq_ec_unconstrained.

(** A concrete case over the reals: minimise |x - (1,1)| with 3 x0 + 4 x1 = 5. *)
Definition ex_c : mat RF := Mat (K := RF) 1 2 (fun _ j => match j with O => 3%R | _ => 4%R end).
Definition ex_a : mat RF := Mat (K := RF) 2 2 (fun i j => if (i =? j)%nat then 1%R else 0%R).
Definition ex_qr (A : mat RF) : mat RF * mat RF :=
  (Mat (K := RF) 2 2 (fun i j => match i, j with O, O => 3/5 | 1%nat, 1%nat => -3/5 | _, _ => 4/5 end)%R,
   Mat (K := RF) 2 1 (fun i _ => match i with O => 5 | _ => 0 end)%R).
Definition ex_tri (r : mat RF) (d : list RF) : result (list RF) := Ok [(nth 0 d 0 / 5)%R].
Definition ex_lstsq (A : mat RF) (b : list RF) : list RF * list RF :=
  ([(4/5 * nth 0 b 0 - 3/5 * nth 1 b 0)%R], []).
Definition ex_le (u v : list RF) : Prop :=
  (fold_right (fun z s : R => (z * z + s)%R) 0%R u <= fold_right (fun z s : R => (z * z + s)%R) 0%R v)%R.

(** the contracts are satisfiable over the reals and the complex numbers *)
Theorem C24_backend_exists :
  (exists qr tri lstsq allclose0, backend_ok RF (fun x => x) ex_le qr tri lstsq allclose0) /\
  (exists qr tri lstsq allclose0, backend_ok CF Cconj (fun u v => (sumsq u <= sumsq v)%R) qr tri lstsq allclose0).
Proof. exact (conj real_backend complex_backend). Qed.
Print Assumptions C24_backend_exists.
(** solvable but rank-deficient constraints are still honoured *)
Theorem C24_lstsq_ec_rank_deficient :
  forall (K : Fld) conj qr solve_triangular lstsq allclose0 (le : list K -> list K -> Prop),
  conj_ok K conj -> forall a b c d, backend_ok K conj le qr solve_triangular lstsq allclose0 ->
  (forall u v, le u v -> (forall i, nth i v 0 = 0) -> forall i, nth i u 0 = 0) ->
  (0 < nr c)%nat -> nc c = nc a -> length b = nr a -> length d = nr c -> (nr c <= nc c)%nat ->
  (exists x', length x' = nc a /\ mv c x' = d) ->
  exists x, lstsq_ec conj qr solve_triangular lstsq allclose0 a b c d = Ok x /\ length x = nc a /\ mv c x = d.
Proof. intros. eapply lstsq_ec_consistent'; eassumption. Qed.
Print Assumptions C24_lstsq_ec_rank_deficient.

Example C24_example :
  full_row_rank RF ex_c /\ qr_spec RF (fun x => x) (ctr (fun x => x) ex_c) (ex_qr (ctr (fun x => x) ex_c)) /\
  tri_spec RF (fun x => x) ex_tri (rows_to 1 (snd (ex_qr (ctr (fun x => x) ex_c)))) [5%R] /\
  (forall b', length b' = 2%nat -> let A := cols_from 1 (mm ex_a (fst (ex_qr (ctr (fun x => x) ex_c)))) in
     lstsq_spec RF ex_le A b' (fst (ex_lstsq A b'))) /\
  lstsq_ec (K := RF) (fun x => x) ex_qr ex_tri ex_lstsq (fun _ => true) ex_a [1%R; 1%R] ex_c [5%R]
  = Ok [(19/25)%R; (17/25)%R].
Proof.
  repeat split; cbn [ex_c ex_qr ctr nr nc me] in *.
  - intros u H i Hi. cbn in H, Hi. assert (E := H 0%nat ltac:(lia)). cbn in E. replace i with 0%nat by lia. change (@eq R (u 0%nat) 0%R). change (@eq R (0 + u 0%nat * 3)%R 0%R) in E. lra.
  - intros i j Hi Hj. replace j with 0%nat by lia. destruct i as [|[|]]; [| |lia]; cbn; lra.
  - intros i j Hi Hj. destruct i as [|[|]]; [| |lia]; (destruct j as [|[|]]; [| |lia]); cbn; lra.
  - intros i j Hi Hj. destruct i as [|[|]]; [| |lia]; (destruct j as [|[|]]; [| |lia]); cbn; lra.
  - intros i j Hi Hj Hlt. destruct i as [|[|]]; [lia| |lia]. reflexivity.
  - unfold tri_spec. cbn. destruct (Req_EM_T 5 0) as [H|H]; [lra|]. cbn. eexists. split; [reflexivity|]. split; [reflexivity|].
    cbn. f_equal. lra.
  - intros [|x [|]] Hx; cbn in Hx; try discriminate. destruct b' as [|b0 [|b1 [|]]]; try discriminate.
    unfold ex_le. cbn.
    match goal with |- (?l <= ?r)%R => assert (E : (r - l = (x - (4/5*b0 - 3/5*b1)) * (x - (4/5*b0 - 3/5*b1)))%R) by field end.
    assert (P := Rle_0_sqr (x - (4/5*b0 - 3/5*b1))). unfold Rsqr in P. lra.
  - unfold lstsq_ec. cbn. do 2 f_equal; [field|]. f_equal. field.
Qed.

(** C25 *)
Theorem C25_orth_compl :
  forall (K : Fld) conj qr (A : mat K), qr_spec K conj A (qr A) -> (nc A < nr A)%nat -> conj_ok K conj ->
  exists P, orth_compl conj qr A = Ok P /\ nr P = (nr A - nc A)%nat /\ nc P = nr A /\
    (forall i j, (i < nr P)%nat -> (j < nc A)%nat -> me (mm P A) i j = 0) /\
    (forall i j, (i < nr P)%nat -> (j < nr P)%nat -> me (mm P (ctr conj P)) i j = kron i j).
Proof. exact orth_compl_spec. Qed.
Print Assumptions C25_orth_compl.

Theorem C25_orth_compl_rejects :
  forall (K : Fld) conj qr (A : mat K), (nr A <= nc A)%nat -> orth_compl conj qr A = Err ValueError.
Proof. exact orth_compl_rejects. Qed.
Print Assumptions C25_orth_compl_rejects.

Example C25_example :
  exists P, orth_compl (K := RF) (fun x => x) ex_qr (ctr (fun x => x) ex_c) = Ok P /\
    map (fun j => me P 0 j) (seq 0 (nc P)) = [(4/5)%R; (-3/5)%R] /\ nr P = 1%nat /\ me (mm P (ctr (fun x => x) ex_c)) 0 0 = 0.
Proof. eexists. split; [reflexivity|]. cbn. repeat split. lra. Qed.

(** C58: as claimed, inconsistent constraints raise LinAlgError -- refuted for every back-end. *)
Theorem C58_never_raises :
  forall (K : Fld) conj qr solve_triangular lstsq allclose0 (a c : mat K) (b d : list K),
  (forall A b', (nr A <= nc A)%nat -> snd (lstsq A b') = []) -> allclose0 [] = true ->
  nc c = nc a -> length d = nr c -> (nr c <= nc c)%nat ->
  qr_spec K conj (ctr conj c) (qr (ctr conj c)) ->
  tri_spec K conj solve_triangular (rows_to (length d) (snd (qr (ctr conj c)))) d ->
  exists x, lstsq_ec conj qr solve_triangular lstsq allclose0 a b c d = Ok x.
Proof. exact lstsq_ec_never_raises. Qed.
Print Assumptions C58_never_raises.

Theorem C58_inconsistent_raises_refuted :
  exists (a c : mat RF) (b d : list RF),
    (~ exists x, length x = nc c /\ mv c x = d) /\
    forall qr solve_triangular lstsq allclose0, backend_ok RF (fun x => x) ex_le qr solve_triangular lstsq allclose0 ->
    exists x, lstsq_ec (fun x => x) qr solve_triangular lstsq allclose0 a b c d = Ok x.
Proof.
  exists ex_a, (Mat (K := RF) 1 2 (fun _ _ => 0%R) : mat RF), [1%R; 1%R], [1%R]. split.
  - intros (x & Hx & E). cbn in E. injection E as E. lra.
  - intros qr st ls ac HB. assert (HB' := HB). destruct HB' as (H1 & H2 & H3 & H4 & H5).
    apply lstsq_ec_never_raises; auto; [cbn; lia|].
    apply (backend_tri RF (fun x => x) qr st ls ac ex_le); [exact HB|reflexivity|cbn; lia].
Qed.
Print Assumptions C58_inconsistent_raises_refuted.
