(** * Properties of gftool/matrix.py and gftool/siam.py: C32, C33, C34, C60 and the SIAM part of C22 *)
From Coq Require Import String Ascii List Arith ZArith Bool QArith Qcanon Reals Lia Lra.
From Coquelicot Require Import Coquelicot.
From Verif Require Import Base FSum CBase CExp LinPred_Burg Linalg_Model Linalg_Proofs Mat Pole_Model Pole_Time Matrix_Model Matrix_Proofs Matrix_Time.
Import ListNotations.
Local Open Scope fld_scope.

(** C32.  [minv n A B] says A B = 1 for n x n entry functions. *)
Theorem C32_diag_is_diagonal : forall (K : Fld) X (ein : string -> mat K -> list K -> mat K -> X) d e kd kf,
  In (lower kd) [""; "d"; "di"; "dia"; "diag"]%string -> In (lower kf) ["f"; "fu"; "ful"; "full"]%string ->
  nr (rv_inv d) = nc (rv d) -> nc (rv_inv d) = nr (rv d) -> length (match e with Some x => x | None => eig d end) = nc (rv d) ->
  exists l M, reconstruct ein d e kd = Ok (RDiag l) /\ reconstruct ein d e kf = Ok (RFull M) /\
    nr M = nr (rv d) /\ nc M = nr (rv d) /\ length l = nr (rv d) /\
    (forall i j, me M i j = nsum (nc (rv d)) (fun k => me (rv d) i k * nth k (match e with Some x => x | None => eig d end) 0 * me (rv_inv d) k j)) /\
    forall i, (i < nr (rv d))%nat -> nth i l 0 = me M i i.
Proof.
  intros K X ein d e kd kf H1 H2 S1 S2 S3. do 2 eexists. split; [now apply reconstruct_diag|]. split; [now apply reconstruct_full|].
  split; [reflexivity|]. split; [exact S2|]. split; [unfold recon_diag; now rewrite map_length, seq_length|]. split; [reflexivity|].
  intros i Hi. now apply diag_of_full.
Qed.
Print Assumptions C32_diag_is_diagonal.

Theorem C32_inverse : forall (K : Fld) X (ein : string -> mat K -> list K -> mat K -> X) d n e M1 M2,
  square K n (rv d) -> square K n (rv_inv d) -> minv K n (me (rv d)) (me (rv_inv d)) -> ~ In 0 e ->
  reconstruct ein d (Some e) "full" = Ok (RFull M1) -> reconstruct ein d (Some (map (fun x => 1 / x) e)) "full" = Ok (RFull M2) ->
  minv K n (me M1) (me M2) /\ minv K n (me M2) (me M1).
Proof.
  intros K X ein d n e M1 M2 (Q1 & Q1') (Q2 & Q2') HI H0 E1 E2.
  assert (B : length e = n).
  { unfold reconstruct in E1. change (prefix (lower "full") "diag") with false in E1. change (prefix (lower "full") "full") with true in E1. cbv iota in E1.
    destruct (Nat.eqb_spec (length e) (nc (rv d))) as [B|B]; [congruence|]. rewrite andb_false_r in E1. discriminate E1. }
  rewrite (reconstruct_full K) in E1, E2; try rewrite map_length; try congruence; try (cbn; tauto).
  injection E1 as <-. injection E2 as <-. now apply recon_inverse.
Qed.
Print Assumptions C32_inverse.

(** functional calculus: products of reconstructions *)
Theorem C32_product : forall (K : Fld) (d : decomposition K) e f i j, nr (rv_inv d) = nc (rv d) -> nc (rv_inv d) = nr (rv d) ->
  (forall i j, (i < nc (rv d))%nat -> (j < nc (rv d))%nat -> nsum (nr (rv d)) (fun k => me (rv_inv d) i k * me (rv d) k j) = kron i j) ->
  (i < nr (rv d))%nat -> (j < nr (rv d))%nat ->
  nsum (nr (rv d)) (fun k => me (recon_full d e) i k * me (recon_full d f) k j)
  = nsum (nc (rv d)) (fun k => me (rv d) i k * (nth k e 0 * nth k f 0) * me (rv_inv d) k j).
Proof. intros. now apply recon_mul. Qed.
Print Assumptions C32_product.

Theorem C32_other_kinds : forall (K : Fld) X (ein : string -> mat K -> list K -> mat K -> X) d e kind,
  ~ In (lower kind) [""; "d"; "di"; "dia"; "diag"; "f"; "fu"; "ful"; "full"]%string ->
  reconstruct ein d e kind = Ok (REinsum (ein (lower kind) (rv d) (match e with Some x => x | None => eig d end) (rv_inv d))).
Proof. exact @reconstruct_einsum. Qed.
Print Assumptions C32_other_kinds.
(** ... note that subscripts are lower-cased before they reach einsum *)
Example C32_lowercase : lower "iJ, J, Jk -> ik" = "ij, j, jk -> ik"%string.
Proof. reflexivity. Qed.
Theorem C32_construct_gf : forall (K : Fld) (d : decomposition K) e i j, length e = nc (rv d) ->
  me (construct_gf (rv d) e (rv_inv d)) i j = me (recon_full d e) i j.
Proof. exact construct_gf_full. Qed.
Print Assumptions C32_construct_gf.

Definition ex_rv : mat QcF := Mat (K := QcF) 2 2 (fun i j => match i, j with S _, S _ => qc (-1) | _, _ => qc 1 end).
Definition ex_rvi : mat QcF := Mat (K := QcF) 2 2 (fun i j => match i, j with S _, S _ => qc (-1 # 2) | _, _ => qc (1 # 2) end).
Definition ex_dec : decomposition QcF := Dec ex_rv [qc 3; qc 1] ex_rvi.
Definition show_mat (m : mat QcF) : list (list Q) := map (fun i => map (fun j => this (me m i j)) (seq 0 (nc m))) (seq 0 (nr m)).
Example C32_example :
  minv QcF 2 (me ex_rv) (me ex_rvi) /\
  match reconstruct (fun _ _ _ _ => tt) ex_dec None "Full", reconstruct (fun _ _ _ _ => tt) ex_dec None "",
        reconstruct (fun _ _ _ _ => tt) ex_dec (Some (map (fun x => 1 / x) (eig ex_dec))) "full" with
  | Ok (RFull a), Ok (RDiag b), Ok (RFull c) =>
      show_mat a = [[2; 1]; [1; 2]]%Q /\ map this b = [2; 2]%Q /\ show_mat c = [[2 # 3; -1 # 3]; [-1 # 3; 2 # 3]]%Q
  | _, _, _ => False
  end.
Proof.
  split; [|vm_compute; repeat split].
  intros [|[|i]] [|[|j]] Hi Hj; try lia; apply Qc_is_canon; vm_compute; reflexivity.
Qed.

(** C60: the decompositions reconstruct the matrix and its resolvent *)
Theorem C60_decompose_mat : forall (K : Fld) eigO invO (A : mat K), nr A = nc A ->
  (forall B C : mat K, nr B = nc B -> invO B = Ok C -> square K (nr B) C /\ minv K (nr B) (me B) (me C)) ->
  (forall ev, eigO A = Ok ev -> eig_spec K A ev) ->
  forall d, decompose_mat eigO invO A = Ok d ->
  (forall i j, (i < nr A)%nat -> (j < nr A)%nat -> me (recon_full d (eig d)) i j = me A i j) /\
  forall z, ~ In z (eig d) -> minv K (nr A) (zsub K z A) (me (recon_full d (map (fun x => 1 / (z - x)) (eig d)))).
Proof.
  intros K eigO invO A Hs HI HE d Hd. destruct (decompose_mat_spec K eigO invO A Hs HI HE d Hd) as (Q1 & Q2 & Q3 & M & RE).
  split; [exact RE|]. intros z Hz. now apply recon_resolvent.
Qed.
Print Assumptions C60_decompose_mat.

Theorem C60_decompose_sym : forall (K : Fld) eigO invO close0 rsqrt (A : mat K) check, nr A = nc A ->
  (forall B C : mat K, nr B = nc B -> invO B = Ok C -> square K (nr B) C /\ minv K (nr B) (me B) (me C)) ->
  (forall ev, eigO A = Ok ev -> eig_spec K A ev) -> (forall x, x <> 0 -> rsqrt x * rsqrt x * x = 1) ->
  forall d, decompose_sym eigO invO close0 rsqrt A check = Ok d ->
  (forall i j, (i < nr A)%nat -> (j < nr A)%nat -> me (recon_full d (eig d)) i j = me A i j) /\
  (forall z, ~ In z (eig d) -> minv K (nr A) (zsub K z A) (me (recon_full d (map (fun x => 1 / (z - x)) (eig d))))) /\
  (forall j, (j < nr A)%nat -> nsum (nr A) (fun i => me (rv d) i j * me (rv d) i j) = 1) /\
  ((forall i j, (i < nr A)%nat -> (j < nr A)%nat -> me A i j = me A j i) -> NoDup (eig d) ->
   (forall i j, (i < nr A)%nat -> (j < nr A)%nat -> me (rv_inv d) i j = me (rv d) j i)).
Proof.
  intros K eigO invO close0 rsqrt A check Hs HI HE HR d Hd.
  destruct (decompose_sym_spec K eigO invO close0 rsqrt A check Hs HI HE HR d Hd) as (Q1 & Q2 & Q3 & M & RE & N & O).
  split; [exact RE|]. split; [|split; assumption]. intros z Hz. now apply recon_resolvent.
Qed.
Print Assumptions C60_decompose_sym.
Theorem C60_decompose_sym_rejects : forall (K : Fld) eigO invO close0 rsqrt (A : mat K) i j, (i < nr A)%nat -> (j < nc A)%nat ->
  close0 (me A i j - me A j i) = false -> decompose_sym eigO invO close0 rsqrt A true = Err ValueError.
Proof. exact decompose_sym_rejects. Qed.
Print Assumptions C60_decompose_sym_rejects.

Theorem C60_decompose_her : forall (K : Fld) conj eighO close0 (A : mat K) check, nr A = nc A ->
  (forall ev, eighO A = Ok ev -> eigh_spec K conj A ev) ->
  forall d, decompose_her conj eighO close0 A check = Ok d ->
  (forall i j, (i < nr A)%nat -> (j < nr A)%nat -> me (recon_full d (eig d)) i j = me A i j) /\
  (forall z, ~ In z (eig d) -> minv K (nr A) (zsub K z A) (me (recon_full d (map (fun x => 1 / (z - x)) (eig d))))) /\
  (forall i j, me (rv_inv d) i j = conj (me (rv d) j i)) /\ (forall x, In x (eig d) -> conj x = x).
Proof.
  intros K conj eighO close0 A check Hs HE d Hd.
  destruct (decompose_her_spec K conj eighO close0 A check Hs HE d Hd) as (Q1 & Q2 & Q3 & M & RE & N & O).
  split; [exact RE|]. split; [|split; assumption]. intros z Hz. now apply recon_resolvent.
Qed.
Print Assumptions C60_decompose_her.
Theorem C60_decompose_her_rejects : forall (K : Fld) conj eighO close0 (A : mat K) i j, (i < nr A)%nat -> (j < nc A)%nat ->
  close0 (me A i j - conj (me A j i)) = false -> decompose_her conj eighO close0 A true = Err ValueError.
Proof. exact decompose_her_rejects. Qed.
Print Assumptions C60_decompose_her_rejects.

(** a diagonalisable complex symmetric matrix may have no scaled eigenvectors: degenerate eigenvalue, isotropic vector.
    The identity has the eigenvectors (1, i), (1, -i); numpy is free to return them. *)
Theorem C60_decompose_sym_isotropic_refuted : exists (A v : mat CF) (e : list C),
  (forall i j, me A i j = me A j i) /\ eig_spec CF A (e, v) /\ (exists B, minv CF 2 (me v) B) /\
  forall invO close0 rsqrt, close0 (RtoC 0) = true ->
    decompose_sym (K := CF) (fun _ => Ok (e, v)) invO close0 rsqrt A true = Err NonFinite.
Proof.
  exists (Mat (K := CF) 2 2 (fun i j => kron i j)),
    (Mat (K := CF) 2 2 (fun i j => match i, j with O, _ => RtoC 1 | S _, O => Ci | S _, S _ => Copp Ci end)), [RtoC 1; RtoC 1].
  split; [intros i j; cbn; unfold kron; now rewrite Nat.eqb_sym|]. split; [|split].
  - split; [split; reflexivity|]. split; [reflexivity|]. intros [|[|i]] [|[|j]] Hi Hj; cbn in Hi, Hj; try lia; apply C_ext; cbn; ring.
  - exists (fun i j => match i, j with _, O => RtoC (1/2) | O, S _ => Cmult (RtoC (-1/2)) Ci | S _, S _ => Cmult (RtoC (1/2)) Ci end).
    intros [|[|i]] [|[|j]] Hi Hj; cbn in Hi, Hj; try lia; apply C_ext; cbn; field.
  - intros invO close0 rsqrt HC. apply (decompose_sym_isotropic CF) with (e := [RtoC 1; RtoC 1])
      (v := Mat (K := CF) 2 2 (fun i j => match i, j with O, _ => RtoC 1 | S _, O => Ci | S _, S _ => Copp Ci end)) (j := 0%nat);
      [| reflexivity|cbn; lia|apply C_ext; cbn; ring].
    intros _. unfold allclose0. cbn [msub mtr nr nc me seq forallb].
    assert (E : forall i j, Fsub (f := CF) (kron i j) (kron j i) = RtoC 0) by (intros i j; apply (fsub_eq0 CF); unfold kron; now rewrite Nat.eqb_sym).
    rewrite !E, !HC. reflexivity.
Qed.
Print Assumptions C60_decompose_sym_isotropic_refuted.

Definition ex_her : mat QcF := Mat (K := QcF) 2 2 (fun i j => if (i =? j)%nat then qc 2 else qc 1).
Definition ex_inv (m : mat QcF) : result (mat QcF) :=
  let det := me m 0 0 * me m 1 1 - me m 0 1 * me m 1 0 in
  if Feq_dec det 0 then Err LinAlgError else
  Ok (Mat (K := QcF) 2 2 (fun i j => match i, j with O, O => me m 1 1 / det | O, _ => - me m 0 1 / det | S _, O => - me m 1 0 / det | S _, S _ => me m 0 0 / det end)).
Example C60_example :
  eig_spec QcF ex_her ([qc 3; qc 1], ex_rv) /\
  match decompose_mat (K := QcF) (fun _ => Ok ([qc 3; qc 1], ex_rv)) ex_inv ex_her with
  | Ok d => show_mat (recon_full d (eig d)) = [[2; 1]; [1; 2]]%Q /\ show_mat (rv_inv d) = [[1#2; 1#2]; [1#2; -1#2]]%Q
  | Err _ => False
  end.
Proof.
  split; [|vm_compute; repeat split]. split; [split; reflexivity|]. split; [reflexivity|].
  intros [|[|i]] [|[|j]] Hi Hj; cbn in Hi, Hj; try lia; apply Qc_is_canon; vm_compute; reflexivity.
Qed.

(** C33: complex arithmetic, principal square root *)
Lemma C_two : Fadd (f := CF) F1 F1 <> F0.
Proof. intros E. apply (f_equal fst) in E. cbn in E. lra. Qed.
Lemma split_nonzero (e0 e1 h : C) : Cplus (Cmult (RtoC (1/4)) (Cmult (Cminus e0 e1) (Cminus e0 e1))) (Cmult h (Cconj h)) <> RtoC 0 ->
  csqrt (Fadd (f := CF) (Fmul (f := CF) (Fmul (f := CF) (Fdiv F1 (Fadd F1 F1)) (Fdiv F1 (Fadd F1 F1))) (Fmul (f := CF) (Fsub (f := CF) e0 e1) (Fsub (f := CF) e0 e1))) (Fmul (f := CF) h (Cconj h))) <> RtoC 0.
Proof.
  intros H E. apply H. assert (Q := csqrt_sqr (Fadd (f := CF) (Fmul (f := CF) (Fmul (f := CF) (Fdiv F1 (Fadd F1 F1)) (Fdiv F1 (Fadd F1 F1))) (Fmul (f := CF) (Fsub (f := CF) e0 e1) (Fsub (f := CF) e0 e1))) (Fmul (f := CF) h (Cconj h)))).
  rewrite E in Q. rewrite Cmult_0_l in Q. refine (eq_trans _ (eq_sym Q)).
  apply C_ext; cbn; field.
Qed.
Theorem C33_resolvent_diagonal : forall (z e0 e1 h : C) R,
  Cplus (Cmult (RtoC (1/4)) (Cmult (Cminus e0 e1) (Cminus e0 e1))) (Cmult h (Cconj h)) <> RtoC 0 ->
  minv CF 2 (zsub CF z (Mat (K := CF) 2 2 (fun i j => match i, j with O, O => e0 | O, _ => h | S _, O => Cconj h | S _, S _ => e1 end))) R ->
  gf_2x2_z (K := CF) Cconj csqrt z e0 e1 h None = Ok (R 0%nat 0%nat, R 1%nat 1%nat).
Proof. intros z e0 e1 h R Hs HR. apply (gf_2x2_resolvent CF Cconj csqrt C_two e0 e1 h); [apply csqrt_sqr|exact (split_nonzero e0 e1 h Hs)|exact HR]. Qed.
Print Assumptions C33_resolvent_diagonal.

(** real energies: only the trivial case e0 = e1, h = 0 is excluded *)
Theorem C33_real_energies : forall (z h : C) (e0 e1 : R) R, (e0 <> e1 \/ h <> RtoC 0) ->
  minv CF 2 (zsub CF z (Mat (K := CF) 2 2 (fun i j => match i, j with O, O => RtoC e0 | O, _ => h | S _, O => Cconj h | S _, S _ => RtoC e1 end))) R ->
  gf_2x2_z (K := CF) Cconj csqrt z (RtoC e0) (RtoC e1) h None = Ok (R 0%nat 0%nat, R 1%nat 1%nat).
Proof.
  intros z h e0 e1 R Hne HR. apply C33_resolvent_diagonal; [|exact HR]. intros Q.
  assert (X : Cplus (Cmult (RtoC (1/4)) (Cmult (Cminus (RtoC e0) (RtoC e1)) (Cminus (RtoC e0) (RtoC e1)))) (Cmult h (Cconj h))
    = RtoC (1/4 * ((e0 - e1) * (e0 - e1)) + (fst h * fst h + snd h * snd h))) by (apply C_ext; cbn; field).
  rewrite X in Q. apply RtoC_inj in Q.
  assert (A : e0 = e1) by nra.
  assert (B : fst h = 0%R /\ snd h = 0%R) by (split; nra).
  destruct Hne as [H|H]; [contradiction|]. apply H. destruct h as [a b]. cbn in B. destruct B as (-> & ->). reflexivity.
Qed.
Print Assumptions C33_real_energies.

(** with a Hilbert transform: the k-sum of the diagonal resolvents *)
Theorem C33_hilbert : forall (z e0 e1 h : C) (n : nat) (w eps : nat -> C) (ht : C -> result C) R,
  Cplus (Cmult (RtoC (1/4)) (Cmult (Cminus e0 e1) (Cminus e0 e1))) (Cmult h (Cconj h)) <> RtoC 0 ->
  (forall x, (forall k, (k < n)%nat -> x <> eps k) -> ht x = Ok (nsum (K := CF) n (fun k => Cdiv (w k) (Cminus x (eps k))))) ->
  (forall k, (k < n)%nat -> minv CF 2 (zsub CF (Cminus z (eps k))
     (Mat (K := CF) 2 2 (fun i j => match i, j with O, O => e0 | O, _ => h | S _, O => Cconj h | S _, S _ => e1 end))) (R k)) ->
  gf_2x2_z (K := CF) Cconj csqrt z e0 e1 h (Some ht)
  = Ok (nsum (K := CF) n (fun k => Cmult (w k) (R k 0%nat 0%nat)), nsum (K := CF) n (fun k => Cmult (w k) (R k 1%nat 1%nat))).
Proof. intros z e0 e1 h n w eps ht R Hs Ht HR. apply (gf_2x2_hilbert CF Cconj csqrt C_two e0 e1 h) with (eps := eps); [apply csqrt_sqr|exact (split_nonzero e0 e1 h Hs)|exact Ht|exact HR]. Qed.
Print Assumptions C33_hilbert.

(** e0 = e1 = 0, h = 1: s = 1, G_00(2) = 2/3 *)
Definition ex_ham2 : mat CF := Mat (K := CF) 2 2 (fun i j => match i, j with O, O => RtoC 0 | O, _ => RtoC 1 | S _, O => Cconj (RtoC 1) | S _, S _ => RtoC 0 end).
Definition ex_res2 (i j : nat) : C := match i, j with O, O => RtoC (2/3) | S _, S _ => RtoC (2/3) | _, _ => RtoC (1/3) end.
Example C33_example : gf_2x2_z (K := CF) Cconj csqrt (RtoC 2) (RtoC 0) (RtoC 0) (RtoC 1) None = Ok (RtoC (2/3), RtoC (2/3)).
Proof.
  apply (C33_real_energies (RtoC 2) (RtoC 1) 0 0 ex_res2).
  - right. intros E. apply RtoC_inj in E. lra.
  - intros [|[|i]] [|[|j]] Hi Hj; try lia; apply C_ext; cbn; field.
Qed.

(** C34: hopping.dtype keeps the energies ([cast] is the identity on them).  Partial: the full statement has z off the
    spectrum only; it is false at the bath energies (below). *)
Theorem C34_resolvent_partial : forall (K : Fld) conj cast (z e : K) eb hop R,
  length eb = length hop -> cast e = e -> (forall x, In x eb -> cast x = x) -> ~ In z eb ->
  minv K (S (length hop)) (zsub K z (hamiltonian_matrix conj cast e eb hop)) R ->
  gf0_loc_z z e eb (map (fun x => x * conj x) hop) = Ok (R 0%nat 0%nat).
Proof. intros. now apply (siam_resolvent K conj cast). Qed.
Print Assumptions C34_resolvent_partial.
Theorem C34_finite_only_off_spectrum : forall (K : Fld) conj cast (z e : K) eb hop g,
  length eb = length hop -> cast e = e -> (forall x, In x eb -> cast x = x) ->
  gf0_loc_z z e eb (map (fun x => x * conj x) hop) = Ok g ->
  exists R, minv K (S (length hop)) (zsub K z (hamiltonian_matrix conj cast e eb hop)) R /\ R 0%nat 0%nat = g.
Proof. intros. now apply siam_resolvent_exists. Qed.
Print Assumptions C34_finite_only_off_spectrum.
Theorem C34_hermitian : forall (K : Fld) conj cast (e : K) eb hop,
  length eb = length hop -> cast e = e -> (forall x, In x eb -> cast x = x) ->
  conj_ok K conj -> conj e = e -> (forall x, In x eb -> conj x = x) ->
  forall i j, (i < S (length hop))%nat -> (j < S (length hop))%nat ->
  me (ctr conj (hamiltonian_matrix conj cast e eb hop)) i j = me (hamiltonian_matrix conj cast e eb hop) i j.
Proof. intros. now apply ham_hermitian. Qed.
Print Assumptions C34_hermitian.
Theorem C34_hybridization : forall (K : Fld) conj (z : K) eb hop, length eb = length hop -> ~ In z eb ->
  hybrid_z z eb (map (fun x => x * conj x) hop) = Ok (nsum (length hop) (fun b => nth b hop 0 * conj (nth b hop 0) / (z - nth b eb 0))) /\
  hybrid_z z eb (map (fun x => x * conj x) hop) = Pole_Model.gf_z z eb (map (fun x => x * conj x) hop).
Proof. intros K conj z eb hop HL Hz. split; [now apply hybrid_ok|reflexivity]. Qed.
Print Assumptions C34_hybridization.

(** at a bath energy the code divides by zero, although the resolvent exists: e = e_b = 0, hopping 1, z = 0 *)
Theorem C34_bath_energy_refuted : exists (z e : QcF) eb hop R,
  length eb = length hop /\ minv QcF (S (length hop)) (zsub QcF z (hamiltonian_matrix (fun x => x) (fun x => x) e eb hop)) R /\
  gf0_loc_z z e eb (map (fun x => x * x) hop) = Err NonFinite.
Proof.
  exists (qc 0), (qc 0), [qc 0], [qc 1], (fun i j => match i, j with O, O => qc 0 | S _, S _ => qc 0 | _, _ => qc (-1) end).
  split; [reflexivity|]. split; [|reflexivity].
  intros [|[|i]] [|[|j]] Hi Hj; cbn in Hi, Hj; try lia; apply Qc_is_canon; vm_compute; reflexivity.
Qed.
Print Assumptions C34_bath_energy_refuted.
(** hopping of integer dtype: the energies are truncated in the matrix, not in gf0_loc_z *)
Theorem C34_integer_hopping_refuted : exists (z e : QcF) eb hop R, let cast := (fun x : QcF => qc (inject_Z (Z.quot (Qnum (this x)) (Zpos (Qden (this x)))))) in
  length eb = length hop /\ ~ In z eb /\ minv QcF (S (length hop)) (zsub QcF z (hamiltonian_matrix (fun x => x) cast e eb hop)) R /\
  exists g, gf0_loc_z z e eb (map (fun x => x * x) hop) = Ok g /\ g <> R 0%nat 0%nat.
Proof.
  exists (qc 2), (qc (1 # 2)), [qc 0], [qc 1], (fun i j => match i, j with O, O => qc (2 # 3) | S _, S _ => qc (2 # 3) | _, _ => qc (1 # 3) end).
  cbv zeta. split; [reflexivity|]. split.
  - intros [E|[]]. discriminate E.
  - split.
    + intros [|[|i]] [|[|j]] Hi Hj; cbn in Hi, Hj; try lia; apply Qc_is_canon; vm_compute; reflexivity.
    + eexists. split; [reflexivity|]. intros E. apply (f_equal this) in E. vm_compute in E. discriminate E.
Qed.
Print Assumptions C34_integer_hopping_refuted.
Example C34_example :
  show (gf0_loc_z (K := QcF) (qc 3) (qc 1) [qc 1; qc 2] (map (fun x => x * x) [qc 1; qc (1 # 2)])) = Ok (4 # 5)%Q /\
  show_mat (hamiltonian_matrix (K := QcF) (fun x => x) (fun x => x) (qc 1) [qc 1; qc 2] [qc 1; qc (1 # 2)])
  = [[1; 1; 1#2]; [1; 1; 0]; [1#2; 0; 2]]%Q.
Proof. split; vm_compute; reflexivity. Qed.

(** C22 for the SIAM impurity *)
Theorem C22_siam_gr_le_ret : forall eigh close0 cast e eb hop beta tt, (0 <= tt)%R ->
  forall g l, gf0_loc_gr_t eigh close0 cast tt e eb hop beta = Ok g -> gf0_loc_le_t eigh close0 cast tt e eb hop beta = Ok l ->
  gf0_loc_ret_t eigh close0 cast tt e eb hop = Ok (Cminus g l).
Proof. exact siam_gr_le_ret. Qed.
Print Assumptions C22_siam_gr_le_ret.
Theorem C22_siam_causal : forall eigh close0 cast e eb hop tt g, (tt < 0)%R -> gf0_loc_ret_t eigh close0 cast tt e eb hop = Ok g -> g = RtoC 0.
Proof. exact siam_ret_neg. Qed.
Print Assumptions C22_siam_causal.
(** the time functions are those of one pole function with non-negative weights summing to one, whose frequency function
    is gf0_loc_z *)
Theorem C22_siam_spectral : forall eigh close0 cast (e : C) (eb hop : list C) ev v,
  length eb = length hop -> Cconj e = e -> (forall x, In x eb -> Cconj x = x) -> cast e = e -> (forall x, In x eb -> cast x = x) ->
  close0 (RtoC 0) = true ->
  let H := hamiltonian_matrix (K := CF) Cconj cast e eb hop in
  eigh H = Ok (ev, v) -> eigh_spec CF Cconj H (map RtoC ev, v) ->
  exists w : list R, (forall x, In x w -> (0 <= x)%R) /\ lsum (K := RF) w = 1%R /\ length ev = S (length hop) /\
    (forall z, ~ In z eb -> ~ In z (map RtoC ev) -> gf0_loc_z (K := CF) z e eb (map (fun x => Cmult x (Cconj x)) hop)
       = Ok (lsum (K := CF) (map (fun pw => Cdiv (RtoC (snd pw)) (Cminus z (RtoC (fst pw)))) (combine ev w)))) /\
    (forall tt, gf0_loc_ret_t eigh close0 cast tt e eb hop
       = Ok (lsum (K := CF) (map (fun pw => Cmult (RtoC (snd pw)) (single_pole_gf_ret_t tt (RtoC (fst pw)))) (combine ev w)))) /\
    (forall tt beta, gf0_loc_gr_t eigh close0 cast tt e eb hop beta
       = Ok (lsum (K := CF) (map (fun pw => Cmult (RtoC (snd pw)) (single_pole_gf_gr_t tt (fst pw) beta)) (combine ev w)))) /\
    (forall tt beta, gf0_loc_le_t eigh close0 cast tt e eb hop beta
       = Ok (lsum (K := CF) (map (fun pw => Cmult (RtoC (snd pw)) (single_pole_gf_le_t tt (fst pw) beta)) (combine ev w)))).
Proof.
  intros eigh close0 cast e eb hop ev v HL He Heb C0 C1 HC H HE HS. exists (siam_weights hop v).
  split; [apply siam_weights_nonneg|]. split; [eapply siam_weights_sum; eassumption|]. split; [eapply ev_length; eassumption|].
  split; [intros; eapply siam_spectral; eassumption|].
  split; [intros; now apply siam_loc_sum|]. split; intros; now apply siam_loc_sum.
Qed.
Print Assumptions C22_siam_spectral.
(** one bath site at resonance: eigenvalues -1 and 1 with weights 1/2 *)
Definition ex_siam_v : mat CF := Mat (K := CF) 2 2 (fun i j => match i, j with O, O => RtoC (- / sqrt 2) | _, _ => RtoC (/ sqrt 2) end).
Example C22_siam_example :
  let H := hamiltonian_matrix (K := CF) Cconj (fun x => x) (RtoC 0) [RtoC 0] [RtoC 1] in
  eigh_spec CF Cconj H (map RtoC [-1; 1]%R, ex_siam_v).
Proof.
  assert (S2 : (/ sqrt 2 * / sqrt 2 = / 2)%R) by (rewrite <- Rinv_mult, sqrt_sqrt; lra).
  split.
  - split; [split; reflexivity|]. split; [reflexivity|]. intros [|[|i]] [|[|j]] Hi Hj; cbn in Hi, Hj; try lia; apply C_ext; cbn; ring.
  - split.
    + intros x Hx. cbn in Hx. destruct Hx as [<-|[<-|[]]]; apply C_ext; cbn; ring.
    + intros [|[|i]] [|[|j]] Hi Hj; cbn in Hi, Hj; try lia; apply C_ext; cbn; nra.
Qed.
