(** * The contract of np.linalg.eigh can be met for every Hermitian matrix: C60 *)
From Coq Require Import List Arith Reals Lia.
From Coquelicot Require Import Coquelicot.
From Verif Require Import Base FSum CBase Linalg_Model Linalg_Proofs Matrix_Model Matrix_Proofs Spectral.
Import ListNotations.

(** every Hermitian matrix passes the check and has a decomposition with real eigenvalues and unitary eigenvectors which reconstructs it *)
Theorem C60_decompose_her_every : forall (close0 : C -> bool) (A : mat CF) check, close0 (RtoC 0) = true -> nr A = nc A ->
  (forall i j, (i < nr A)%nat -> (j < nr A)%nat -> me A i j = Cconj (me A j i)) ->
  exists eighO d, (forall ev, eighO A = Ok ev -> eigh_spec CF Cconj A ev) /\ decompose_her (K := CF) Cconj eighO close0 A check = Ok d /\
    (forall i j, (i < nr A)%nat -> (j < nr A)%nat -> me (recon_full d (eig d)) i j = me A i j) /\
    (forall i j, me (rv_inv d) i j = Cconj (me (rv d) j i)) /\ (forall x, In x (eig d) -> snd x = 0%R).
Proof.
  intros close0 A check H0 Hs HA. destruct (eigh_exists A Hs HA) as (ev & He). exists (fun _ => Ok ev).
  assert (HE : forall ev', Ok ev = Ok ev' -> eigh_spec CF Cconj A ev') by (intros ev' E; injection E as <-; exact He).
  destruct (decompose_her (K := CF) Cconj (fun _ => Ok ev) close0 A check) as [d|x] eqn:E.
  - exists d. split; [exact HE|]. split; [reflexivity|]. destruct (decompose_her_spec CF Cconj (fun _ => Ok ev) close0 A check Hs HE d E) as (_ & _ & _ & _ & RE & N & O). split; [exact RE|]. split; [exact N|].
    intros x Hx. apply O in Hx. apply (f_equal snd) in Hx. cbn in Hx. Lra.lra.
  - exfalso. unfold decompose_her in E. assert (T : allclose0 (K := CF) close0 (msub A (ctr (K := CF) Cconj A)) = true).
    { unfold allclose0. cbn [msub ctr nr nc me]. apply forallb_forall. intros i Hi. apply forallb_forall. intros j Hj. apply in_seq in Hi, Hj. rewrite <- (HA i j) by lia. change (@Fsub CF) with Cminus. replace (Cminus (me A i j) (me A i j)) with (RtoC 0); [exact H0|]. destruct (me A i j) as [a b]. apply C_ext; cbn; ring. }
    rewrite T in E. rewrite Bool.andb_false_r in E. cbn [bind] in E. discriminate.
Qed.
Print Assumptions C60_decompose_her_every.
Example C60_her_example : let A := Mat (K := CF) 2 2 (fun i j => if (i =? j)%nat then RtoC 0 else if (i <? j)%nat then Ci else Copp Ci) in
  nr A = nc A /\ forall i j, (i < nr A)%nat -> (j < nr A)%nat -> me A i j = Cconj (me A j i).
Proof.
  split; [reflexivity|]. intros [|[|i]] [|[|j]] Hi Hj; cbn in *; try lia; apply C_ext; cbn; ring.
Qed.
