(** * Witnesses for the refuted parts of C06-C09. *)
From Coq Require Import List Arith ZArith QArith Qcanon Lia Bool.
From Verif Require Import Base Pade_Model Pade_Spec PadeAvg_Model PadeAvg_Spec PadeKind_Proofs PadeAvg_Proofs.
Import ListNotations.

Lemma c06_count_refuted :
  exists n_max k (z : QcF) zin f pades,
    KindGf 1 n_max = Ok k /\ (n_max <= Z.of_nat (length zin))%Z /\
    averaged_pades z zin f k = Ok pades /\ Z.of_nat (length pades) <> kind_len k.
Proof.
  exists 4%Z, (mkKind 0 3 2), (qc 7), [qc 0; qc 1; qc 2; qc 4], [qc 3; qc 1; qc 2; qc 5].
  eexists. split; [reflexivity|]. split; [cbn; lia|]. split; [reflexivity|].
  vm_compute. discriminate.
Qed.

Lemma c06_empty_refuted :
  exists n_max k (z : QcF) zin f,
    KindGf 1 n_max = Ok k /\ (n_max <= Z.of_nat (length zin))%Z /\ length f = length zin /\
    averaged_1d z zin f k = Err NonFinite.
Proof.
  exists 2%Z, (mkKind 0 1 2), (qc 7), [qc 0; qc 1], [qc 3; qc 1].
  repeat split. vm_compute; discriminate.
Qed.

Lemma c06_stacked_refuted :
  exists n_max k (z : QcF) zin f,
    KindGf 1 n_max = Ok k /\ (n_max <= Z.of_nat (length zin))%Z /\
    averaged_nd z zin f k = Err IndexError.
Proof.
  exists 4%Z, (mkKind 0 3 2), (qc 7), [qc 0; qc 1; qc 2; qc 4], [[qc 3; qc 1; qc 2; qc 5]].
  repeat split. vm_compute; discriminate.
Qed.

Lemma accepted_good : forall a b k, (KindGf a b = Ok k \/ KindSelf a b = Ok k) -> good_kind k.
Proof. intros a b k [H|H]; [apply KindGf_good in H|apply KindSelf_good in H]; tauto. Qed.

Lemma c07_nd_refuted :
  exists (valid : list bool) (p p' : list (ext QcF)),
    length p = length p' /\ length valid = length p /\
    (forall i, nth i valid false = true -> nth_error p i = nth_error p' i) /\
    average_nd [(valid, p)] <> average_nd [(valid, p')].
Proof.
  exists [true; false], [Some (qc 1); None], [Some (qc 1); Some (qc 2)].
  repeat split.
  - intros [|[|[|i]]] H; try discriminate; reflexivity.
  - intros H. discriminate H.
Qed.

Lemma fnat_Q n : this (fnat n : QcF) == inject_Z (Z.of_nat n).
Proof.
  induction n as [|n IH]; [reflexivity|]. cbn [fnat].
  change (this (Qcplus (fnat n : QcF) (Q2Qc 1)) == inject_Z (Z.of_nat (S n))).
  cbn [Qcplus this Q2Qc]. rewrite Qred_correct. change (this (Q2Qc 1)) with (Qred 1). rewrite (Qred_correct 1), IH.
  rewrite Nat2Z.inj_succ. unfold Z.succ. rewrite inject_Z_plus. reflexivity.
Qed.
Lemma QcF_char0 : forall n, fnat (S n) <> (F0 : QcF).
Proof.
  intros n H. assert (E := fnat_Q (S n)). rewrite H in E. change (this (F0 : QcF)) with 0%Q in E.
  unfold Qeq, inject_Z in E. cbn [Qnum Qden] in E. lia.
Qed.

Lemma c08_single_refuted :
  exists (f : list (list cQ) -> result (list bool)) l m,
    well_behaved f /\ apply_filter [f] l = Ok m /\ l <> [] /\ true_positions m = [].
Proof.
  exists (fun l => Ok (filter_neg_imag 0 l)), [[(0, 1)%Q]], [false].
  repeat split; [|discriminate]. intros l m [= <-]. apply map_length.
Qed.

Definition hv_witness : list (list cQ) :=
  map (fun x => [(inject_Z x, 0%Q)]) [967; -1020; -938; -914; -1071; 513; 520; 531; 454]%Z.
Lemma c09_removed_refuted :
  exists n nz pades mask bad i,
    filter_high_variance argsort_ins (AbsNum n) nz pades = Ok (mask, bad) /\
    In i bad /\ nth_error mask i = Some true.
Proof.
  exists 5%Z, 1%nat, hv_witness. eexists _, _, 0%nat. split; [vm_compute; reflexivity|].
  split; [cbn; tauto|reflexivity].
Qed.
Lemma c09_rel_refuted :
  exists q nz pades mask bad,
    filter_high_variance argsort_ins (RelNum q) nz pades = Ok (mask, bad) /\
    (0 < q)%Q /\ (q < 1)%Q /\ (1 < length pades)%nat /\ count_true mask = length pades /\
    length bad = length pades.
Proof.
  exists (1#10)%Q, 1%nat, hv_witness. eexists _, _. split; [vm_compute; reflexivity|].
  repeat split. cbn. lia.
Qed.
