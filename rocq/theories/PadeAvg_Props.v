(** * C06-C09: Padé averaging and filters. *)
From Coq Require Import List Arith ZArith QArith Lia Bool.
From Verif Require Import Base Pade_Model Pade_Spec PadeAvg_Model PadeAvg_Spec PadeKind_Proofs PadeAvg_Proofs PadeAvg_Refute.
Import ListNotations.
Local Open Scope fld_scope.

(** C06 (full claim): for every accepted selector and at least n_max points, averaged() forms len(K)
    approximants, and at least one.  This is false of the code: *)
Theorem C06_count_refuted :
  exists n_max k (z : QcF) zin f pades,
    KindGf 1 n_max = Ok k /\ (n_max <= Z.of_nat (length zin))%Z /\
    averaged_pades z zin f k = Ok pades /\ Z.of_nat (length pades) <> kind_len k.
Proof. exact c06_count_refuted. Qed.
Print Assumptions C06_count_refuted.

(** The average over no approximant at all (numpy: NaN) for an accepted selector with enough points. *)
Theorem C06_empty_average_refuted :
  exists n_max k (z : QcF) zin f,
    KindGf 1 n_max = Ok k /\ (n_max <= Z.of_nat (length zin))%Z /\ length f = length zin /\
    averaged_1d z zin f k = Err NonFinite.
Proof. exact c06_empty_refuted. Qed.
Print Assumptions C06_empty_average_refuted.

(** For stacked functions the mismatch is an IndexError. *)
Theorem C06_stacked_refuted :
  exists n_max k (z : QcF) zin f,
    KindGf 1 n_max = Ok k /\ (n_max <= Z.of_nat (length zin))%Z /\
    averaged_nd z zin f k = Err IndexError.
Proof. exact c06_stacked_refuted. Qed.
Print Assumptions C06_stacked_refuted.

(** What does hold, exactly: the counts agree iff the window has even width, and there is at least
    one approximant iff the window has width >= 2.  [good_kind] holds of every accepted selector. *)
Theorem C06_count_partial :
  forall (K : Fld) k (z : K) zin f pades,
  good_kind k -> averaged_pades z zin f k = Ok pades ->
  (k_stop k <= Z.of_nat (length zin))%Z ->
  (Z.of_nat (length pades) = kind_len k <-> Z.even (k_stop k - k_start k) = true) /\
  (length pades <> 0%nat <-> (k_start k + 2 <= k_stop k)%Z).
Proof. exact averaged_count_iff. Qed.
Print Assumptions C06_count_partial.

Theorem C06_accepted_kinds_are_good :
  forall a b k, (KindGf a b = Ok k \/ KindSelf a b = Ok k) -> good_kind k.
Proof. exact accepted_good. Qed.
Print Assumptions C06_accepted_kinds_are_good.

Example C06_example :
  KindGf 1 5 = Ok (mkKind 0 4 2) /\
  show_list (averaged_pades (qc 7) [qc 0; qc 1; qc 2; qc 4; qc 5] [qc 3; qc 1; qc 2; qc 5; qc 7] (mkKind 0 4 2))
  = Ok [Some (1#5)%Q; Some (-(19)#3)%Q].
Proof. vm_compute. split; reflexivity. Qed.

(** C07: mean over exactly the valid approximants (1-D mask; zip stops at the shorter list). *)
Theorem C07_mean_of_valid :
  forall (K : Fld) valid (ps : list K) (Hchar : forall n, fnat (S n) <> (0 : K)),
  average_1d valid (map Some ps)
  = if existsb (fun b => b) valid
    then match valid_count valid (length ps) with
         | O => Err NonFinite
         | S n => Ok (valid_sum valid ps / fnat (S n))
         end
    else Err RuntimeError.
Proof. exact average_1d_mean. Qed.
Print Assumptions C07_mean_of_valid.

(** Invalid approximants, finite or not, cannot influence the result (1-D mask). *)
Theorem C07_only_valid_matter :
  forall (K : Fld) valid (p p' : list (ext K)),
  length p = length p' ->
  (forall i, nth i valid false = true -> nth_error p i = nth_error p' i) ->
  average_1d valid p = average_1d valid p'.
Proof. exact average_1d_only_valid. Qed.
Print Assumptions C07_only_valid_matter.

(** Masks with further axes: every column its own mean. *)
Theorem C07_mean_of_valid_stacked :
  forall (K : Fld) (cols : list (list bool * list K)) (Hchar : forall n, fnat (S n) <> (0 : K)),
  Forall (fun c => length (fst c) = length (snd c)) cols ->
  average_nd (map (fun c => (fst c, map Some (snd c))) cols)
  = if forallb (fun c => existsb (fun b => b) (fst c)) cols
    then Ok (map (fun c => valid_sum (fst c) (snd c) / fnat (valid_count (fst c) (length (snd c)))) cols)
    else Err RuntimeError.
Proof. exact average_nd_mean. Qed.
Print Assumptions C07_mean_of_valid_stacked.

(** ... but there a NaN in an approximant marked invalid does influence the result (it raises). *)
Theorem C07_stacked_invalid_nan_refuted :
  exists (valid : list bool) (p p' : list (ext QcF)),
    length p = length p' /\ length valid = length p /\
    (forall i, nth i valid false = true -> nth_error p i = nth_error p' i) /\
    average_nd [(valid, p)] <> average_nd [(valid, p')].
Proof. exact c07_nd_refuted. Qed.
Print Assumptions C07_stacked_invalid_nan_refuted.

Theorem C07_rationals_have_char0 : forall n, fnat (S n) <> (0 : QcF).
Proof. exact QcF_char0. Qed.
Print Assumptions C07_rationals_have_char0.

Example C07_example :
  show (average_1d [true; false; true] [Some (qc 1); None; Some (qc 4)]) = Ok (5#2)%Q.
Proof. vm_compute. reflexivity. Qed.

(** C08: FilterNegImag keeps exactly those below the threshold everywhere. *)
Theorem C08_neg_imag :
  forall th pades,
  length (filter_neg_imag th pades) = length pades /\
  forall i pade, nth_error pades i = Some pade ->
    (nth_error (filter_neg_imag th pades) i = Some true <-> forall v, In v pade -> (snd v < th)%Q).
Proof. exact filter_neg_imag_spec. Qed.
Print Assumptions C08_neg_imag.

(** FilterNegImagNum(abs_num = n): never raises; keeps >= min(n, N); keeps everything non-positive;
    never drops an approximant while keeping a worse invalid one. *)
Theorem C08_neg_imag_num :
  forall argsort, argsort_ok argsort ->
  forall (n : nat) (pades : list (list cQ)),
  (forall p, In p pades -> p <> []) ->
  exists mask, filter_neg_imag_num argsort (AbsNum (Z.of_nat n)) pades = Ok mask /\
    length mask = length pades /\
    (Nat.min n (length pades) <= count_true mask)%nat /\
    (forall i p m, nth_error pades i = Some p -> is_max_imag p m -> (m <= 0)%Q -> nth_error mask i = Some true) /\
    (forall i j p q mp mq, nth_error pades i = Some p -> nth_error pades j = Some q ->
       is_max_imag p mp -> is_max_imag q mq ->
       nth_error mask i = Some false -> nth_error mask j = Some true -> (0 < mq)%Q -> (mq <= mp)%Q).
Proof. exact filter_neg_imag_num_spec. Qed.
Print Assumptions C08_neg_imag_num.

(** With rel_num < 1 it always raises a TypeError (slicing with a float). *)
Theorem C08_neg_imag_num_rel_refuted :
  forall argsort, argsort_ok argsort ->
  forall (q : Q) (pades : list (list cQ)),
  (forall p, In p pades -> p <> []) -> pades <> [] -> (q < 1)%Q ->
  filter_neg_imag_num argsort (RelNum q) pades = Err TypeError.
Proof. exact (fun a _ => filter_neg_imag_num_rel a). Qed.
Print Assumptions C08_neg_imag_num_rel_refuted.

(** apply_filter with zero or at least two filters is sequential filtering of the survivors; it
    raises iff a filter raises or nobody survives a stage ([survivors] in PadeAvg_Spec). *)
Theorem C08_apply_filter :
  forall (A : Type) (fs : list (list A -> result (list bool))) (l : list A),
  Forall well_behaved fs -> length fs <> 1%nat ->
  match apply_filter fs l with
  | Ok m => exists sv, survivors fs (combine (seq 0 (length l)) l) = Some sv /\
              true_positions m = map fst sv /\ length m = length l
  | Err _ => survivors fs (combine (seq 0 (length l)) l) = None
  end.
Proof. exact @apply_filter_spec. Qed.
Print Assumptions C08_apply_filter.

(** A single filter that keeps nothing does not raise in apply_filter. *)
Theorem C08_apply_single_no_raise_refuted :
  exists (f : list (list cQ) -> result (list bool)) l m,
    well_behaved f /\ apply_filter [f] l = Ok m /\ l <> [] /\ true_positions m = [].
Proof. exact c08_single_refuted. Qed.
Print Assumptions C08_apply_single_no_raise_refuted.

Theorem C08_argsort_contract_satisfiable : argsort_ok argsort_ins.
Proof. exact argsort_ins_ok. Qed.
Print Assumptions C08_argsort_contract_satisfiable.

Example C08_example :
  let p := [[(0, 3); (0, -(1))]; [(0, -(2))]; [(0, 1)]; [(0, 2)]]%Q in
  filter_neg_imag_num argsort_ins (AbsNum 2) p = Ok [false; true; true; false] /\
  filter_neg_imag 1 p = [false; true; false; false] /\
  apply_filter [filter_neg_imag_num argsort_ins (AbsNum 2); fun l => Ok (filter_neg_imag 1 l)] p
  = Ok [false; true; false; false].
Proof. vm_compute. repeat split. Qed.

(** C09: with 0 < abs_num < N exactly abs_num approximants are kept, N - abs_num were removed. *)
Theorem C09_count :
  forall argsort, argsort_ok argsort ->
  forall (n nz : nat) pades,
  (0 < n)%nat -> (n < length pades)%nat ->
  exists mask bad, filter_high_variance argsort (AbsNum (Z.of_nat n)) nz pades = Ok (mask, bad) /\
    length mask = length pades /\ count_true mask = n /\ length bad = (length pades - n)%nat.
Proof. exact filter_high_variance_count. Qed.
Print Assumptions C09_count.

(** ... but the discarded ones need not be the iteratively removed ones [bad] (no ties involved:
    the same for every admissible argsort is not claimed, this is the insertion argsort). *)
Theorem C09_discarded_are_removed_refuted :
  exists n nz pades mask bad i,
    filter_high_variance argsort_ins (AbsNum n) nz pades = Ok (mask, bad) /\
    In i bad /\ nth_error mask i = Some true.
Proof. exact c09_removed_refuted. Qed.
Print Assumptions C09_discarded_are_removed_refuted.

(** A relative number that rounds down to zero keeps everything. *)
Theorem C09_rel_num_zero_refuted :
  exists q nz pades mask bad,
    filter_high_variance argsort_ins (RelNum q) nz pades = Ok (mask, bad) /\
    (0 < q)%Q /\ (q < 1)%Q /\ (1 < length pades)%nat /\ count_true mask = length pades /\
    length bad = length pades.
Proof. exact c09_rel_refuted. Qed.
Print Assumptions C09_rel_num_zero_refuted.
