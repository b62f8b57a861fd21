(** * C01-C05: Thiele-Padé continued fractions and kind selectors. *)
From Coq Require Import List Arith ZArith QArith Lia Bool.
From Verif Require Import Base Pade_Model Pade_Spec Pade_Proofs PadeAvg_Model PadeAvg_Spec PadeKind_Proofs.
Import ListNotations.
Local Open Scope fld_scope.

(** C01: the k-th approximant reproduces the data at the first k+2 support points. *)
Theorem C01_interpolation :
  forall (K : Fld) (z f : list K) a j zj fj l k v,
  coefficients z f = Ok a ->
  nth_error z j = Some zj -> nth_error f j = Some fj ->
  calc_iterator zj z a = Ok l ->
  (j <= k + 1)%nat ->
  nth_error l k = Some (Some v) -> v = fj.
Proof. exact pade_interpolates. Qed.
Print Assumptions C01_interpolation.

(** Non-vacuous: four points, all yields finite, values 3, 1, 2 reproduced as claimed. *)
Example C01_example :
  let z := [qc 0; qc 1; qc 2; qc 4] in
  let f := [qc 3; qc 1; qc 2; qc 5] in
  show_list (do a <- coefficients z f; calc_iterator (qc 1) z a) = Ok [Some 1%Q; Some 1%Q; Some 1%Q] /\
  show_list (do a <- coefficients z f; calc_iterator (qc 4) z a) = Ok [Some (1#3)%Q; Some (11#5)%Q; Some 5%Q].
Proof. vm_compute. split; reflexivity. Qed.

(** C02: the k-th yield is the continued fraction of exactly the first k+2 coefficients and
    the first k+1 points; [cf_frac] is that fraction as numerator/denominator. *)
Theorem C02_continued_fraction :
  forall (K : Fld) z zin (coeff : list (ext K)) l k v,
  calc_iterator z zin coeff = Ok l -> nth_error l k = Some (Some v) ->
  exists b, firstn (k + 2) coeff = map Some b /\ length b = (k + 2)%nat /\
    (k + 2 <= length zin)%nat /\
    let '(n, d) := cf_frac z b (firstn (k + 1) zin) in d <> 0 /\ v = n / d.
Proof. exact calc_iterator_yield. Qed.
Print Assumptions C02_continued_fraction.

(** [cf_frac] is the value of the nested fraction whenever all its divisions are possible. *)
Theorem C02_fraction_is_nested_division :
  forall (K : Fld) (z : K) a zs t,
  cf_val z a zs = Some t -> let '(n, d) := cf_frac z a zs in d <> 0 /\ t = n / d.
Proof. exact cf_val_frac. Qed.
Print Assumptions C02_fraction_is_nested_division.

(** If the denominators of the approximants 0..k do not vanish the k-th yield is a number. *)
Theorem C02_finite :
  forall (K : Fld) z zin (b : list K) k,
  length zin = length b -> (k + 2 <= length b)%nat ->
  (forall j, (j <= k)%nat -> snd (cf_frac z (firstn (j + 2) b) (firstn (j + 1) zin)) <> 0) ->
  exists l v, calc_iterator z zin (map Some b) = Ok l /\ nth_error l k = Some (Some v).
Proof. exact calc_iterator_finite. Qed.
Print Assumptions C02_finite.

(** There are exactly len(coeff)-1 yields. *)
Theorem C02_count :
  forall (K : Fld) z zin (coeff : list (ext K)) l,
  calc_iterator z zin coeff = Ok l ->
  length l = (length coeff - 1)%nat /\ length zin = length coeff /\ coeff <> [].
Proof. exact calc_iterator_length. Qed.
Print Assumptions C02_count.

Example C02_example :
  let zin := [qc 0; qc 1; qc 2] in let b := [qc 1; qc 2; qc 3] in
  show_list (calc_iterator (qc 5) zin (map Some b)) = Ok [Some (1#11)%Q; Some (13#23)%Q] /\
  (let '(n, d) := cf_frac (qc 5) b (firstn 2 zin) in (Qcanon.this n, Qcanon.this d)) = (13%Q, 23%Q) /\
  option_map Qcanon.this (cf_val (qc 5) b (firstn 2 zin)) = Some (13#23)%Q.
Proof. vm_compute. repeat split. Qed.

(** C03: prefix stability, length, error behaviour. *)
Theorem C03_prefix_stable :
  forall (K : Fld) (z f : list K) a n,
  coefficients z f = Ok a -> coefficients (firstn n z) (firstn n f) = Ok (firstn n a).
Proof. exact coefficients_firstn. Qed.
Print Assumptions C03_prefix_stable.

Theorem C03_length :
  forall (K : Fld) (z f : list K) a, coefficients z f = Ok a -> @length (ext K) a = length f.
Proof. exact coefficients_length. Qed.
Print Assumptions C03_length.

Theorem C03_error_iff_lengths_differ :
  forall (K : Fld) (z f : list K),
  (exists e, coefficients z f = @Err (list (ext K)) e) <-> length z <> length f.
Proof. exact coefficients_error_iff. Qed.
Print Assumptions C03_error_iff_lengths_differ.

Example C03_example :
  let z := [qc 0; qc 1; qc 2; qc 4] in let f := [qc 3; qc 1; qc 2; qc 5] in
  show_list (coefficients z f) = Ok [Some 3%Q; Some 2%Q; Some (7#1)%Q; Some (-(1))%Q] /\
  show_list (coefficients (firstn 3 z) (firstn 3 f)) = Ok [Some 3%Q; Some 2%Q; Some (7#1)%Q].
Proof. vm_compute. split; reflexivity. Qed.

(** C04: the i-th approximant selected by KindGf uses an even number 2m of points and is p/q with
    deg p <= m-1, deg q <= m; the top coefficient of q is a1 a3 a5 ... *)
Theorem C04_kindgf_tail :
  forall (K : Fld) n_min n_max k (zin b : list K) i m,
  KindGf n_min n_max = Ok k ->
  (2 * Z.of_nat m = k_start k + 2 * Z.of_nat i + 2)%Z ->
  (2 * m <= length b)%nat -> length zin = length b ->
  exists p q,
    length p = m /\ length q = S m /\ nth m q 0 = odd_prod (firstn (2 * m) b) /\
    forall z l v, calc_iterator z zin (map Some b) = Ok l ->
      nth_error (islice k l) i = Some (Some v) -> peval q z <> 0 /\ v = peval p z / peval q z.
Proof. exact kindgf_tail. Qed.
Print Assumptions C04_kindgf_tail.

(** ... and KindSelf uses an odd number 2m+1 of points, numerator and denominator of degree <= m. *)
Theorem C04_kindself_tail :
  forall (K : Fld) n_min n_max k (zin b : list K) i m,
  KindSelf n_min n_max = Ok k ->
  (2 * Z.of_nat m + 1 = k_start k + 2 * Z.of_nat i + 2)%Z ->
  (2 * m + 1 <= length b)%nat -> length zin = length b ->
  exists p q,
    length p = S m /\ length q = S m /\
    forall z l v, calc_iterator z zin (map Some b) = Ok l ->
      nth_error (islice k l) i = Some (Some v) -> peval q z <> 0 /\ v = peval p z / peval q z.
Proof. exact kindself_tail. Qed.
Print Assumptions C04_kindself_tail.

(** Every selected index has the parity required above, for every accepted selector. *)
Theorem C04_kindgf_parity :
  forall n_min n_max k i,
  KindGf n_min n_max = Ok k -> exists m, (2 * Z.of_nat m = k_start k + 2 * Z.of_nat i + 2)%Z.
Proof. exact kindgf_even. Qed.
Print Assumptions C04_kindgf_parity.

Theorem C04_kindself_parity :
  forall n_min n_max k i,
  KindSelf n_min n_max = Ok k -> exists m, (2 * Z.of_nat m + 1 = k_start k + 2 * Z.of_nat i + 2)%Z.
Proof. exact kindself_odd. Qed.
Print Assumptions C04_kindself_parity.

Example C04_example :
  KindGf 2 6 = Ok (mkKind 2 5 2) /\ (2 * Z.of_nat 2 = 2 + 2 * Z.of_nat 0 + 2)%Z /\
  show_list (do l <- calc_iterator (qc 3) [qc 0; qc 1; qc 2; qc 4; qc 5] (map Some [qc 1; qc 2; qc 3; qc 4; qc 5]);
             Ok (islice (mkKind 2 5 2) l)) = Ok [Some (11#41)%Q].
Proof. vm_compute. repeat split. Qed.

(** C05: acceptance and selected window of both selectors ([window_spec] in PadeAvg_Spec). *)
Theorem C05_kindgf_window :
  forall n_min n_max m,
  Z.odd m = true -> (n_min <= m <= n_min + 1)%Z -> window_spec (KindGf n_min n_max) m n_max.
Proof. exact KindGf_window. Qed.
Print Assumptions C05_kindgf_window.

Theorem C05_kindself_window :
  forall n_min n_max m,
  Z.even m = true -> (n_min <= m <= n_min + 1)%Z -> window_spec (KindSelf n_min n_max) m n_max.
Proof. exact KindSelf_window. Qed.
Print Assumptions C05_kindself_window.

Example C05_example :
  KindGf 0 2 = Ok (mkKind 0 1 2) /\ KindSelf 1 2 = Err ValueError /\ KindSelf 3 9 = Ok (mkKind 3 8 2) /\
  islice (mkKind 3 8 2) (seq 0 20) = [3; 5; 7]%nat.
Proof. vm_compute. repeat split. Qed.
