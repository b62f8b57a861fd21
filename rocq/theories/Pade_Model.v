(** * Model of gftool/pade.py *)
From Coq Require Import List Arith ZArith Lia Bool.
From Verif Require Import Base.
Import ListNotations.

(** ** Kind selectors (pade.py:40-119) *)

(** An instantiated selector: [self.start], [self.stop], [self.step] (pade.py:59-61,101,119). *)
Record kind := mkKind { k_start : Z; k_stop : Z; k_step : Z }.

(** KindSelector.__init__, pade.py:51-61.  Python ints are [Z]. *)
Definition kind_init (n_min n_max step : Z) : result kind :=
  if (n_min <? 1)%Z then Err ValueError
  else if (n_max <=? n_min)%Z then Err ValueError
  else Ok (mkKind (n_min - 1) (n_max - 1) step).

(** KindGf.__init__, pade.py:96-101: [if not n_min % 2: n_min += 1]. *)
Definition KindGf (n_min n_max : Z) : result kind :=
  let n_min := if (n_min mod 2 =? 0)%Z then (n_min + 1)%Z else n_min in
  kind_init n_min n_max 2.

(** KindSelf.__init__, pade.py:114-119: [if n_min % 2: n_min += 1]. *)
Definition KindSelf (n_min n_max : Z) : result kind :=
  let n_min := if negb (n_min mod 2 =? 0)%Z then (n_min + 1)%Z else n_min in
  kind_init n_min n_max 2.

(** [range(start, stop, step)] for positive [step], as the list of its elements. *)
Definition py_range_len (start stop step : Z) : Z :=
  if (start <? stop)%Z then ((stop - start - 1) / step + 1)%Z else 0%Z.
Definition py_range (start stop step : Z) : list Z :=
  map (fun i => (start + Z.of_nat i * step)%Z) (seq 0 (Z.to_nat (py_range_len start stop step))).

(** KindSelector.__len__, pade.py:76-78. *)
Definition kind_len (k : kind) : Z := Z.of_nat (length (py_range (k_start k) (k_stop k) (k_step k))).
(** KindSelector.__getitem__ for a non-negative index, pade.py:72-74. *)
Definition kind_getitem (k : kind) (i : nat) : result Z :=
  match nth_error (py_range (k_start k) (k_stop k) (k_step k)) i with
  | Some x => Ok x | None => Err IndexError end.

(** [itertools.islice(iterable, start, stop, step)] (pade.py:65): walks the iterable with a running
    index, emits the element when the index equals the next wanted index. *)
Fixpoint islice_go {A} (idx next stop step : Z) (l : list A) : list A :=
  match l with
  | [] => []
  | x :: l' =>
      if (stop <=? next)%Z then []
      else if (idx =? next)%Z then x :: islice_go (idx + 1) (next + step) stop step l'
      else islice_go (idx + 1) next stop step l'
  end.
Definition islice {A} (k : kind) (l : list A) : list A :=
  islice_go 0 (k_start k) (k_stop k) (k_step k) l.

Section Pade.
Context {K : Fld}.
Local Open Scope fld_scope.

(** ** coefficients (pade.py:260-300)

    One 1-D item of [fct_z]; leading axes are independent.  The cast to quad precision is the
    identity in exact arithmetic.  Array entries are [ext]: [None] = non-finite. *)

(** One pass of the loop body, pade.py:296:
    [res[ii+1:] = (res[ii:ii+1]/res[ii+1:] - 1.)/(z[ii+1:] - z[ii])]. *)
Definition coeff_step (z : list K) (res : list (ext K)) (ii : nat) : list (ext K) :=
  let r0 := nth ii res None in
  let z0 := nth ii z 0 in
  firstn (ii + 1) res ++
  map (fun zr => odiv (osub (odiv r0 (snd zr)) (Some 1)) (Some (fst zr - z0)))
      (combine (skipn (ii + 1) z) (skipn (ii + 1) res)).

(** pade.py:291-296. *)
Definition coefficients (z fct_z : list K) : result (list (ext K)) :=
  if negb (length z =? length fct_z)%nat then Err ValueError
  else Ok (fold_left (coeff_step z) (seq 0 (length z - 1)) (map Some fct_z)).

(** ** calc_iterator (pade.py:351-403), at one output point.

    [ms] are the remaining rows of [multiplier]; the result lists everything yielded. *)
Fixpoint calc_loop (ms : list (ext K)) (pade pade_prev B2 : ext K) : list (ext K) :=
  match ms with
  | [] => []
  | multiplier_im :: ms' =>
      let mult_im := odiv multiplier_im B2 in
      let B2 := oadd (Some 1) mult_im in
      let pade' := odiv (oadd pade (omul mult_im pade_prev)) B2 in
      pade' :: calc_loop ms' pade' pade B2
  end.

(** pade.py:384-403.  [coeff] empty makes [coeff[..., 0:1]*id1] fail to broadcast. *)
Definition calc_iterator (z_out : K) (z_in : list K) (coeff : list (ext K)) : result (list (ext K)) :=
  if negb (length coeff =? length z_in)%nat then Err AssertionError
  else match coeff with
  | [] => Err ValueError
  | a0 :: a =>
      let multiplier := map (fun za => omul (Some (z_out - fst za)) (snd za))
                            (combine (removelast z_in) a) in
      Ok (calc_loop multiplier a0 (Some 0) (Some 1))
  end.

(** ** averaged, the list of approximants it forms (pade.py:716-718, 484):
    input truncated to [kind.stop], then [kind.islice(calc_iterator(...))]. *)
Definition averaged_pades (z_out : K) (z_in fct_z : list K) (k : kind) : result (list (ext K)) :=
  let n := Z.to_nat (k_stop k) in
  do coeff <- coefficients (firstn n z_in) (firstn n fct_z);
  do it <- calc_iterator z_out (firstn n z_in) coeff;
  Ok (islice k it).
End Pade.
