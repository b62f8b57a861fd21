(** * Model of the averaging and filter layer of gftool/pade.py *)
From Coq Require Import List Arith ZArith QArith Qround Lia Bool.
From Verif Require Import Base Pade_Model.
Import ListNotations.

(** ** numpy slicing helpers *)
(** [l[:n]] with Python's treatment of negative [n]. *)
Definition py_take {A} (n : Z) (l : list A) : list A :=
  if (n <? 0)%Z then firstn (Z.to_nat (Z.of_nat (length l) + n)) l else firstn (Z.to_nat n) l.

(** KindSelector.slice applied to an array axis, pade.py:67-70: [l[start:stop:step]] for
    non-negative bounds and positive step. *)
Definition kind_slice {A} (k : kind) (l : list A) : list A :=
  flat_map (fun i => match nth_error l (Z.to_nat i) with Some x => [x] | None => [] end)
           (py_range (k_start k) (Z.min (k_stop k) (Z.of_nat (length l))) (k_step k)).

(** Assignment [mask[idx] = v] for an index list. *)
Definition set_at (idx : list nat) (v : bool) (mask : list bool) : list bool :=
  map (fun ib => if existsb (Nat.eqb (fst ib)) idx then v else snd ib)
      (combine (seq 0 (length mask)) mask).

(** Elements with a true mask entry ([arr[mask]]). *)
Definition select {A} (mask : list bool) (l : list A) : list A :=
  map snd (filter fst (combine mask l)).

(** ** Averager (pade.py:406-504), one output point.

    [valid_pades] is always boolean here, so the TypeError branch (438-444) is not modelled; [err]
    (the standard deviation, line 501) is modelled in PadeMod_Model. *)
Section Avg.
Context {K : Fld}.
Local Open Scope fld_scope.

Definition is_none (x : ext K) : bool := match x with None => true | Some _ => false end.
Definition finites (l : list (ext K)) : list K :=
  flat_map (fun x => match x with Some v => [v] | None => [] end) l.

(** np.nanmean of a list without NaN entries; empty input gives NaN. *)
Definition mean (l : list K) : result K := fdiv (lsum l) (fnat (length l)).

(** 1-D mask, pade.py:485-491, 500: [zip] stops at the shorter of the two. *)
Definition average_1d (valid : list bool) (pades : list (ext K)) : result K :=
  if negb (existsb (fun b => b) valid) then Err RuntimeError
  else let kept := map fst (filter snd (combine pades valid)) in
       if existsb is_none kept then Err RuntimeError
       else mean (finites kept).

(** Mask with further axes, pade.py:492-497, 500: a list of columns (mask, approximants), one per
    entry of the further axes.  NaN check over everything, then invalid entries are replaced by NaN
    (IndexError on mismatching shape) and ignored by nanmean. *)
Definition average_nd (cols : list (list bool * list (ext K))) : result (list K) :=
  if existsb (fun c => negb (existsb (fun b => b) (fst c))) cols then Err RuntimeError
  else if existsb (fun c => existsb is_none (snd c)) cols then Err RuntimeError
  else if existsb (fun c => negb (length (fst c) =? length (snd c))%nat) cols then Err IndexError
  else fold_right (fun c acc =>
         do rest <- acc;
         do m <- mean (finites (map fst (filter snd (combine (snd c) (fst c)))));
         Ok (m :: rest)) (Ok []) cols.

(** averaged without filters for 1-D input, pade.py:715-735: all-true mask of length [len(kind)]. *)
Definition averaged_1d (z_out : K) (z_in fct_z : list K) (k : kind) : result K :=
  do pades <- averaged_pades z_out z_in fct_z k;
  average_1d (repeat true (Z.to_nat (kind_len k))) pades.

(** averaged without filters for a stack of functions (leading axis of [fct_z]), pade.py:715-735. *)
Definition averaged_nd (z_out : K) (z_in : list K) (fct_z : list (list K)) (k : kind) : result (list K) :=
  do cols <- fold_right (fun f acc =>
        do rest <- acc; do pades <- averaged_pades z_out z_in f k;
        Ok ((repeat true (Z.to_nat (kind_len k)), pades) :: rest)) (Ok []) fct_z;
  average_nd cols.
End Avg.

(** ** Filters (pade.py:122-252)

    Floating point numbers are rationals, so comparisons are modelled exactly over [Q]; arithmetic
    is exact instead of rounded; NaN is not modelled.  An approximant is the list of its values
    (re, im) on the validation grid. *)
Local Open Scope Q_scope.
Definition cQ := (Q * Q)%type.
Definition Qltb (x y : Q) : bool := negb (Qle_bool y x).

(** FilterNegImag, pade.py:147: [np.all(pade.imag < threshold, axis=-1)]. *)
Definition filter_neg_imag (threshold : Q) (pades : list (list cQ)) : list bool :=
  map (fun pade => forallb (fun v => Qltb (snd v) threshold) pade) pades.

(** [np.max] of a non-empty list. *)
Fixpoint qmax (l : list Q) : option Q :=
  match l with
  | [] => None
  | x :: l' => match qmax l' with None => Some x | Some m => Some (if Qle_bool x m then m else x) end
  end.

(** The number argument of the two numbered filters: exactly one of abs_num, rel_num is given. *)
Inductive num_arg := AbsNum (n : Z) | RelNum (q : Q).

Fixpoint map_result {A B} (f : A -> result B) (l : list A) : result (list B) :=
  match l with
  | [] => Ok []
  | x :: l' => do y <- f x; do r <- map_result f l'; Ok (y :: r)
  end.

Section Filters.
(** np.argsort: some permutation sorting its argument (its tie breaking is unspecified). *)
Variable argsort : list Q -> list nat.

(** FilterNegImagNum, pade.py:171-187. *)
Definition filter_neg_imag_num (num : num_arg) (pades : list (list cQ)) : result (list bool) :=
  do badness <- map_result (fun pade => match qmax (map snd pade) with
                                        | Some m => Ok m | None => Err ValueError end) pades;
  let N := length badness in
  let skip := match num with
              | AbsNum n => (Z.of_nat N <=? n)%Z
              | RelNum q => Qle_bool (inject_Z (Z.of_nat N)) (q * inject_Z (Z.of_nat N)) end in
  if skip then Ok (repeat true N)
  else match num with
  | RelNum _ => Err TypeError      (* line 180 slices with a float *)
  | AbsNum n =>
      let keep := py_take n (argsort badness) in
      let is_valid := set_at keep true (repeat false N) in
      let is_valid := map (fun vb => (fst vb || Qle_bool (snd vb) 0)%bool) (combine is_valid badness) in
      if (Z.of_nat (length (filter (fun b => b) is_valid)) <? n)%Z then Err AssertionError
      else Ok is_valid
  end.

(** Vector arithmetic on approximants. *)
Definition cscale (n : Q) (v : cQ) : cQ := (n * fst v, n * snd v).
Definition csub (v w : cQ) : cQ := (fst v - fst w, snd v - snd w).
Definition cadd (v w : cQ) : cQ := (fst v + fst w, snd v + snd w).
Definition vzip (f : cQ -> cQ -> cQ) (v w : list cQ) : list cQ := map (fun p => f (fst p) (snd p)) (combine v w).
Definition cnorm2 (v : cQ) : Q := fst v * fst v + snd v * snd v.
Definition qsum (l : list Q) : Q := fold_right Qplus 0 l.
Fixpoint vsum (nz : nat) (l : list (list cQ)) : list cQ :=
  match l with [] => repeat (0, 0) nz | v :: l' => vzip cadd v (vsum nz l') end.

(** distance of every approximant from the running mean times nn, pade.py:236-237. *)
Definition distances (nn : nat) (pade : list (list cQ)) (pade_sum : list cQ) : list Q :=
  map (fun v => Qred (qsum (map cnorm2 (vzip csub (map (cscale (inject_Z (Z.of_nat nn))) v) pade_sum)))) pade.

(** The loop of pade.py:235-241 for nn, nn-1, ..., abs_num+1 ([steps] passes); returns the last
    [badness] (None if the loop never ran) and [bad].  *)
Fixpoint hv_loop (steps nn : nat) (pade : list (list cQ)) (pade_sum : list cQ)
         (badness : option (list nat)) (bad : list nat) : result (option (list nat) * list nat) :=
  match steps with
  | O => Ok (badness, bad)
  | S steps' =>
      let badness := rev (argsort (distances nn pade pade_sum)) in
      match filter (fun i => negb (existsb (Nat.eqb i) bad)) badness with
      | [] => Err IndexError
      | newbad :: _ =>
          hv_loop steps' (nn - 1) pade (vzip csub pade_sum (nth newbad pade []))
                  (Some badness) (bad ++ [newbad])
      end
  end.

(** FilterHighVariance, pade.py:206-250; [nz] is the number of validation points.
    Returns the mask together with the list [bad] of iteratively removed approximants. *)
Definition filter_high_variance (num : num_arg) (nz : nat) (pades : list (list cQ))
  : result (list bool * list nat) :=
  if match num with AbsNum n => (0 <? n)%Z | RelNum q => Qltb 0 q && Qltb q 1 end then
    let N := length pades in
    let abs_num := match num with AbsNum n => n | RelNum q => Qfloor (q * inject_Z (Z.of_nat N)) end in
    do r <- hv_loop (N - Z.to_nat abs_num) N pades (vsum nz pades) None [];
    match fst r with
    | None => Ok (repeat true N, snd r)
    | Some badness =>
        (* badness[:-abs_num]; for abs_num = 0 this is badness[:0] *)
        let drop := py_take (- abs_num) badness in
        Ok (set_at drop false (repeat true N), snd r)
    end
  else Err AssertionError.
End Filters.

(** ** apply_filter (pade.py:632-667), one item (no further axes).

    A filter maps the remaining approximants to a mask or raises.  With exactly one filter its mask
    is returned directly (650-651), without the emptiness check. *)
Section Apply.
Context {A : Type}.
Definition filt := list A -> result (list bool).

(** [i_valid[i_valid] = new] : overwrite the true entries in order. *)
Fixpoint mask_assign (mask new : list bool) : result (list bool) :=
  match mask with
  | [] => match new with [] => Ok [] | _ => Err ValueError end
  | true :: m => match new with b :: n => do r <- mask_assign m n; Ok (b :: r) | [] => Err ValueError end
  | false :: m => do r <- mask_assign m new; Ok (false :: r)
  end.

Fixpoint apply_loop (filters : list filt) (validity : list A) (mask : list bool) : result (list bool) :=
  match filters with
  | [] => Ok mask
  | f :: fs =>
      do new <- f (select mask validity);
      do mask <- mask_assign mask new;
      if existsb (fun b => b) mask then apply_loop fs validity mask else Err RuntimeError
  end.

Definition apply_filter (filters : list filt) (validity : list A) : result (list bool) :=
  match filters with
  | [f] => f validity
  | _ => apply_loop filters validity (repeat true (length validity))
  end.
End Apply.
