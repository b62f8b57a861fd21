(** * Model of number_poles, gftool/polepade.py:204-254 *)
From Coq Require Import ZArith Bool.
From Verif Require Import Base.
Local Open Scope Z_scope.

Section NPoles.
(** [nd n] is the numerically determined dimension of the null space for [n] poles (lines 223-236: QR, SVD and
    count_nonzero); the data z, fct_z, weight and the degree do not change during the loop. *)
Variable nd : Z -> Z.
(** The loop, lines 223-254; [fuel] bounds the iterations of [while True].  The flag records whether the warning was
    emitted.  A negative number of poles makes polyvander or the access singular_values[0] fail: error value. *)
Fixpoint np_loop (fuel : nat) (degree abs_max_n_poles max_n_poles n_poles : Z) : result (Z * bool) :=
  match fuel with
  | O => Err OutOfFuel
  | S fuel =>
      if n_poles <? 0 then Err ValueError
      else
        let null_dim := nd n_poles in
        if null_dim =? 1 then Ok (n_poles, false)
        else if null_dim =? 0 then
          if n_poles =? abs_max_n_poles then Err RuntimeError
          else if n_poles =? max_n_poles then Ok (n_poles, true)
          else np_loop fuel degree abs_max_n_poles max_n_poles (Z.min (2 * n_poles) max_n_poles)
        else np_loop fuel degree abs_max_n_poles (n_poles - 1) (n_poles - (null_dim - degree) / 2)
  end.

End NPoles.

(** Number of columns of a slice [..., :k] of an array with [c] columns, negative k counts from the end. *)
Definition slice_cols (c k : Z) : Z := if k <? 0 then Z.max 0 (c + k) else Z.min c k.
(** Number of columns of mat, lines 224-233: denom has n_poles+1 columns, numer the slice up to n_zeros+1 of the
    Vandermonde matrix with max(n_poles, n_zeros)+2 columns (reduced QR keeps the number of columns as long as it does
    not exceed the number of points). *)
Definition mat_cols (degree n_poles : Z) : Z :=
  let n_zeros := n_poles + degree in
  let c := Z.max n_poles n_zeros + 2 in
  slice_cols c (n_poles + 1) + slice_cols c (n_zeros + 1).

Section Top.
(** [rank n]: number of singular values of mat (z.size rows) for [n] poles which are not below the tolerance,
    line 235 counts the others.  The SVD returns min(rows, columns) singular values. *)
Variable rank : Z -> Z.
Definition null_dim (size degree n_poles : Z) : Z := Z.min size (mat_cols degree n_poles) - rank n_poles.

(** number_poles, lines 204-254; [size] is z.size *)
Definition number_poles (fuel : nat) (size degree : Z) (n_poles0 : option Z) : result (Z * bool) :=
  let max_n_poles := (size - degree) / 2 in
  do n_poles <- match n_poles0 with
                | None => Ok (Z.min max_n_poles 50)
                | Some n => if max_n_poles <? n then Err ValueError else Ok n
                end;
  if 2 * n_poles + degree <? size then np_loop (null_dim size degree) fuel degree max_n_poles max_n_poles n_poles
  else Err AssertionError.
End Top.
