(** * Model of gftool/pade.py: Averager (406-503) and Mod_Averager (506-630) with all output points and the error

    An approximant is the row of its values at the output points.  A value is a complex number or NaN ([None]; a value of which
    only one part is NaN is not distinguished).  [mod_fct] acts on the row of one approximant; for [vectorized=True] it has to
    broadcast over the leading axes, so that both settings give the same array. *)
From Coq Require Import Reals List.
From Coquelicot Require Import Coquelicot.
From Verif Require Import Base CBase.
Import ListNotations.
Local Open Scope C_scope.

Notation row := (list (option C)).
(** _contains_nan for one row *)
Definition has_nan (p : row) : bool := existsb (fun v => match v with None => true | Some _ => false end) p.
(** NaN entries dropped *)
Definition nonan {A} (l : list (option A)) : list A := flat_map (fun v => match v with Some x => [x] | None => [] end) l.
Definition csum (l : list C) : C := fold_right Cplus 0 l.
Definition rsum (l : list R) : R := fold_right Rplus 0%R l.
(** np.nanmean along the first axis, for one column *)
Definition nanmean (l : list (option C)) : option C :=
  match nonan l with [] => None | v => Some (csum v / RtoC (INR (length v))) end.
(** np.nanstd(ddof=1), line 37, for a column without NaN; NaN for fewer than two entries *)
Definition std1 (v : list R) : option R :=
  match v with
  | [] | [_] => None
  | _ => let n := INR (length v) in
         let mu := (rsum v / n)%R in
         Some (sqrt (rsum (map (fun x => ((x - mu) * (x - mu))%R) v) / (n - 1)))
  end.
(** _nan_std(pades.real) + 1j*_nan_std(pades.imag), lines 500 and 623; for real values (line 625) the imaginary part is zero *)
Definition nan_std (l : list (option C)) : option C :=
  match std1 (map fst (nonan l)), std1 (map snd (nonan l)) with Some s, Some t => Some (s, t) | _, _ => None end.
Definition column (j : nat) (rows : list row) : list (option C) := map (fun r => nth j r None) rows.
(** Result(x, err) for every output point; a mean over no row is NaN (reported as [NonFinite]) *)
Definition mean_err (rows : list row) : result (list (option C * option C)) :=
  match rows with
  | [] => Err NonFinite
  | r :: _ => Ok (map (fun j => (nanmean (column j rows), nan_std (column j rows))) (seq 0 (length r)))
  end.
(** the rows which are averaged, 1-D mask, lines 483-488 and 602-607 *)
Definition rows_1d (valid : list bool) (pades : list row) : result (list row) :=
  if negb (existsb (fun b => b) valid) then Err RuntimeError
  else let kept := map fst (filter snd (combine pades valid)) in
       if existsb has_nan kept then Err RuntimeError else Ok kept.
(** mask with further axes, lines 490-497 and 609-614: [cols] are the mask and the approximants for every index of those axes;
    invalid rows are overwritten with NaN *)
Definition masked_rows (valid : list bool) (pades : list row) : list row :=
  map (fun pb : row * bool => if snd pb then fst pb else map (fun _ => None) (fst pb)) (combine pades valid).
Definition rows_nd (cols : list (list bool * list row)) : result (list (list row)) :=
  if existsb (fun c => negb (existsb (fun b => b) (fst c))) cols then Err RuntimeError
  else if existsb (fun c => existsb has_nan (snd c)) cols then Err RuntimeError
  else if existsb (fun c => negb (length (fst c) =? length (snd c))%nat) cols then Err IndexError
  else Ok (map (fun c => masked_rows (fst c) (snd c)) cols).
Fixpoint all_ok {A B} (f : A -> result B) (l : list A) : result (list B) :=
  match l with [] => Ok [] | x :: l => do y <- f x; do r <- all_ok f l; Ok (y :: r) end.
(** Averager, lines 447-503 *)
Definition average (valid : list bool) (pades : list row) : result (list (option C * option C)) :=
  do rows <- rows_1d valid pades; mean_err rows.
Definition average_nd (cols : list (list bool * list row)) : result (list (list (option C * option C))) :=
  do rs <- rows_nd cols; all_ok mean_err rs.
(** Mod_Averager, lines 565-630 *)
Definition mod_average (mod_fct : row -> row) (valid : list bool) (pades : list row) : result (list (option C * option C)) :=
  do rows <- rows_1d valid pades; mean_err (map mod_fct rows).
Definition mod_average_nd (mod_fct : row -> row) (cols : list (list bool * list row)) : result (list (list (option C * option C))) :=
  do rs <- rows_nd cols; all_ok (fun rows => mean_err (map mod_fct rows)) rs.
