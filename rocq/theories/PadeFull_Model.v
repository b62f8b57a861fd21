(** * Model of gftool/pade.py: averaged (668-735) and avg_no_neg_imag (738-762) for one function and all output points *)
From Coq Require Import Reals List ZArith.
From Coquelicot Require Import Coquelicot.
From Verif Require Import Base CBase Pade_Model PadeAvg_Model PadeMod_Model.
Import ListNotations.
Local Open Scope C_scope.

(** calc_iterator for an array z_out, lines 351-403: the rows are what is yielded, a non-finite value is NaN *)
Definition calc_rows (z_out z_in : list C) (coeff : list (option C)) : result (list row) :=
  if negb (length coeff =? length z_in)%nat then Err AssertionError
  else match coeff with
  | [] => Err ValueError
  | _ => do cols <- all_ok (fun z => calc_iterator (K := CF) z z_in coeff) z_out;
         Ok (map (fun k => map (fun c => nth k c None) cols) (seq 0 (length coeff - 1)))
  end.
(** FilterNegImag, line 147, with NaN: a comparison with NaN is False *)
Definition neg_imag (threshold : R) (pades : list row) : list bool :=
  map (fun pade => forallb (fun v => match v with Some x => if Rlt_dec (snd x) threshold then true else false | None => false end) pade) pades.

(** exactly one of the keywords fct_z, coeff *)
Inductive given := FctZ (fct_z : list C) | Coeff (coeff : list (option C)).
(** lines 717-718 *)
Definition given_coeff (z_in : list C) (n : nat) (g : given) : result (list (option C)) :=
  match g with FctZ f => coefficients (K := CF) z_in (firstn n f) | Coeff c => Ok (firstn n c) end.
(** averaged; [filters] is None or the tuple of filters (lines 724-728) *)
Definition averaged (z_out z_in : list C) (valid_z : option (list C)) (g : given) (filters : option (list (list row -> result (list bool)))) (k : kind)
  : result (list (option C * option C)) :=
  let n := Z.to_nat (k_stop k) in
  let z_in := firstn n z_in in
  do coeff <- given_coeff z_in n g;
  let valid_z := match valid_z with Some z => z | None => z_out end in
  do is_valid <- match filters with
    | Some fs => do it <- calc_rows valid_z z_in coeff; apply_filter fs (islice k it)
    | None => Ok (repeat true (Z.to_nat (kind_len k)))
    end;
  do it <- calc_rows z_out z_in coeff;
  average is_valid (islice k it).
(** avg_no_neg_imag, lines 760-762 *)
Definition avg_no_neg_imag (z_out z_in : list C) (valid_z : option (list C)) (g : given) (threshold : R) (k : kind) :=
  averaged z_out z_in valid_z g (Some [fun pades => Ok (neg_imag threshold pades)]) k.
