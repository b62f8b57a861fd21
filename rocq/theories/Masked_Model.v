(** * Model of gftool/pade.py: masked_coefficients (lines 304-349)

    One 1-D item; [np.vectorize] handles leading axes item by item and raises ValueError for different lengths.  Numbers are
    exact complex numbers (the calculation in quad precision and the rounding of the literal 1e-4 are not modelled), an entry
    which was set to [np.inf] is [None].  A division by zero, which needs two equal points in [z], ends the model with
    [NonFinite]; python would go on with non-finite numbers.  [mask[jj]] is always True where it is read (line 335), since only
    entries which the loop has passed are set to False. *)
From Coq Require Import Reals List.
From Coquelicot Require Import Coquelicot.
From Verif Require Import Base CBase Lattice_Model.
Import ListNotations.
Local Open Scope C_scope.

(** line 314 *)
Definition cutoff : R := (1 / 10000)%R.
Definition entry : Type := option C.
(** signi_diff, lines 322-324; the difference to an infinite element is infinite *)
Definition signi_diff (last : C) (e : entry) : bool :=
  match e with Some x => if Rlt_dec cutoff (Cmod (last - x)) then true else false | None => true end.
(** comparable_mag, lines 326-328 *)
Definition comparable_mag (last : C) (e : entry) : bool :=
  match e with
  | Some x => if Rlt_dec (Cmod x) (Cmod last / cutoff) then if Rlt_dec (Cmod last * cutoff) (Cmod x) then true else false else false
  | None => false
  end.
(** (last_coeff/x - 1.)/(z - z[last_it]), lines 333 and 338 *)
Definition regular (zl last z x : C) : result C := do q <- cdiv last x; cdiv (q - 1) (z - zl).
(** abs(last_coeff) < abs(x)*cutoff, line 339; true for infinite x *)
Definition tiny_quotient (last : C) (e : entry) : bool :=
  match e with Some x => if Rlt_dec (Cmod last) (Cmod x * cutoff) then true else false | None => true end.
(** lines 337-342 *)
Definition update1 (zl last z : C) (e : entry) : result entry :=
  if comparable_mag last e then match e with Some x => do v <- regular zl last z x; Ok (Some v) | None => Ok None end
  else if tiny_quotient last e then do v <- cdiv (- (1)) (z - zl); Ok (Some v)
  else Ok None.
(** lines 334-342: the new row at the points after ii *)
Fixpoint update (zl last : C) (zs : list C) (row : list entry) : result (list entry) :=
  match zs, row with
  | z :: zs, e :: row => do v <- update1 zl last z e; do r <- update zl last zs row; Ok (v :: r)
  | _, _ => Ok []
  end.
(** the loop, lines 330-346: [zl] = z[last_it], [last] = last_coeff, [zs] = z[ii:], [row] = mat[last_it, ii:]; the result is the
    diagonal from ii on, where the rows of eliminated points are zero *)
Fixpoint masked_loop (zl last : C) (zs : list C) (row : list entry) : result (list C) :=
  match zs, row with
  | z :: zs, e :: row =>
      if andb (signi_diff last e) (comparable_mag last e) then
        match e with
        | Some x =>
            do a <- regular zl last z x;
            do r <- update zl last zs row;
            do cs <- masked_loop z a zs r;
            Ok (a :: cs)
        | None => Ok [] (* not reached: comparable_mag *)
        end
      else do cs <- masked_loop zl last zs row; Ok (RtoC 0 :: cs)
  | _, _ => Ok []
  end.
Definition masked_coefficients (z fct_z : list C) : result (list C) :=
  if negb (length z =? length fct_z)%nat then Err ValueError
  else match z, fct_z with
  | z0 :: zs, f0 :: fs =>
      (* line 317 *)
      if Rlt_dec cutoff (Cmod f0) then do cs <- masked_loop z0 f0 zs (map Some fs); Ok (f0 :: cs) else Err AssertionError
  | _, _ => Err IndexError
  end.
