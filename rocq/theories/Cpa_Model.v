(** * Model of gftool/cpa.py

    One frequency point is one element of a list; on-site energies and concentrations are given per point, i.e. after numpy's
    broadcasting.  A division by zero makes the whole call [NonFinite] (numpy would only spoil the entry). *)
From Coq Require Import List Arith Reals Bool.
From Coquelicot Require Import Coquelicot.
From Verif Require Import Base CBase.
Import ListNotations.

Fixpoint mapM {A B} (f : A -> result B) (l : list A) : result (list B) :=
  match l with
  | [] => Ok []
  | a :: r => do b <- f a; do bs <- mapM f r; Ok (b :: bs)
  end.

(** ** Arrays: shape and flattened (C order) data; [_join], cpa.py:46-49, and [_split], cpa.py:54-56 *)
Section Arr.
Context {X : Type}.
Record ndarray := Arr { shape : list nat; data : list X }.
Definition prod (sh : list nat) : nat := fold_right Nat.mul 1%nat sh.
Definition wf (a : ndarray) : Prop := length (data a) = prod (shape a).

Definition join (args : list ndarray) : result (list X * list (list nat)) :=
  match args with
  | [] => Err ValueError                              (* np.concatenate of nothing *)
  | _ => Ok (concat (map data args), map shape args)
  end.

(** np.prod(()) is the float 1.0, so the cumulated sizes are floats as soon as one of shapes[:-1] is (): slicing raises
    TypeError.  Slices outside of the array are empty; reshape checks the number of elements. *)
Definition reshape (l : list X) (sh : list nat) : result ndarray :=
  if (length l =? prod sh)%nat then Ok (Arr sh l) else Err ValueError.
Fixpoint cut (l : list X) (sizes : list nat) : list (list X) :=
  match sizes with
  | [] => [l]
  | s :: r => firstn s l :: cut (skipn s l) r
  end.
Definition is_scalar (sh : list nat) : bool := match sh with [] => true | _ => false end.
Definition split_arr (joined : list X) (shapes : list (list nat)) : result (list ndarray) :=
  if existsb is_scalar (removelast shapes) then Err TypeError
  else mapM (fun p => reshape (fst p) (snd p)) (combine (cut joined (map prod (removelast shapes))) shapes).
End Arr.
Arguments ndarray : clear implicits.

(** ** Single frequency *)
Section Point.
Context {K : Fld}.
Variable hilbert_trafo : K -> result K.
Local Open Scope fld_scope.

(** gf_cmpt_z, cpa.py:79-80 *)
Definition gf_cmpt_z (z self : K) (e_onsite : list K) : result (list K) :=
  do g <- hilbert_trafo (z - self);
  mapM (fun e => fdiv g (1 - (e - self) * g)) e_onsite.

(** self_root_eq, cpa.py:111-114 *)
Definition self_root_eq (self z : K) (e_onsite concentration : list K) : result K :=
  do g <- hilbert_trafo (z - self);
  if (length e_onsite =? length concentration)%nat then
    do t <- mapM (fun ec => fdiv (snd ec * (fst ec - self)) (1 - (fst ec - self) * g)) (combine e_onsite concentration);
    fdiv (lsum t) (1 + lsum t * g)
  else Err ValueError.

(** self_fxdpnt_eq, cpa.py:145-146 *)
Definition self_fxdpnt_eq (self z : K) (e_onsite concentration : list K) : result K :=
  do r <- self_root_eq self z e_onsite concentration; Ok (self + r).

(** the vectorised versions: one entry (z, on-site energies, concentrations) per frequency *)
Definition root_vec (pars : list (K * (list K * list K))) (selfs : list K) : result (list K) :=
  if (length pars =? length selfs)%nat then
    mapM (fun p => self_root_eq (snd p) (fst (fst p)) (fst (snd (fst p))) (snd (snd (fst p)))) (combine pars selfs)
  else Err ValueError.
Definition fxdpnt_vec (pars : list (K * (list K * list K))) (selfs : list K) : result (list K) :=
  do r <- root_vec pars selfs; Ok (map (fun p => fst p + snd p) (combine selfs r)).
End Point.

Section Complex.
Local Open Scope R_scope.
(** restrict_self_root_eq, cpa.py:149-162.  The argument array is modified in place: the second component is the array after
    the call.  [root] is self_root_eq with the remaining arguments. *)
Definition clip (s : C) : C := if Rlt_dec 0 (snd s) then (fst s, 0) else s.
Definition unphysical (s : C) : bool := if Rlt_dec 0 (snd s) then true else false.
Definition sign_ge0 (x : R) : R := if Rle_dec 0 x then 1 else -1.
Definition penalty (s r : C) : C :=
  if Rlt_dec 0 (snd s) then
    let d := snd s in
    let re := fst r * (1 + d) in
    let im := snd r * (1 + d) in
    (re + / 1000 * d * sign_ge0 re, im + / 1000 * d * sign_ge0 im)
  else r.
Definition restrict (root : list C -> result (list C)) (selfs : list C) : result (list C) * list C :=
  if existsb unphysical selfs then
    let selfs' := map clip selfs in
    (do r <- root selfs'; Ok (map (fun p => penalty (fst p) (snd p)) (combine selfs r)), selfs')
  else (root selfs, selfs).

(** the equation handed to the root finder (returning also the array after the call) *)
Definition root_eq_of (restricted : bool) (root : list C -> result (list C)) (x : list C) : result (list C) * list C :=
  if restricted then restrict root x else (root x, x).

Variable hilbert_trafo : C -> result C.
(** scipy.optimize.root: sol.x and sol.success, or an exception *)
Variable optimize_root : forall X, (list X -> result (list X) * list X) -> list X -> result (list X * bool).

(** solve_root, cpa.py:232-247 *)
Definition static_average (p : C * (list C * list C)) : C :=
  lsum (K := CF) (map (fun ec => Cmult (fst ec) (snd ec)) (combine (fst (snd p)) (snd (snd p)))).
Definition solve_root (pars : list (C * (list C * list C))) (self0 : option (list C)) (restricted : bool) : result (list C) :=
  let x0 := match self0 with None => map static_average pars | Some s => s end in
  do sol <- optimize_root C (root_eq_of restricted (root_vec (K := CF) hilbert_trafo pars)) x0;
  if snd sol then Ok (fst sol) else Err RuntimeError.

(** solve_fxdocc_root, cpa.py:365-417.  [density_iw] is gftool.density_iw (modelled in Pole_Model), [chempot] is
    chemical_potential (modelled in Density_Model for a total occupation function). *)
Variable density_iw : list C -> list C -> R -> list R -> list R -> nat -> result R.
Variable chempot : (R -> result R) -> R -> result R.
Definition shift_pars (iws : list C) (e_onsite conc : list (list C)) (mu : R) : list (C * (list C * list C)) :=
  combine iws (combine (map (map (fun e => Cminus e (RtoC mu))) e_onsite) conc).
Definition occ_diff (iws : list C) (beta : R) (weights : list R) (n_fit : nat) (occ : option R) (x : list C) : result R :=
  if (length x =? length iws)%nat then
    do gf <- mapM (fun p => hilbert_trafo (Cminus (fst p) (snd p))) (combine iws x);
    match x with
    | [] => Err IndexError                                 (* x[..., -1] *)
    | _ =>
      do o <- density_iw iws gf beta weights [1; fst (last x 0%C)] n_fit;
      match occ with None => Err TypeError | Some o' => Ok (o - o') end
    end
  else Err ValueError.
Definition fxdocc_root_eq (iws : list C) (e_onsite conc : list (list C)) (beta : R) (occ : option R) (weights : list R) (n_fit : nat)
  (restricted : bool) (shapes : list (list nat)) (x : list R) : result (list R) :=
  do parts <- split_arr x shapes;
  match parts with
  | [m; re; im] =>
      let mu := nth 0 (data m) 0 in
      let self := map (fun p => (fst p - mu, snd p)) (combine (data re) (data im)) in
      let (r, self') := root_eq_of restricted (root_vec (K := CF) hilbert_trafo (shift_pars iws e_onsite conc mu)) self in
      do r <- r;
      do d <- occ_diff iws beta weights n_fit occ self';
      Ok ((INR (length r) * d) :: map fst r ++ map snd r)
  | _ => Err ValueError
  end.
Definition solve_fxdocc_root (iws : list C) (e_onsite conc : list (list C)) (beta : R) (occ : option R)
  (self0 : option (list C)) (mu0 : R) (weights : list R) (n_fit : nat) (restricted : bool) : result (list C * R) :=
  let self0 := match self0 with
    | None => map (fun p => Cminus (static_average p) (RtoC mu0)) (combine iws (combine e_onsite conc))
    | Some s => s end in
  let nomu := map (fun s => Cplus s (RtoC mu0)) self0 in
  let od nomu mu := occ_diff iws beta weights n_fit occ (map (fun s => Cminus s (RtoC mu)) nomu) in
  do mu <- chempot (od nomu) mu0;
  do ata <- fxdpnt_vec (K := CF) hilbert_trafo (shift_pars iws e_onsite conc mu) (map (fun s => Cminus s (RtoC mu)) nomu);
  let nomu := map (fun s => Cplus s (RtoC mu)) ata in
  do mu <- chempot (od nomu) mu;
  let n := length nomu in
  do js <- join [Arr [1%nat] [mu]; Arr [n] (map fst nomu); Arr [n] (map snd nomu)];
  let (x0, shapes) := js in
  let eq x := (fxdocc_root_eq iws e_onsite conc beta occ weights n_fit restricted shapes x, x) in
  do sol <- optimize_root R eq x0;
  if snd sol then
    do parts <- split_arr (fst sol) shapes;
    match parts with
    | [m; re; im] =>
        match data m with
        | [mu] => Ok (map (fun p => (fst p - mu, snd p)) (combine (data re) (data im)), mu)
        | _ => Err ValueError
        end
    | _ => Err ValueError
    end
  else Err RuntimeError.
End Complex.
