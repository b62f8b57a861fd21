(** * Model of the deprecated functions of gftool/__init__.py: density, density_error, density_error2, check_convergence

    Arrays are lists over the Matsubara index; real arithmetic is exact; the deprecation warning is not modelled. *)
From Coq Require Import List Arith ZArith Bool String Reals.
From Coquelicot Require Import Coquelicot.
From Verif Require Import Base CBase CExp Stat_Model Linalg_Model Matrix_Model FourierMom_Model.
Import ListNotations.
Local Open Scope R_scope.

(** np.max of a list (0 for the empty one, which does not occur) *)
Definition lmax (l : list R) : R := match l with [] => 0 | x :: r => fold_right Rmax x r end.
(** density_error, __init__.py:510-518; [wn] is iw_n.imag.  iw_n and the last axis have the same length, otherwise ValueError *)
Definition density_error (delta wn : list R) (noisy : bool) : result R :=
  if (List.length delta =? List.length wn)%nat then
    let start := (List.length wn / 10)%nat in
    match skipn start wn with
    | [] => Err IndexError
    | w0 :: rest =>
        let part := w0 :: rest in
        let denominator := 1 / PI / last part 0 in
        let delta := if noisy then skipn start delta else skipn start (map Rabs delta) in
        let data := map (fun p => fst p * snd p ^ 2) (combine delta part) in
        let factor := if noisy then lsum (K := RF) data / INR (List.length data) else lmax data in
        Ok (factor * denominator)
    end
  else Err ValueError.
(** density_error2, __init__.py:547-552 *)
Definition density_error2 (delta wn : list R) : result R :=
  if (List.length delta =? List.length wn)%nat then
    let start := (List.length wn / 10)%nat in
    match skipn start wn with
    | [] => Err IndexError
    | w0 :: rest =>
        let part := w0 :: rest in
        let denominator := 1 / 2 * PI / last part 0 ^ 2 in
        let data := map (fun p => fst p * snd p ^ 3) (combine (skipn start (map Rabs delta)) part) in
        Ok (lmax data * denominator)
    end
  else Err ValueError.

(** the argument return_err: True, or a number (0 counts as False) *)
Inductive ret := RTrue | RTol (tol : R).
(** the return value, the error estimate if it is returned, and whether a warning is issued *)
Record dens := Dens { dens_x : R; dens_err : option R; dens_warn : bool }.
(** lines 467-477 for one item of the leading axes; [tail] are the real parts of the tail *)
Definition density_from (gf : list C) (tail : list R) (analytic beta : R) (return_err : ret) : result dens :=
  let delta := map (fun p => fst (fst p) - snd p) (combine gf tail) in
  let x := 2 * lsum (K := RF) delta / beta + analytic in
  let err := density_error delta (map snd (iw_grid beta (List.length gf))) true in
  match return_err with
  | RTrue => do e <- err; Ok (Dens x (Some e) false)
  | RTol tol => if Req_EM_T tol 0 then Ok (Dens x None false)
                else do e <- err; Ok (Dens x None (if Rlt_dec tol e then true else false))
  end.
Definition cinv_re (z : C) : R := fst (Cdiv 1 z).
(** density, __init__.py:448-477, matrix=False, total=False: one potential (numpy treats an array of them item by item) *)
Definition density (gf : list C) (potential beta : R) (return_err : ret) : result dens :=
  if Req_EM_T beta 0 then Err ZeroDivisionError
  else
    let iw := iw_grid beta (List.length gf) in
    density_from gf (map (fun w => cinv_re (Cplus (RtoC potential) w)) iw) (fermi_fct (- potential) beta) beta return_err.
(** matrix=False, total=True: a list of potentials, gf_iw is the trace *)
Definition density_total (gf : list C) (potentials : list R) (beta : R) (return_err : ret) : result dens :=
  if Req_EM_T beta 0 then Err ZeroDivisionError
  else
    let iw := iw_grid beta (List.length gf) in
    density_from gf (map (fun w => lsum (K := RF) (map (fun pot => cinv_re (Cplus (RtoC pot) w)) potentials)) iw)
      (lsum (K := RF) (map (fun pot => fermi_fct (- pot) beta) potentials)) beta return_err.

Section Mat.
  Variable eighO : mat CF -> result (list CF * mat CF).
  Variable close0 : CF -> bool.
  (** an item of dec.reconstruct(eig, kind="diag") *)
  Definition diag_of (d : decomposition CF) (e : list C) : result (list C) :=
    do r <- reconstruct (K := CF) (X := unit) (fun _ _ _ _ => tt) d (Some e) "diag";
    match r with RDiag l => Ok l | _ => Err TypeError end.
  Fixpoint mapR {A B} (f : A -> result B) (l : list A) : result (list B) :=
    match l with [] => Ok [] | a :: r => do b <- f a; do bs <- mapR f r; Ok (b :: bs) end.
  (** matrix=True, total=False, lines 452-457 and 467-469: gf has one list per diagonal element.  [cplx]: the eigenvectors
      are stored in a complex array; then [density += analytic] adds a complex array in place to a real one: TypeError.
      The error estimate is the one of [density_from] for every item, only the densities are modelled. *)
  Definition density_matrix (gf : list (list C)) (potential : mat CF) (beta : R) (cplx : bool) : result (list R) :=
    if Req_EM_T beta 0 then Err ZeroDivisionError
    else
      let N := List.length (hd [] gf) in
      let iw := iw_grid beta N in
      do dec <- decompose_her (K := CF) Cconj eighO close0 potential true;
      do tail <- mapR (fun w => diag_of dec (map (fun e => Cdiv 1 (Cplus w e)) (eig dec))) iw;
      do analytic <- diag_of dec (map (fun e => RtoC (fermi_fct (- fst e) beta)) (eig dec));
      if cplx then Err TypeError
      else Ok (map (fun i => 2 * nsum (K := RF) N (fun n => fst (nth n (nth i gf []) (RtoC 0)) - fst (nth i (nth n tail []) (RtoC 0))) / beta
                             + fst (nth i analytic (RtoC 0))) (seq 0 (List.length gf))).
  (** check_convergence, __init__.py:578-590, matrix=True, total=False: row i of np.add.outer(dec.eig, iw) is passed as list of
      eigenvalues, there is one row per eigenvalue; the result [tail] has the index pair (eigenvalue, diagonal element) and is
      subtracted from gf with index pair (diagonal element, frequency) *)
  Definition check_convergence_matrix (gf : list (list C)) (potential : mat CF) (beta : R) (order : nat) : result (list (list R)) :=
    if Req_EM_T beta 0 then Err ZeroDivisionError
    else
      let N := List.length (hd [] gf) in
      let iw := iw_grid beta N in
      do dec <- decompose_her (K := CF) Cconj eighO close0 potential true;
      do tail <- mapR (fun e => diag_of dec (map (fun w => Cdiv 1 (Cplus e w)) iw)) (eig dec);
      if forallb (fun l => List.length l =? N)%nat tail && (List.length tail =? List.length gf)%nat then
        Ok (map (fun i => map (fun n => snd (nth n iw (RtoC 0)) ^ order * (fst (nth n (nth i gf []) (RtoC 0)) - fst (nth n (nth i tail []) (RtoC 0)))) (seq 0 N)) (seq 0 (List.length gf)))
      else Err ValueError.
End Mat.
(** check_convergence, matrix=False, total=False *)
Definition check_convergence (gf : list C) (potential beta : R) (order : nat) : result (list R) :=
  if Req_EM_T beta 0 then Err ZeroDivisionError
  else
    let iw := iw_grid beta (List.length gf) in
    Ok (map (fun p => snd (snd p) ^ order * (fst (fst p) - cinv_re (Cplus (RtoC potential) (snd p)))) (combine gf iw)).
