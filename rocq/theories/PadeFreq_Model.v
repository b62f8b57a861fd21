(** * Model of _pade_frequencies and pade_frequencies, gftool/statistics.py:235-305

    Exact complex arithmetic.  [geig] is scipy.linalg.eig(a, b=b) (eigenvalues, columns of eigenvectors), [invO] np.linalg.inv. *)
From Coq Require Import List Arith ZArith Bool Reals.
From Coquelicot Require Import Coquelicot.
From Verif Require Import Base CBase Linalg_Model.
Import ListNotations.
Local Open Scope R_scope.

Section Pade.
  Variable geig : mat CF -> mat CF -> result (list CF * mat CF).
  Variable invO : mat CF -> result (mat CF).

  (** a = -np.diagflat(range(1, 2*num, 2)), line 238; the size is [m] = 2*num of the argument *)
  Definition mat_a (m : nat) : mat CF := Mat (K := CF) m m (fun i j => if (i =? j)%nat then RtoC (- (2 * INR i + 1)) else RtoC 0).
  (** b: 0.5 on the first off-diagonals, lines 239-241 *)
  Definition mat_b (m : nat) : mat CF := Mat (K := CF) m m (fun i j => if (i =? S j)%nat || (j =? S i)%nat then RtoC (1 / 2) else RtoC 0).

  (** np.argsort: complex numbers are ordered by their real part, then by their imaginary part.  Pairs are sorted instead of
      indexing with the permutation twice; equal keys keep their order (numpy: any order) *)
  Definition clt (x y : C) : bool :=
    if Rlt_dec (fst x) (fst y) then true else if Rlt_dec (fst y) (fst x) then false else if Rlt_dec (snd x) (snd y) then true else false.
  Fixpoint insert (p : C * C) (l : list (C * C)) : list (C * C) :=
    match l with [] => [p] | q :: r => if clt (fst q) (fst p) then q :: insert p r else p :: l end.
  Fixpoint sort (l : list (C * C)) : list (C * C) := match l with [] => [] | p :: r => insert p (sort r) end.

  (** np.allclose(a, b) for arrays of the same length, with the default tolerances *)
  Definition close (x y : C) : bool := if Rle_dec (Cmod (Cminus x y)) (1 / 100000000 + 1 / 100000 * Cmod y) then true else false.
  Definition allclose (l r : list C) : bool := forallb (fun p => close (fst p) (snd p)) (combine l r).
  (** np.iscomplex *)
  Definition iscomplex (x : C) : bool := if Req_EM_T (snd x) 0 then false else true.

  (** lines 237-249; without frequencies v[0] is out of bounds *)
  Definition pade_frequencies0 (num : nat) : result (list C * list R) :=
    let m := (2 * num)%nat in
    do ev <- geig (mat_a m) (mat_b m);
    let (e, v) := (ev : list CF * mat CF) in
    if (nr v =? 0)%nat then Err IndexError
    else
      do vi <- invO v;
      let res := map (fun p => Cmult (Cmult (Cmult (RtoC (1 / 4)) (me v 0 p)) (me vi p 0)) (Cmult (nth p e (RtoC 0)) (nth p e (RtoC 0)))) (seq 0 m) in
      let s := sort (combine e res) in
      let izp := map (fun p => Cmult Ci (fst p)) s in
      let resids := map snd s in
      let h := (m / 2)%nat in
      if negb (allclose (map Copp (rev (firstn h izp))) (skipn h izp)) then Err AssertionError
      else if negb (allclose (rev (firstn h resids)) (skipn h resids)) then Err AssertionError
      else if existsb iscomplex resids then Err AssertionError
      else Ok (skipn h izp, skipn h (map fst resids)).
  (** lines 304-305 *)
  Definition pade_frequencies (num : nat) (beta : R) : result (list C * list R) :=
    do zr <- pade_frequencies0 num;
    if Req_EM_T beta 0 then Err ZeroDivisionError
    else Ok (map (fun z => Cmult (RtoC (1 / beta)) z) (fst zr), snd zr).
End Pade.
