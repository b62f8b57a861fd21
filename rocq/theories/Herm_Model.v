(** * Model of gftool/hermpade.py (Padé and square Hermite-Padé approximants) *)
From Coq Require Import List Arith ZArith QArith Lia Bool.
From Verif Require Import Base.
Import ListNotations.

Section Herm.
Context {K : Fld}.
Local Open Scope fld_scope.

(** scipy.linalg.toeplitz(c, r): first column [c], first row [r] ([r[0]] ignored). *)
Definition toeplitz (c r : list K) : list (list K) :=
  map (fun i => map (fun j => if (j <=? i)%nat then nth (i - j) c 0 else nth (j - i) r 0)
                    (seq 0 (length r)))
      (seq 0 (length c)).

(** matrix @ vector, matrix @ matrix *)
Definition dot (u v : list K) : K := lsum (map (fun p => fst p * snd p) (combine u v)).
Definition matvec (A : list (list K)) (v : list K) : list K := map (fun row => dot row v) A.
(** column [j] of a matrix given by rows *)
Definition col (A : list (list K)) (j : nat) : list K := map (fun row => nth j row 0) A.
Definition matmul (A B : list (list K)) (ncolB : nat) : list (list K) :=
  map (fun row => map (fun j => dot row (col B j)) (seq 0 ncolB)) A.
(** A[:, :n] *)
Definition cols_to (n : nat) (A : list (list K)) : list (list K) := map (firstn n) A.
(** np.concatenate((A, B), axis=-1) *)
Definition hcat (A B : list (list K)) : list (list K) := map (fun p => fst p ++ snd p) (combine A B).

(** Oracles: null vector by QR (_nullvec, hermpade.py:281-296), Toeplitz solver
    (scipy.linalg.solve_toeplitz; may raise), least squares (np.linalg.lstsq, vector only). *)
Variable nullvec : list (list K) -> list K.
Variable solve : list (list K) -> list K -> result (list K).
Variable lstsq : list (list K) -> list K -> list K.

(** first row of the system for q, hermpade.py:402, 457 *)
Definition pade_top (an : list K) (num_deg den_deg : nat) : list K :=
  firstn (den_deg + 1) (rev (firstn (num_deg + 2) an)) ++ repeat 0 (den_deg - num_deg - 1).

(** pade, hermpade.py:337-412; degrees are non-negative ints.  A RatPol is the pair of coefficient
    lists (numerator, denominator), lowest order first. *)
Definition pade (an : list K) (num_deg den_deg : nat) (fast : bool) : result (list K * list K) :=
  let l_max := (num_deg + den_deg + 1)%nat in
  if (length an <? l_max)%nat then Err ValueError
  else
    let an := firstn l_max an in
    if (den_deg =? 0)%nat then Ok (an, [1])
    else
      let top := pade_top an num_deg den_deg in
      do qcoeff <-
        (if fast then
           do x <- solve (toeplitz (skipn (num_deg + 1) an) (removelast top)) (map Fopp (rev (tl top)));
           Ok (x ++ [1])
         else Ok (nullvec (toeplitz (skipn (num_deg + 1) an) top)));
      if negb (length qcoeff =? den_deg + 1)%nat then Err AssertionError
      else Ok (matvec (toeplitz (firstn (num_deg + 1) an) (repeat 0 (den_deg + 1))) qcoeff, qcoeff).

(** _nullvec_lst, hermpade.py:325-334; [ncol] is mat.shape[-1].  Simplification: a [fix] below
    [-ncol] (an index numpy would wrap twice or reject) is always rejected. *)
Definition nullvec_lst (mat : list (list K)) (ncol : nat) (fix_ : Z) : result (list K) :=
  let f := if (fix_ <? 0)%Z then (Z.of_nat ncol + fix_)%Z else fix_ in
  if (Z.of_nat ncol <=? f)%Z then Err ValueError
  else if (f <? 0)%Z then Err IndexError
  else
    let f := Z.to_nat f in
    let rest := map (fun row => firstn f row ++ skipn (f + 1) row) mat in
    let vec := lstsq rest (map (fun row => - nth f row 0) mat) in
    Ok (firstn f vec ++ 1 :: skipn f vec).

(** pade_lstsq, hermpade.py:415-466.  [fix_q] only selects whether an SVD is computed (460-463);
    the value is never used: line 464 passes fix=0. *)
Definition pade_lstsq (an : list K) (num_deg den_deg : nat) (fix_q : option Z) : result (list K * list K) :=
  let l_max := (num_deg + den_deg + 1)%nat in
  if (length an <? l_max)%nat then Err ValueError
  else if (den_deg =? 0)%nat then Ok (an, [1])
  else
    let top := pade_top an num_deg den_deg in
    let amat := toeplitz (skipn (num_deg + 1) an) top in
    do qcoeff <- nullvec_lst amat (length top) 0%Z;
    if negb (length qcoeff =? den_deg + 1)%nat then Err AssertionError
    else Ok (matvec (toeplitz (firstn (num_deg + 1) an) (repeat 0 (den_deg + 1))) qcoeff, qcoeff).

(** hermite2, hermpade.py:570-638: (p, q, r) *)
Definition hermite2 (an : list K) (p_deg q_deg r_deg : nat) : result (list K * list K * list K) :=
  let l_max := (r_deg + q_deg + p_deg + 2)%nat in
  if (length an <? l_max)%nat then Err ValueError
  else
    let an := firstn l_max an in
    let full_amat := toeplitz an (repeat 0 (length an)) in
    let amat2 := matmul full_amat (cols_to (r_deg + 1) full_amat) (r_deg + 1) in
    let amat := cols_to (q_deg + 1) full_amat in
    let lower := hcat (skipn (p_deg + 1) amat) (skipn (p_deg + 1) amat2) in
    let qrcoeff := nullvec lower in
    if negb (length qrcoeff =? r_deg + q_deg + 2)%nat then Err AssertionError
    else
      let upper := hcat (firstn (p_deg + 1) amat) (firstn (p_deg + 1) amat2) in
      Ok (map Fopp (matvec upper qrcoeff), firstn (q_deg + 1) qrcoeff, skipn (q_deg + 1) qrcoeff).

(** hermite2_lstsq, hermpade.py:688-714.  [svd_fix] stands for the heuristic choice by SVD
    (lines 702-706: an index below the number of columns). *)
Variable svd_fix : list (list K) -> nat.
Definition hermite2_lstsq (an : list K) (p_deg q_deg r_deg : nat) (fix_qr : option Z)
  : result (list K * list K * list K) :=
  if (length an <? r_deg + q_deg + p_deg + 2)%nat then Err ValueError
  else if forallb (fun a => feqb a 0) an
  then Ok (repeat 0 (p_deg + 1), repeat 0 (q_deg + 1), 1 :: repeat 0 r_deg)
  else
    let full_amat := toeplitz an (repeat 0 (length an)) in
    let amat2 := matmul full_amat (cols_to (r_deg + 1) full_amat) (r_deg + 1) in
    let amat := cols_to (q_deg + 1) full_amat in
    let lower := hcat (skipn (p_deg + 1) amat) (skipn (p_deg + 1) amat2) in
    let fix_ := match fix_qr with None => Z.of_nat (svd_fix lower) | Some f => f end in
    do qrcoeff <- nullvec_lst lower (q_deg + 1 + (r_deg + 1)) fix_;
    if negb (length qrcoeff =? r_deg + q_deg + 2)%nat then Err AssertionError
    else
      let upper := hcat (firstn (p_deg + 1) amat) (firstn (p_deg + 1) amat2) in
      Ok (map Fopp (matvec upper qrcoeff), firstn (q_deg + 1) qrcoeff, skipn (q_deg + 1) qrcoeff).

(** Hermite2.from_taylor, hermpade.py:828-836 (from_taylor_lstsq, 838-849, computes the same degrees):
    degrees (num_deg, den_deg) of the guiding Padé approximant.  [int(np.sqrt(n))] is the integer
    square root; [//] is floor division. *)
Definition guide_degrees (deg_p deg_q deg_r : nat) : Z * Z :=
  let deg_diff := (Z.max (Z.of_nat deg_q) (Z.sqrt (Z.of_nat deg_p * Z.of_nat deg_r)) - Z.of_nat deg_r)%Z in
  let len := (Z.of_nat deg_r + Z.of_nat deg_q + Z.of_nat deg_p)%Z in
  let den_deg := ((len - deg_diff) / 2)%Z in
  ((den_deg + deg_diff)%Z, den_deg).
Definition from_taylor (an : list K) (deg_p deg_q deg_r : nat)
  : result (list K * list K * list K * (list K * list K)) :=
  do pqr <- hermite2 an deg_p deg_q deg_r;
  let '(num_deg, den_deg) := guide_degrees deg_p deg_q deg_r in
  if ((num_deg <? 0) || (den_deg <? 0))%Z then Err ValueError   (* negative degrees: not a valid request *)
  else do pq <- pade an (Z.to_nat num_deg) (Z.to_nat den_deg) false; Ok (pqr, pq).

(** _strip_ceoffs, hermpade.py:268-278.  np.argmax of an empty array raises ValueError, of an
    all-False array is 0. *)
Definition argmax_nonzero (l : list K) : result nat :=
  match l with
  | [] => Err ValueError
  | _ => Ok (match find (fun i => negb (feqb (nth i l 0) 0)) (seq 0 (length l)) with Some i => i | None => 0%nat end)
  end.
Definition strip_coeffs (pcoeff qcoeff : list K) : result (list K * list K) :=
  do leading <- argmax_nonzero qcoeff;
  let pcoeff := skipn leading pcoeff in let qcoeff := skipn leading qcoeff in
  do tq <- argmax_nonzero (rev qcoeff);
  let qcoeff := if (tq =? 0)%nat then qcoeff else firstn (length qcoeff - tq) qcoeff in
  do tp <- argmax_nonzero (rev pcoeff);
  let pcoeff := if (tp =? 0)%nat then pcoeff else firstn (length pcoeff - tp) pcoeff in
  Ok (pcoeff, qcoeff).

(** pader, hermpade.py:469-567.  Oracles: [small an x] decides [abs(x) <= rcond*norm(an)] (line 538-539),
    [rank amat] is [np.count_nonzero(s > rcond*s[0])] (line 554).  [fuel] bounds the while loop
    (den_deg decreases); [num_deg] may become negative in line 557, where the numpy code continues with
    an empty slice: modelled as the ValueError that follows in _strip_ceoffs. *)
Variable small : list K -> K -> bool.
Variable rank : list (list K) -> nat.

Fixpoint pader_loop (fuel : nat) (an0 an : list K) (row : list K) (num_deg : Z) (den_deg : nat)
  : result (list K * list K) :=
  match fuel with
  | O => Err OutOfFuel
  | S fuel =>
      if (den_deg =? 0)%nat then Ok (firstn den_deg an, [1])       (* line 546: an[:den_deg] *)
      else if (num_deg <? 0)%Z then Err ValueError
      else
        let num := Z.to_nat num_deg in
        let amat := toeplitz (firstn (num + den_deg + 1) an0) (firstn (den_deg + 1) row) in
        let amat := firstn den_deg (skipn (num + 1) amat) in
        let rho := rank amat in
        if (rho <? den_deg)%nat
        then let num_deg' := (num_deg - (Z.of_nat den_deg - Z.of_nat rho))%Z in
             pader_loop fuel an0 (firstn (Z.to_nat (num_deg' + Z.of_nat rho + 1)) an) row num_deg' rho
        else
          let qcoeff := nullvec amat in
          if negb (length qcoeff =? den_deg + 1)%nat then Err AssertionError
          else Ok (matvec (toeplitz (firstn (num + 1) an) (repeat 0 (den_deg + 1))) qcoeff, qcoeff)
  end.

Definition pader (an : list K) (num_deg den_deg : nat) : result (list K * list K) :=
  let l_max := (num_deg + den_deg + 1)%nat in
  if (length an <? l_max)%nat then Err ValueError
  else
    let an := firstn l_max an in
    if forallb (small an) (firstn num_deg an) then Ok ([0], [1])
    else
      let row := nth 0 an 0 :: repeat 0 den_deg in
      do pq <- pader_loop (S den_deg) an an row (Z.of_nat num_deg) den_deg;
      strip_coeffs (fst pq) (snd pq).
End Herm.
