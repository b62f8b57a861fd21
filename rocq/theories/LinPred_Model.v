(** * Model of gftool/linearprediction.py *)
From Coq Require Import List Arith ZArith Lia Bool Reals.
From Coquelicot Require Import Coquelicot.
From Verif Require Import Base CBase Herm_Model.
Import ListNotations.

Section LP.
Context {K : Fld}.
Local Open Scope fld_scope.

(** xtended[ii-order:ii] for the part filled so far *)
Definition lastn {A} (n : nat) (l : list A) : list A := skipn (length l - n) l.

(** Loop of predict, linearprediction.py:340-343 (1-D data): element [ii] is computed from the
    [order] elements before it.  Simplification: a coefficient vector longer than the filled part
    (numpy then slices from a negative index) is an error value. *)
Fixpoint predict_loop (num : nat) (pcoeff xs : list K) : result (list K) :=
  match num with
  | O => Ok xs
  | S n =>
      if (length xs <? length pcoeff)%nat then Err ValueError
      else predict_loop n pcoeff (xs ++ [- dot (rev pcoeff) (lastn (length pcoeff) xs)])
  end.

(** companion, linearprediction.py:153-169 (1-D): list of rows. *)
Definition companion (a : list K) : result (list (list K)) :=
  if (length a <? 2)%nat then Err ValueError
  else if feqb (nth 0 a 0) 0 then Err ValueError
  else
    let n := (length a - 1)%nat in
    let first_row := map (fun c => - c / nth 0 a 0) (tl a) in
    Ok (first_row :: map (fun i => map (fun j => if (j =? i)%nat then 1 else 0) (seq 0 n)) (seq 0 (n - 1))).

(** decompose_mat (gftool/matrix.py) is an oracle: eigenvalues, right eigenvectors (rows of the
    matrix rv), inverse. *)
Record decomp := { d_rv : list (list K); d_eig : list K; d_rv_inv : list (list K) }.
Variable decompose : list (list K) -> decomp.
(** [bad e] is [abs(e) > 1] *)
Variable bad : K -> bool.

Fixpoint stable_loop (num : nat) (eig residues xs : list K) : list K :=
  match num with
  | O => xs
  | S n => let residues := map (fun p => fst p * snd p) (combine residues eig) in
           stable_loop n eig residues (xs ++ [lsum residues])
  end.

(** _predict_stable, linearprediction.py:347-375 (1-D).  A vector [pcoeff] longer than [x] makes
    _gu_matvec fail: ValueError. *)
Definition predict_stable (x pcoeff : list K) (num : nat) : result (list K) :=
  let order := length pcoeff in
  do comp_mat <- companion (1 :: pcoeff);
  let dec := decompose comp_mat in
  if (length x <? order)%nat then Err ValueError
  else
    let right := matvec (d_rv_inv dec) (rev (lastn order x)) in
    let left := nth 0 (d_rv dec) [] in
    let residues := map (fun p => fst p * snd p) (combine left right) in
    let residues := map (fun p => if bad (snd p) then 0 else fst p) (combine residues (d_eig dec)) in
    Ok (stable_loop num (d_eig dec) residues x).

(** predict, linearprediction.py:332-344 (1-D) *)
Definition predict (x pcoeff : list K) (num : Z) (stable : bool) : result (list K) :=
  if (num <? 0)%Z then Err ValueError
  else if stable then predict_stable x pcoeff (Z.to_nat num)
  else predict_loop (Z.to_nat num) pcoeff x.

(** pcoeff_covar, linearprediction.py:210-235 (1-D).  [lstsq] is np.linalg.lstsq; instead of the norm
    [error] the vector [xvec + Xmat@coeff] is returned, whose norm it is.  [order = 0] is not modelled
    (degenerate slices). *)
Variable lstsq : list (list K) -> list K -> list K.
Definition pcoeff_covar (x : list K) (order : nat) : result (list K * list K) :=
  let n := length x in
  if (n <=? order)%nat then Err ValueError
  else
    let Xmat := toeplitz (firstn (n - order) (skipn (order - 1) x)) (rev (firstn order x)) in
    let xvec := skipn order x in
    let coeff := lstsq Xmat (map Fopp xvec) in
    Ok (coeff, map (fun p => fst p + snd p) (combine xvec (matvec Xmat coeff))).
End LP.

(** ** Burg's method, linearprediction.py:273-298 (1-D, complex) *)
Section Burg.
Local Open Scope C_scope.

Definition csum (l : list C) : C := fold_right Cplus 0 l.
Definition rsum (l : list R) : R := fold_right Rplus 0%R l.
Definition abs2 (z : C) : R := (Cmod z * Cmod z)%R.

Record burg_state := { b_a : list C; b_forw : list C; b_back : list C; b_rho : R }.

Definition zipc (f : C -> C -> C) (u v : list C) : list C := map (fun p => f (fst p) (snd p)) (combine u v).

(** state before the loop, lines 274-277 *)
Definition burg_init (x : list C) : result burg_state :=
  match x with
  | [] => Err NonFinite
  | _ => Ok {| b_a := []; b_forw := tl x; b_back := removelast x;
               b_rho := (rsum (map abs2 x) / INR (length x))%R |}
  end.

(** one iteration, lines 279-296; row k-1 of [a] is computed from row k-2 *)
Definition burg_step (s : burg_state) : result burg_state :=
  let numer := - 2 * csum (zipc (fun f b => f * Cconj b) (b_forw s) (b_back s)) in
  let denom := (rsum (map abs2 (b_forw s)) + rsum (map abs2 (b_back s)))%R in
  if Req_EM_T denom 0 then Err NonFinite
  else
    let kk := numer / RtoC denom in
    Ok {| b_a := zipc (fun p q => p + kk * Cconj q) (b_a s) (rev (b_a s)) ++ [kk];
          b_forw := zipc (fun f b => f + kk * b) (tl (b_forw s)) (tl (b_back s));
          b_back := zipc (fun b f => b + Cconj kk * f) (removelast (b_back s)) (removelast (b_forw s));
          b_rho := ((1 - abs2 kk) * b_rho s)%R |}.

Fixpoint burg_loop (order : nat) (s : burg_state) : result burg_state :=
  match order with O => Ok s | S k => do s' <- burg_loop k s; burg_step s' end.

Definition pcoeff_burg (x : list C) (order : nat) : result (list C * R) :=
  match order with
  | O => Err IndexError                                  (* a[..., -1, :] of an empty axis *)
  | _ => do s0 <- burg_init x; do s <- burg_loop order s0; Ok (b_a s, b_rho s)
  end.
End Burg.
