(** * Model of gftool/linalg.py

    A matrix is its shape together with its entries (2-D arrays only; stacked arrays are handled
    element-wise by numpy).  The factorisations and solvers of numpy/scipy are oracles. *)
From Coq Require Import List Arith Bool.
From Verif Require Import Base.
Import ListNotations.
Local Open Scope fld_scope.

Section M.
Context {K : Fld}.
Variable conj : K -> K.

Record mat := Mat { nr : nat; nc : nat; me : nat -> nat -> K }.

Definition mv (A : mat) (v : list K) : list K :=
  map (fun i => nsum (nc A) (fun j => me A i j * nth j v 0)) (seq 0 (nr A)).
Definition mm (A B : mat) : mat := Mat (nr A) (nc B) (fun i j => nsum (nc A) (fun k => me A i k * me B k j)).
(** transpose(x).conj() *)
Definition ctr (A : mat) : mat := Mat (nc A) (nr A) (fun i j => conj (me A j i)).
Definition rows_to (n : nat) (A : mat) : mat := Mat (Nat.min n (nr A)) (nc A) (me A).              (* x[:n, :] *)
Definition cols_to (n : nat) (A : mat) : mat := Mat (nr A) (Nat.min n (nc A)) (me A).              (* x[:, :n] *)
Definition cols_from (n : nat) (A : mat) : mat := Mat (nr A) (nc A - n) (fun i j => me A i (n + j)).  (* x[:, n:] *)
Definition vsub (u v : list K) : list K := map (fun p => fst p - snd p) (combine u v).

(** np.linalg.qr(x, mode="complete"), scipy.linalg.solve_triangular(r, d, trans='C'),
    np.linalg.lstsq (solution, residuals), np.allclose(x, 0) *)
Variable qr : mat -> mat * mat.
Variable solve_triangular : mat -> list K -> result (list K).
Variable lstsq : mat -> list K -> list K * list K.
Variable allclose0 : list K -> bool.

(** orth_compl, linalg.py:43-49 *)
Definition orth_compl (A : mat) : result mat :=
  if (nr A <=? nc A)%nat then Err ValueError
  else Ok (ctr (cols_from (nc A) (fst (qr A)))).

(** lstsq_ec, linalg.py:87-109.  Shape mismatches inside numpy calls are ValueError. *)
Definition lstsq_ec (a : mat) (b : list K) (c : mat) (d : list K) : result (list K) :=
  if (nc a =? 0)%nat then Ok []
  else if (nr c =? 0)%nat then
    if negb (nr c =? length d)%nat then Err ValueError else Ok (fst (lstsq a b))
  else
    let constrains := length d in
    let (q_ct, r_full) := qr (ctr c) in
    let r_ct := rows_to constrains r_full in
    if negb ((nr r_ct =? nc r_ct) && (nr r_ct =? constrains) && (nc a =? nr q_ct))%nat then Err ValueError
    else
      do y <- match solve_triangular r_ct d with
              | Err LinAlgError =>
                  let (y, err) := lstsq (ctr r_ct) d in
                  if allclose0 err then Ok y else Err LinAlgError
              | r => r
              end;
      let aq := mm a q_ct in
      let z := fst (lstsq (cols_from constrains aq) (vsub b (mv (cols_to constrains aq) y))) in
      Ok (mv q_ct (y ++ z)).
End M.
Arguments mat : clear implicits.
