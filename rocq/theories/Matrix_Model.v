(** * Model of gftool/matrix.py and gftool/siam.py

    Single matrices (numpy stacks them over leading axes); exact arithmetic; division by zero is [NonFinite].
    Eigen-decompositions, inverses, einsum and np.allclose are oracles.  Deprecation warnings are not modelled. *)
From Coq Require Import List Arith ZArith Bool String Ascii Reals.
From Coquelicot Require Import Coquelicot.
From Verif Require Import Base CBase CExp Linalg_Model Pole_Model.
Import ListNotations.
Local Open Scope fld_scope.

(** str.lower on ASCII strings *)
Definition lower_ascii (c : ascii) : ascii :=
  let n := nat_of_ascii c in if ((65 <=? n) && (n <=? 90))%nat then ascii_of_nat (n + 32) else c.
Fixpoint lower (s : string) : string :=
  match s with EmptyString => EmptyString | String c r => String (lower_ascii c) (lower r) end.

Section M.
Context {K : Fld}.
Variable conj : K -> K.

(** class Decomposition, matrix.py:57-101 *)
Record decomposition := Dec { rv : mat K; eig : list K; rv_inv : mat K }.

Inductive recon (X : Type) := RDiag (l : list K) | RFull (m : mat K) | REinsum (x : X).
Arguments RDiag {X}. Arguments RFull {X}. Arguments REinsum {X}.

(** ((transpose(rv_inv)*rv) @ eig[..., newaxis])[..., 0] *)
Definition recon_diag (d : decomposition) (e : list K) : list K :=
  map (fun i => nsum (nc (rv d)) (fun j => me (rv_inv d) j i * me (rv d) i j * nth j e 0)) (seq 0 (nr (rv d))).
(** rv * eig[..., newaxis, :] @ rv_inv *)
Definition recon_full (d : decomposition) (e : list K) : mat K :=
  Mat (nr (rv d)) (nc (rv_inv d)) (fun i j => nsum (nc (rv d)) (fun k => me (rv d) i k * nth k e 0 * me (rv_inv d) k j)).

(** Decomposition.reconstruct, matrix.py:172-178.  Shapes that do not fit are ValueError (numpy would still broadcast axes
    of length one). *)
Definition reconstruct {X} (einsum : string -> mat K -> list K -> mat K -> X) (d : decomposition) (eig' : option (list K))
  (kind : string) : result (recon X) :=
  let e := match eig' with Some e => e | None => eig d end in
  let kind := lower kind in
  if prefix kind "diag" then
    if ((nr (rv_inv d) =? nc (rv d)) && (nc (rv_inv d) =? nr (rv d)) && (List.length e =? nc (rv d)))%nat%bool
    then Ok (RDiag (recon_diag d e)) else Err ValueError
  else if prefix kind "full" then
    if ((nr (rv_inv d) =? nc (rv d)) && (List.length e =? nc (rv d)))%nat%bool then Ok (RFull (recon_full d e)) else Err ValueError
  else Ok (REinsum (einsum kind (rv d) e (rv_inv d))).

(** construct_gf, matrix.py:536: rv.dot(np.diagflat(diag_inv)).dot(rv_inv) *)
Definition construct_gf (rv : mat K) (diag_inv : list K) (rv_inv : mat K) : mat K :=
  mm (mm rv (Mat (List.length diag_inv) (List.length diag_inv) (fun i j => if (i =? j)%nat then nth i diag_inv 0 else 0))) rv_inv.

(** oracles: np.linalg.eig (eigenvalues, vectors), np.linalg.inv, np.linalg.eigh, |x| <= atol of np.allclose(x, 0), x**-0.5 *)
Variable eigO : mat K -> result (list K * mat K).
Variable invO : mat K -> result (mat K).
Variable eighO : mat K -> result (list K * mat K).
Variable close0 : K -> bool.
Variable rsqrt : K -> K.
Definition allclose0 (A : mat K) : bool :=
  forallb (fun i => forallb (fun j => close0 (me A i j)) (seq 0 (nc A))) (seq 0 (nr A)).
Definition msub (A B : mat K) : mat K := Mat (nr A) (nc A) (fun i j => me A i j - me B i j).
Definition mtr (A : mat K) : mat K := Mat (nc A) (nr A) (fun i j => me A j i).

(** decompose_mat, matrix.py:308-309 *)
Definition decompose_mat (A : mat K) : result decomposition :=
  do ev <- eigO A; do i <- invO (snd ev); Ok (Dec (snd ev) (fst ev) i).

(** decompose_sym, matrix.py:380-389 *)
Definition decompose_sym (A : mat K) (check : bool) : result decomposition :=
  if check && negb (allclose0 (msub A (mtr A))) then Err ValueError
  else
    do ev <- eigO A;
    let (h, v) := ev in
    let s j := nsum (nr v) (fun i => me v i j * me v i j) in
    if existsb (fun j => feqb (s j) 0) (seq 0 (nc v)) then Err NonFinite
    else
      let rv := Mat (nr v) (nc v) (fun i j => me v i j * rsqrt (s j)) in
      do i <- invO rv; Ok (Dec rv h i).

(** decompose_her, matrix.py:440-444 *)
Definition decompose_her (A : mat K) (check : bool) : result decomposition :=
  if check && negb (allclose0 (msub A (ctr conj A))) then Err ValueError
  else do ev <- eighO A; Ok (Dec (snd ev) (fst ev) (ctr conj (snd ev))).

(** gf_2x2_z, matrix.py:565-573; [half] is 0.5, [sqrt] np.lib.scimath.sqrt; a missing Hilbert transform is x -> 1/x *)
Variable sqrt : K -> K.
Definition recip (x : K) : result K := if Feq_dec x 0 then Err NonFinite else Ok (1 / x).
Definition gf_2x2_z (z eps0 eps1 hopping : K) (hilbert_trafo : option (K -> result K)) : result (K * K) :=
  let mean_eps := (eps0 + eps1) / (1 + 1) in
  let half := 1 / (1 + 1) in
  let s := sqrt (half * half * ((eps0 - eps1) * (eps0 - eps1)) + hopping * conj hopping) in
  let trafo := match hilbert_trafo with Some f => f | None => recip end in
  do gf_p <- trafo (z - mean_eps - s);
  do gf_m <- trafo (z - mean_eps + s);
  if Feq_dec s 0 then Err NonFinite
  else
    let gf0 := half / s * ((eps0 - mean_eps + s) * gf_p - (eps0 - mean_eps - s) * gf_m) in
    let gf1 := half / s * ((eps1 - mean_eps + s) * gf_p - (eps1 - mean_eps - s) * gf_m) in
    Ok (gf0, gf1).

(** siam.hamiltonian_matrix, siam.py:177-184; [cast] stores a number in an array of hopping's dtype.
    e_bath and hopping have the same length. *)
Variable cast : K -> K.
Definition hamiltonian_matrix (e_onsite : K) (e_bath hopping : list K) : mat K :=
  Mat (S (List.length hopping)) (S (List.length hopping)) (fun i j =>
    match i, j with
    | O, O => cast e_onsite
    | O, S b => nth b hopping 0
    | S b, O => conj (nth b hopping 0)
    | S a, S b => if (a =? b)%nat then cast (nth a e_bath 0) else 0
    end).

(** siam.hybrid_z, siam.py:206 *)
Definition hybrid_z (z : K) (e_bath hopping_sqr : list K) : result K :=
  if existsb (fun e => feqb (z - e) 0) e_bath then Err NonFinite
  else Ok (lsum (map (fun p => snd p / (z - fst p)) (combine e_bath hopping_sqr))).
(** siam.gf0_loc_z, siam.py:59 *)
Definition gf0_loc_z (z e_onsite : K) (e_bath hopping_sqr : list K) : result K :=
  do h <- hybrid_z z e_bath hopping_sqr; recip (z - e_onsite - h).
End M.
Arguments RDiag {K X}. Arguments RFull {K X}. Arguments REinsum {K X}.
Arguments decomposition : clear implicits.

(** ** The time dependent impurity Green's functions, siam.py:81-87, 111-117, 141-147.
    [eigh] returns real eigenvalues; [f] is the single-pole function of Pole_Model. *)
Section T.
Variable eigh : mat CF -> result (list R * mat CF).
Variable close0 : C -> bool.
Variable cast : C -> C.
Definition siam_loc (f : R -> C) (e_onsite : C) (e_bath hopping : list C) : result C :=
  let ham := hamiltonian_matrix (K := CF) Cconj cast e_onsite e_bath hopping in
  if negb (allclose0 (K := CF) close0 (msub ham (ctr (K := CF) Cconj ham))) then Err ValueError
  else
    do ev <- eigh ham;
    let (e, v) := ev in
    let d := Dec (K := CF) (rows_to 1 v) (map f e) (cols_to 1 (ctr (K := CF) Cconj v)) in
    Ok (nth 0 (recon_diag d (eig d)) (RtoC 0)).
Definition gf0_loc_ret_t (tt : R) e_onsite e_bath hopping := siam_loc (fun p => single_pole_gf_ret_t tt (RtoC p)) e_onsite e_bath hopping.
Definition gf0_loc_gr_t (tt : R) e_onsite e_bath hopping (beta : R) := siam_loc (fun p => single_pole_gf_gr_t tt p beta) e_onsite e_bath hopping.
Definition gf0_loc_le_t (tt : R) e_onsite e_bath hopping (beta : R) := siam_loc (fun p => single_pole_gf_le_t tt p beta) e_onsite e_bath hopping.
End T.
