(** * Model of gftool/matrix.py: UDecomposition.s (262-265) and the legacy constructors (102-146, 453-511)

    Deprecation warnings are not modelled.  np.sort is an insertion sort of exact real numbers. *)
From Coq Require Import List Arith Reals.
From Coquelicot Require Import Coquelicot.
From Verif Require Import Base CBase Linalg_Model Matrix_Model.
Import ListNotations.

Fixpoint insert (x : R) (l : list R) : list R :=
  match l with [] => [x] | y :: l' => if Rle_dec x y then x :: l else y :: insert x l' end.
(** np.sort of one row *)
Definition np_sort (l : list R) : list R := fold_right insert [] l.
(** UDecomposition.s for one matrix: np.sort(abs(self.eig))[::-1] *)
Definition s (eig : list C) : list R := rev (np_sort (map Cmod eig)).
(** UDecomposition.s for [eig] with one leading axis: np.sort acts on the last axis, [::-1] on the first *)
Definition s_stacked (eigs : list (list C)) : list (list R) := rev (map (fun e => np_sort (map Cmod e)) eigs).

(** argument of the constructors: an instance of the class or an array *)
Inductive arg := Inst (d : decomposition CF) | Arr (A : mat CF).
Section M.
Variable eigO : mat CF -> result (list CF * mat CF).
Variable invO : mat CF -> result (mat CF).
Variable eighO : mat CF -> result (list CF * mat CF).
Variable close0 : CF -> bool.
(** decompose_gf, line 480 *)
Definition decompose_gf (g_inv : mat CF) : result (decomposition CF) := decompose_mat (K := CF) eigO invO g_inv.
(** decompose_hamiltonian, line 511 *)
Definition decompose_hamiltonian (H : mat CF) : result (decomposition CF) := decompose_her (K := CF) Cconj eighO close0 H false.
(** Decomposition.from_hamiltonian, lines 120-122 *)
Definition from_hamiltonian (a : arg) : result (decomposition CF) := match a with Inst d => Ok d | Arr H => decompose_hamiltonian H end.
(** Decomposition.from_gf, lines 144-146 *)
Definition from_gf (a : arg) : result (decomposition CF) := match a with Inst d => Ok d | Arr G => decompose_gf G end.
End M.
