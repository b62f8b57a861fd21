(** * What the moments of a lattice are: closed walks

    The m-th moment of the density of states of a nearest-neighbour tight-binding Hamiltonian with amplitude [t] is the
    trace per site of its m-th power: t^m times the number of closed walks of m steps, averaged over the sites of a unit
    cell.  A site is a cell index and the number of the site in the cell. *)
From Coq Require Import Reals List ZArith Bool.
Import ListNotations.
Local Open Scope Z_scope.

Definition site : Type := (Z * Z * Z * nat)%type.
Definition site_eqb (x y : site) : bool :=
  let '(a, b, c, s) := x in let '(a', b', c', s') := y in
  (a =? a') && (b =? b') && (c =? c') && Nat.eqb s s'.

(** number of walks of m steps from x to y *)
Fixpoint walks (nbrs : site -> list site) (m : nat) (x y : site) : Z :=
  match m with
  | O => if site_eqb x y then 1 else 0
  | S m => fold_right Z.add 0 (map (fun n => walks nbrs m n y) (nbrs x))
  end.
(** closed walks of m steps from all sites of the cell *)
Definition closed_walks (nbrs : site -> list site) (cell : list site) (m : nat) : Z :=
  fold_right Z.add 0 (map (fun x => walks nbrs m x x) cell).
(** moment of the density of states for the hopping amplitude t *)
Definition dos_moment_of (nbrs : site -> list site) (cell : list site) (t : R) (m : nat) : R :=
  (t ^ m * IZR (closed_walks nbrs cell m) / INR (length cell))%R.

Definition bravais (steps : list (Z * Z * Z)) (x : site) : list site :=
  let '(a, b, c, s) := x in map (fun d => let '(i, j, k) := d in (a + i, b + j, c + k, s)) steps.
Definition origin (s : nat) : site := (0, 0, 0, s).

Definition chain := bravais [(1,0,0); (-1,0,0)].
Definition square := bravais [(1,0,0); (-1,0,0); (0,1,0); (0,-1,0)].
Definition simple_cubic := bravais [(1,0,0); (-1,0,0); (0,1,0); (0,-1,0); (0,0,1); (0,0,-1)].
(** body centred: the eight neighbours half a space diagonal away, in units of half the cubic cell *)
Definition body_centered := bravais
  [(1,1,1); (1,1,-1); (1,-1,1); (1,-1,-1); (-1,1,1); (-1,1,-1); (-1,-1,1); (-1,-1,-1)].
(** face centred: the twelve neighbours half a face diagonal away *)
Definition face_centered := bravais
  [(1,1,0); (1,-1,0); (-1,1,0); (-1,-1,0); (1,0,1); (1,0,-1); (-1,0,1); (-1,0,-1); (0,1,1); (0,1,-1); (0,-1,1); (0,-1,-1)].
(** triangular, in terms of two lattice vectors at 60 degrees *)
Definition triangular := bravais [(1,0,0); (-1,0,0); (0,1,0); (0,-1,0); (1,-1,0); (-1,1,0)].
(** honeycomb: two sites in the cell, the neighbours of the first are the second one of the own cell and of two others *)
Definition honeycomb (x : site) : list site :=
  let '(a, b, c, s) := x in
  match s with
  | O => [(a, b, c, 1%nat); (a - 1, b, c, 1%nat); (a, b - 1, c, 1%nat)]
  | 1%nat => [(a, b, c, 0%nat); (a + 1, b, c, 0%nat); (a, b + 1, c, 0%nat)]
  | _ => []
  end.
(** kagome: corner-sharing triangles, the sites are the corner and the middle of the two lattice vectors *)
Definition kagome (x : site) : list site :=
  let '(a, b, c, s) := x in
  match s with
  | O => [(a, b, c, 1%nat); (a - 1, b, c, 1%nat); (a, b, c, 2%nat); (a, b - 1, c, 2%nat)]
  | 1%nat => [(a, b, c, 0%nat); (a + 1, b, c, 0%nat); (a, b, c, 2%nat); (a + 1, b - 1, c, 2%nat)]
  | 2%nat => [(a, b, c, 0%nat); (a, b + 1, c, 0%nat); (a, b, c, 1%nat); (a - 1, b + 1, c, 1%nat)]
  | _ => []
  end.
(** Lieb: square lattice with an additional site on every edge *)
Definition lieb (x : site) : list site :=
  let '(a, b, c, s) := x in
  match s with
  | O => [(a, b, c, 1%nat); (a - 1, b, c, 1%nat); (a, b, c, 2%nat); (a, b - 1, c, 2%nat)]
  | 1%nat => [(a, b, c, 0%nat); (a + 1, b, c, 0%nat)]
  | 2%nat => [(a, b, c, 0%nat); (a, b + 1, c, 0%nat)]
  | _ => []
  end.
