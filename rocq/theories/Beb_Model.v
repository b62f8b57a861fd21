(** * Model of gftool/beb.py

    One frequency point; the matrices live in component space.  np.linalg.eig/eigh/inv and np.emath.sqrt are oracles. *)
From Coq Require Import List Arith Reals Bool.
From Coquelicot Require Import Coquelicot.
From Verif Require Import Base CBase Linalg_Model Matrix_Model Cpa_Model.
Import ListNotations.

Section B.
Context {K : Fld}.
Variable conj : K -> K.
Variable eigO : mat K -> result (list K * mat K).
Variable invO : mat K -> result (mat K).
Variable eighO : mat K -> result (list K * mat K).
Variable close0 : K -> bool.
Variable sqrt : K -> K.
(** abs(eig) > max(abs(eig))*rcond *)
Variable significant : list K -> K -> bool.
Variable hilbert_trafo : K -> result K.
Local Open Scope fld_scope.

(** SpecDec.truncate, beb.py:129-134 *)
Definition truncate (d : decomposition K) : decomposition K :=
  let idx := filter (fun j => significant (eig d) (nth j (eig d) 0)) (seq 0 (length (eig d))) in
  Dec (Mat (nr (rv d)) (length idx) (fun i j => me (rv d) i (nth j idx 0%nat)))
      (map (fun j => nth j (eig d) 0) idx)
      (Mat (length idx) (nc (rv_inv d)) (fun i j => me (rv_inv d) (nth i idx 0%nat) j)).
(** SpecDec.is_trunacted, beb.py:139-140 *)
Definition is_truncated (d : decomposition K) : bool :=
  negb ((nr (rv d) =? nc (rv d)) && (nc (rv d) =? nr (rv_inv d)))%nat.
(** SpecDec.partition, beb.py:149-153 *)
Definition part_us (d : decomposition K) : mat K := Mat (nr (rv d)) (nc (rv d)) (fun i j => me (rv d) i j * sqrt (nth j (eig d) 0)).
Definition part_suh (d : decomposition K) : mat K := Mat (nr (rv_inv d)) (nc (rv_inv d)) (fun i j => sqrt (nth i (eig d) 0) * me (rv_inv d) i j).

Definition specdec (hopping : mat K) : result (decomposition K) :=
  do d <- decompose_her conj eighO close0 hopping true; Ok (truncate d).
Definition z_minus (z : K) (self : mat K) : mat K :=
  Mat (nr self) (nc self) (fun i j => z * (if (i =? j)%nat then 1 else 0) - me self i j).
Definition mplus (A B : mat K) : mat K := Mat (nr A) (nc A) (fun i j => me A i j + me B i j).

(** gf_loc_z, beb.py:191-214, for diag=False; diag=True is below *)
Definition gf_loc_full (z : K) (self hopping : mat K) : result (mat K) :=
  do hd <- specdec hopping;
  let us := part_us hd in
  let suh := part_suh hd in
  do zi <- invO (z_minus z self);
  do dec <- decompose_mat eigO invO (mm (mm suh zi) us);
  if existsb (fun x => feqb x 0) (eig dec) then Err NonFinite
  else
    let diag_inv := map (fun x => 1 / x) (eig dec) in
    do h <- mapM hilbert_trafo diag_inv;
    if negb (is_truncated hd) then
      let svh_inv := Mat (nc (rv_inv hd)) (nr (rv_inv hd)) (fun i j => me (ctr conj (rv_inv hd)) i j / sqrt (nth j (eig hd) 0)) in
      let us_inv := Mat (nc (rv hd)) (nr (rv hd)) (fun i j => me (ctr conj (rv hd)) i j / sqrt (nth i (eig hd) 0)) in
      Ok (recon_full (Dec (mm svh_inv (rv dec)) (eig dec) (mm (rv_inv dec) us_inv)) h)
    else
      let d2 := Dec (mm (mm zi us) (rv dec)) (eig dec) (mm (mm (rv_inv dec) suh) zi) in
      Ok (mplus zi (recon_full d2 (map (fun p => (fst p * snd p - 1) * fst p) (combine diag_inv h)))).

(** the same with kind='diag' *)
Definition gf_loc_diag (z : K) (self hopping : mat K) : result (list K) :=
  do hd <- specdec hopping;
  let us := part_us hd in
  let suh := part_suh hd in
  do zi <- invO (z_minus z self);
  do dec <- decompose_mat eigO invO (mm (mm suh zi) us);
  if existsb (fun x => feqb x 0) (eig dec) then Err NonFinite
  else
    let diag_inv := map (fun x => 1 / x) (eig dec) in
    do h <- mapM hilbert_trafo diag_inv;
    if negb (is_truncated hd) then
      let svh_inv := Mat (nc (rv_inv hd)) (nr (rv_inv hd)) (fun i j => me (ctr conj (rv_inv hd)) i j / sqrt (nth j (eig hd) 0)) in
      let us_inv := Mat (nc (rv hd)) (nr (rv hd)) (fun i j => me (ctr conj (rv hd)) i j / sqrt (nth i (eig hd) 0)) in
      Ok (recon_diag (Dec (mm svh_inv (rv dec)) (eig dec) (mm (rv_inv dec) us_inv)) h)
    else
      let d2 := Dec (mm (mm zi us) (rv dec)) (eig dec) (mm (mm (rv_inv dec) suh) zi) in
      let corr := recon_diag d2 (map (fun p => (fst p * snd p - 1) * fst p) (combine diag_inv h)) in
      Ok (map (fun i => me zi i i + nth i corr 0) (seq 0 (nr zi))).
Definition gf_loc_z (z : K) (self hopping : mat K) (diag : bool) : result (recon (K := K) unit) :=
  if diag then do l <- gf_loc_diag z self hopping; Ok (RDiag l) else do m <- gf_loc_full z self hopping; Ok (RFull m).

(** self_root_eq, beb.py:248-265 *)
Definition beb_root_eq (self : mat K) (z : K) (e_onsite concentration : list K) (hd : decomposition K) : result (mat K) :=
  let zms := z_minus z self in
  let us := part_us hd in
  let suh := part_suh hd in
  do zi <- invO zms;
  do dec <- decompose_mat eigO invO (mm (mm suh zi) us);
  let d2 := Dec (mm us (rv dec)) (eig dec) (mm (rv_inv dec) suh) in
  if existsb (fun x => feqb x 0) (eig dec) then Err NonFinite
  else
    let diag_inv := map (fun x => 1 / x) (eig dec) in
    do h <- mapM hilbert_trafo diag_inv;
    if existsb (fun x => feqb x 0) h then Err NonFinite
    else
      let gf_loc_inv :=
        if negb (is_truncated hd) then recon_full d2 (map (fun x => 1 / x) h)
        else mplus zms (recon_full d2 (map (fun p => 1 / fst p - snd p) (combine h diag_inv))) in
      if existsb (fun x => feqb x 0) concentration then Err NonFinite
      else
        Ok (Mat (nr self) (nc self) (fun i j =>
          me gf_loc_inv i j - (if (i =? j)%nat then (me gf_loc_inv i i + me self i i - nth i e_onsite 0) / nth i concentration 0 else 0))).
End B.

(** ** restrict_self_root_eq, beb.py:268-285, and solve_root, beb.py:373-413, for a list of frequency points *)
Section Complex.
Local Open Scope R_scope.
Definition diag_unphysical (A : mat CF) : bool := existsb (fun i => unphysical (me A i i)) (seq 0 (Nat.min (nr A) (nc A))).
Definition clip_diag (A : mat CF) : mat CF := Mat (K := CF) (nr A) (nc A) (fun i j => if (i =? j)%nat then clip (me A i i) else me A i j).
Definition penalty_diag (A r : mat CF) : mat CF :=
  Mat (K := CF) (nr r) (nc r) (fun i j => if (i =? j)%nat then penalty (me A i i) (me r i i) else me r i j).
Definition beb_restrict (root : list (mat CF) -> result (list (mat CF))) (selfs : list (mat CF)) : result (list (mat CF)) * list (mat CF) :=
  if existsb diag_unphysical selfs then
    let selfs' := map clip_diag selfs in
    (do r <- root selfs'; Ok (map (fun p => penalty_diag (fst p) (snd p)) (combine selfs r)), selfs')
  else (root selfs, selfs).

Variable root : list (mat CF) -> result (list (mat CF)).        (* self_root_eq with the keywords of self_root_part *)
Variable optimize_root : (list (mat CF) -> result (list (mat CF)) * list (mat CF)) -> list (mat CF) -> result (list (mat CF) * bool).
(** np.where(imag < 0, x, conj x) on the diagonal *)
Definition retarded_diag (A : mat CF) : mat CF :=
  Mat (K := CF) (nr A) (nc A) (fun i j => if (i =? j)%nat then (if Rlt_dec (snd (me A i i)) 0 then me A i i else Cconj (me A i i)) else me A i j).
Definition beb_solve_root (zs : list C) (n : nat) (self0 : option (list (mat CF))) (restricted : bool) : result (list (mat CF)) :=
  do x0 <- match self0 with
    | None =>
        do r <- root (map (fun _ => Mat (K := CF) n n (fun _ _ => RtoC 0)) zs);
        if forallb (fun z => if Rle_dec 0 (snd z) then true else false) zs then
          let r' := map retarded_diag r in
          if existsb diag_unphysical r' then Err AssertionError else Ok r'
        else Ok r
    | Some s => Ok s
    end;
  do sol <- optimize_root (fun x => if restricted then beb_restrict root x else (root x, x)) x0;
  if snd sol then Ok (fst sol) else Err RuntimeError.
End Complex.
