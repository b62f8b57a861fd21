(** * C82 continued: gf_loc_z of gftool/beb.py for a density of states *)
From Coq Require Import List Arith Lia Bool Reals Lra.
From Coquelicot Require Import Coquelicot.
From Verif Require Import Base FSum CBase Herm_Proofs Linalg_Model Linalg_Proofs Mat Matrix_Model Matrix_Proofs MatAlg Cpa_Model Cpa_Proofs Beb_Model Beb_Core Beb_Proofs Beb_Props BebCausal_Proofs BebCausal_Props Fourier_Filon LatMom_Spec LatInt_Spec Lattice_Model Bethe_Props LatMom_Props LatInt_Props CpaCausal_Proofs BebDens_Proofs.
Import ListNotations.
Local Open Scope R_scope.

(** wherever it returns a value off the real axis, ht returns the Hilbert transform of the density d on [-D, D] *)
Record density_ht (ht : C -> result C) (d : R -> R) (D : R) : Prop := {
  dd_pos : forall e, - D < e < D -> 0 <= d e;
  dd_one : is_RInt d (- D) D 1;
  dd_val : forall x h : C, snd x <> 0 -> ht x = Ok h -> is_hilbert d D x h }.

(** gf_loc_z is the average of the resolvents of the lattice over the density of states *)
Theorem C82_lattice_integral : forall eigO invO eighO close0 sqrt significant ht (T : mat CF),
  beb_env CF Cconj eigO invO eighO sqrt significant T -> hermitian (nr T) (me T) ->
  forall (z : C) (self : mat CF) d D, nr self = nr T -> nc self = nr T -> 0 < snd z -> damping (nr T) (me self) -> density_ht ht d D ->
  forall G, gf_loc_z (K := CF) Cconj eigO invO eighO close0 sqrt significant ht z self T false = Ok (RFull G) ->
  exists Rs : R -> nat -> nat -> C,
    (forall e, minv CF (nr T) (fun i j => ((if (i =? j)%nat then z else RtoC 0) - me self i j - RtoC e * me T i j)%C) (Rs e)) /\
    forall i j, is_CInt (fun e => RtoC (d e) * Rs e i j)%C (- D) D (me G i j).
Proof.
  intros eigO invO eighO close0 sqrt significant ht T E HT z self d D S1 S2 Hz HS [_ D1 HH] G HG.
  unfold gf_loc_z in HG. destruct (gf_loc_full _ _ _ _ _ _ _ _ _ _ _) as [G'|] eqn:EG; [|discriminate]. cbn [bind] in HG. injection HG as ->.
  exact (dens_integral eigO invO eighO close0 sqrt significant ht T E HT z self d D S1 S2 Hz HS D1 HH G EG).
Qed.
Print Assumptions C82_lattice_integral.

(** its spectral matrix is positive semidefinite *)
Theorem C82_density_retarded : forall eigO invO eighO close0 sqrt significant ht (T : mat CF),
  beb_env CF Cconj eigO invO eighO sqrt significant T -> hermitian (nr T) (me T) ->
  forall (z : C) (self : mat CF) d D, 0 <= D -> nr self = nr T -> nc self = nr T -> 0 < snd z -> damping (nr T) (me self) -> density_ht ht d D ->
  forall G, gf_loc_z (K := CF) Cconj eigO invO eighO close0 sqrt significant ht z self T false = Ok (RFull G) ->
  forall v, snd (quad (nr T) (me G) v) <= 0.
Proof.
  intros eigO invO eighO close0 sqrt significant ht T E HT z self d D HD S1 S2 Hz HS HH G HG v.
  destruct (C82_lattice_integral eigO invO eighO close0 sqrt significant ht T E HT z self d D S1 S2 Hz HS HH G HG) as (Rs & MR & I). destruct HH as [D0 D1 _].
  assert (Q : is_CInt (fun e => RtoC (d e) * quad (nr T) (Rs e) v)%C (- D) D (quad (nr T) (me G) v)).
  { exact (int_qform (nr T) d (- D) D Rs (me G) v I). }
  assert (X := lin_dens 0 (-1) 0 (- D) D d (fun e => quad (nr T) (Rs e) v) (quad (nr T) (me G) v) ltac:(lra) D0 D1 Q). cut (0 <= 0 * fst (quad (nr T) (me G) v) + -1 * snd (quad (nr T) (me G) v) + 0); [lra|]. apply X. intros e _.
  assert (P := res_nonpos (nr T) z (me self) (me T) e Hz HS HT (Rs e) v (MR e)). change (quad (nr T) (Rs e) v) with (qform (nr T) (Rs e) v). lra.
Qed.
Print Assumptions C82_density_retarded.

(** the rectangular density of the package on the lattice of C82_example *)
Definition box_ht (x : C) : result C := match box_gf_z x 1 with Ok h => Ok h | Err _ => Ok (RtoC 0) end.
Lemma box_density : exists d, (forall e, box_dos e 1 = Ok (d e)) /\ density_ht box_ht d 1.
Proof.
  destruct (C64_box 1 (0, 1) ltac:(lra) (or_introl (Rgt_not_eq 1 0 Rlt_0_1))) as (d & _ & E & _). exists d. split; [exact E|]. split.
  - intros e _. destruct C49_shape as (_ & _ & _ & S). exact (proj1 (S e 1 (d e) ltac:(lra) (E e))).
  - assert (M := C50_box 0 1 d ltac:(lra) E). assert (V : box_dos_moment 0 1 = 1) by (unfold box_dos_moment; cbn; field). rewrite V in M.
    apply is_RInt_ext with (2 := M). intros e _. cbn. ring.
  - intros x h Hx Hh. destruct (C64_box 1 x ltac:(lra) (or_introl Hx)) as (d' & G & E' & HG & I). unfold box_ht in Hh. rewrite HG in Hh. injection Hh as <-.
    revert I. apply is_CInt_ext. intros t _. assert (Q := E' t). rewrite E in Q. injection Q as ->. reflexivity.
Qed.
Example C82_density_example : exists G, gf_loc_z (K := CF) Cconj c2_eig c2_inv c2_eigh (fun _ => true) c2_sqrt c2_sig box_ht (0, 1) c2_self c2_T false = Ok (RFull G) /\
  forall v, snd (quad 2 (me G) v) <= 0.
Proof.
  destruct c2_run as (G0 & H0). unfold gf_loc_z in H0. destruct (gf_loc_full _ _ _ _ _ _ _ _ _ _ _) as [G'|] eqn:EG; [|discriminate]. clear H0.
  destruct (gf_affine _ _ _ _ _ _ _ _ _ _ _ _ EG) as (hd & zi & dec & M & c & a & _ & _ & _ & _ & _ & AF).
  set (f := fun x => match box_gf_z x 1 with Ok h => h | Err _ => RtoC 0 end).
  assert (B : forall xs, mapM box_ht xs = Ok (map f xs)).
  { induction xs as [|x xs IH]; [reflexivity|]. cbn [mapM map]. rewrite IH. unfold box_ht, f. destruct (box_gf_z x 1); reflexivity. }
  destruct (AF box_ht _ (B _)) as (G & HG & _). exists G.
  assert (Z : gf_loc_z (K := CF) Cconj c2_eig c2_inv c2_eigh (fun _ => true) c2_sqrt c2_sig box_ht (0, 1) c2_self c2_T false = Ok (RFull G)) by (unfold gf_loc_z; rewrite HG; reflexivity).
  split; [exact Z|]. destruct box_density as (d & _ & HD).
  exact (C82_density_retarded c2_eig c2_inv c2_eigh (fun _ => true) c2_sqrt c2_sig box_ht c2_T c2_env c2_herm (0, 1) c2_self d 1 ltac:(lra) eq_refl eq_refl ltac:(cbn; lra) c2_damping HD G Z).
Qed.
