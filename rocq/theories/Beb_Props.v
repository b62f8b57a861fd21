(** * Properties of gftool/beb.py: C39, C61 and the BEB parts of C36 and C38 *)
From Coq Require Import List Arith ZArith Bool QArith Qcanon Reals Lia Lra.
From Coquelicot Require Import Coquelicot.
From Verif Require Import Base FSum CBase Linalg_Model Linalg_Proofs Matrix_Model Matrix_Proofs Matrix_Time MatAlg Cpa_Model Cpa_Proofs Beb_Model Beb_Core Beb_Proofs Beb_Restrict.
Import ListNotations.
Local Open Scope fld_scope.

(** what is assumed about numpy: inv inverts, eig returns right eigenvectors, eigh orthonormal eigenvectors of the hopping
    matrix, emath.sqrt squares back on its spectrum, and the truncation only discards zero eigenvalues *)
Record beb_env (K : Fld) (conj : K -> K) (eigO : mat K -> result (list K * mat K)) (invO : mat K -> result (mat K))
    (eighO : mat K -> result (list K * mat K)) (sqrt : K -> K) (significant : list K -> K -> bool) (T : mat K) : Prop := {
  env_conj : conj_ok K conj;
  env_sig : forall l x, significant l x = true -> x <> 0;
  env_inv : forall B C : mat K, nr B = nc B -> invO B = Ok C -> square K (nr B) C /\ minv K (nr B) (me B) (me C);
  env_eig : forall A ev, nr A = nc A -> eigO A = Ok ev -> eig_spec K A ev;
  env_sq : nr T = nc T;
  env_sqrt : forall ev x, eighO T = Ok ev -> In x (fst ev) -> sqrt x * sqrt x = x;
  env_eigh : forall ev, eighO T = Ok ev -> eigh_spec K conj T ev;
  env_rank : forall ev x, eighO T = Ok ev -> In x (fst ev) -> significant (fst ev) x = false -> x = 0 }.

(** C39: for every discrete density of states (weights w, energies eps) gf_loc_z is the lattice sum of the resolvents R_k *)
Theorem C39_lattice_sum_partial : forall (K : Fld) conj eigO invO eighO close0 sqrt significant ht (T : mat K),
  beb_env K conj eigO invO eighO sqrt significant T ->
  forall z (self : mat K) N (w eps : nat -> K) (R : nat -> nat -> nat -> K), nr self = nr T -> nc self = nr T -> nsum N w = 1 ->
  (forall x, (forall k, (k < N)%nat -> x <> eps k) -> ht x = Ok (nsum N (fun k => w k / (x - eps k)))) ->
  (forall k, (k < N)%nat -> minv K (nr T) (fun i j => (if (i =? j)%nat then z else 0) - me self i j - eps k * me T i j) (R k)) ->
  forall G, gf_loc_z conj eigO invO eighO close0 sqrt significant ht z self T false = Ok (RFull G) ->
  nr G = nr T /\ nc G = nr T /\ forall i j, (i < nr T)%nat -> (j < nr T)%nat -> me G i j = nsum N (fun k => w k * R k i j).
Proof.
  intros K conj eigO invO eighO close0 sqrt significant ht T [E1 E2 E3 E4 E5 E6 E7 E8] z self N w eps R S1 S2 HW HT HR G H.
  unfold gf_loc_z in H. destruct (gf_loc_full _ _ _ _ _ _ _ _ _ _ _) as [G'|] eqn:EG; [|discriminate]. cbn [bind] in H. injection H as ->.
  refine (gf_loc_full_spec K conj eigO invO eighO close0 sqrt significant ht E1 E2 E3 E4 T E5 E6 E7 E8 z self S1 S2 N w eps HT R _ G HW EG).
  intros k Hk i j Hi Hj. rewrite <- (HR k Hk i j Hi Hj). apply nsum_ext. intros l Hl. f_equal. now rewrite zsub_if.
Qed.
Print Assumptions C39_lattice_sum_partial.
(** diag=True gives the diagonal *)
Theorem C39_diag : forall (K : Fld) conj eigO invO eighO close0 sqrt significant ht (T : mat K) z (self : mat K),
  nr T = nc T -> nr self = nr T -> nc self = nr T ->
  gf_loc_z conj eigO invO eighO close0 sqrt significant ht z self T true
  = match gf_loc_z conj eigO invO eighO close0 sqrt significant ht z self T false with
    | Ok (RFull G) => Ok (RDiag (map (fun i => me G i i) (seq 0 (nr G)))) | Ok x => Ok x | Err e => Err e end.
Proof.
  intros K conj eigO invO eighO close0 sqrt significant ht T z self E S1 S2. unfold gf_loc_z. rewrite (gf_loc_diag_full K conj eigO invO eighO close0 sqrt significant ht T E z self S1 S2).
  destruct (gf_loc_full _ _ _ _ _ _ _ _ _ _ _); reflexivity.
Qed.
Print Assumptions C39_diag.
(** SpecDec.partition: the factors multiply to the hopping matrix, also after truncation *)
Theorem C39_partition : forall (K : Fld) conj eigO invO eighO close0 sqrt significant (T : mat K), beb_env K conj eigO invO eighO sqrt significant T ->
  forall d, specdec conj eighO close0 significant T = Ok d ->
  forall i j, (i < nr T)%nat -> (j < nr T)%nat -> me (mm (part_us sqrt d) (part_suh sqrt d)) i j = me T i j.
Proof.
  intros K conj eigO invO eighO close0 sqrt significant T [E1 E2 E3 E4 E5 E6 E7 E8] d H i j Hi Hj.
  destruct (specdec_spec K conj eighO close0 sqrt significant E1 E2 T E5 E6 E7 E8 d H) as (_ & _ & _ & _ & A & _). exact (A i j Hi Hj).
Qed.
Print Assumptions C39_partition.

(** C61: the BEB root equation is built from the exact inverse of the local Green's function; it vanishes iff that inverse is
    diagonal and e_i - Sigma_ii = (1 - c_i) / G_ii  *)
Theorem C61_root_equation : forall (K : Fld) conj eigO invO eighO close0 sqrt significant ht (T : mat K),
  beb_env K conj eigO invO eighO sqrt significant T ->
  forall z (self : mat K) N (w eps : nat -> K) (R : nat -> nat -> nat -> K), nr self = nr T -> nc self = nr T -> nsum N w = 1 ->
  (forall x, (forall k, (k < N)%nat -> x <> eps k) -> ht x = Ok (nsum N (fun k => w k / (x - eps k)))) ->
  (forall k, (k < N)%nat -> minv K (nr T) (fun i j => (if (i =? j)%nat then z else 0) - me self i j - eps k * me T i j) (R k)) ->
  forall e_onsite conc d r, length conc = nr T -> specdec conj eighO close0 significant T = Ok d ->
  beb_root_eq eigO invO sqrt ht self z e_onsite conc d = Ok r ->
  exists Gi, minv K (nr T) Gi (fun i j => nsum N (fun k => w k * R k i j)) /\
    (forall i j, (i < nr T)%nat -> (j < nr T)%nat ->
       me r i j = Gi i j - (if (i =? j)%nat then (Gi i i + me self i i - nth i e_onsite 0) / nth i conc 0 else 0)) /\
    ((forall i j, (i < nr T)%nat -> (j < nr T)%nat -> me r i j = 0) <->
     (forall i j, (i < nr T)%nat -> (j < nr T)%nat -> i <> j -> Gi i j = 0) /\
     (forall i, (i < nr T)%nat -> Gi i i + me self i i - nth i e_onsite 0 = nth i conc 0 * Gi i i)).
Proof.
  intros K conj eigO invO eighO close0 sqrt significant ht T [E1 E2 E3 E4 E5 E6 E7 E8] z self N w eps R S1 S2 HW HT HR e_onsite conc d r HC HS H.
  refine (beb_root_full K conj eigO invO eighO close0 sqrt significant ht E1 E2 E3 E4 T E5 E6 E7 E8 z self S1 S2 N w eps HT R _ e_onsite conc d r HW HC HS H).
  intros k Hk i j Hi Hj. rewrite <- (HR k Hk i j Hi Hj). apply nsum_ext. intros l Hl. f_equal. now rewrite zsub_if.
Qed.
Print Assumptions C61_root_equation.

(** concrete runs over the rationals *)
(** exact inverse and eigenvectors of small matrices *)
Section Small.
Variable K : Fld.
Add Field SMF : (Fth K).
Definition sm_inv (A : mat K) : result (mat K) :=
  match nr A, nc A with
  | 1%nat, 1%nat => do x <- fdiv 1 (me A 0%nat 0%nat); Ok (Mat (K := K) 1 1 (fun _ _ => x))
  | 2%nat, 2%nat => do x <- fdiv 1 (me A 0%nat 0%nat * me A 1%nat 1%nat - me A 0%nat 1%nat * me A 1%nat 0%nat);
      Ok (Mat (K := K) 2 2 (fun i j => match i, j with O, O => x * me A 1%nat 1%nat | O, S _ => - x * me A 0%nat 1%nat | S _, O => - x * me A 1%nat 0%nat | _, _ => x * me A 0%nat 0%nat end))
  | _, _ => Err LinAlgError
  end.
Definition sm_eig (A : mat K) : result (list K * mat K) :=
  match nr A, nc A with
  | 1%nat, 1%nat => Ok ([me A 0%nat 0%nat], Mat (K := K) 1 1 (fun _ _ => 1))
  | 2%nat, 2%nat => if feqb (me A 0%nat 1%nat) 0 && feqb (me A 1%nat 0%nat) 0
      then Ok ([me A 0%nat 0%nat; me A 1%nat 1%nat], Mat (K := K) 2 2 (fun i j => if (i =? j)%nat then 1 else 0)) else Err LinAlgError
  | _, _ => Err LinAlgError
  end.
Lemma feqb_eq (x y : K) : feqb x y = true -> x = y.
Proof. apply Mat.feqb_true. Qed.
Lemma sm_inv_ok : forall B C : mat K, nr B = nc B -> sm_inv B = Ok C -> square K (nr B) C /\ minv K (nr B) (me B) (me C).
Proof.
  intros (rB, cB, B) C E. cbn [nr nc me] in *. subst cB. unfold sm_inv. cbn [nr nc me]. destruct rB as [|[|[|]]]; try discriminate.
  - destruct (fdiv _ _) as [x|] eqn:F; [|discriminate]. cbn [bind]. intros H. injection H as <-. apply fdiv_ok in F. destruct F as (F & ->).
    split; [now split|]. intros [|i] [|j] Hi Hj; try lia. cbn [nsum me]. change (kron (K := K) 0 0) with (F1 (f := K)). field. exact F.
  - destruct (fdiv _ _) as [x|] eqn:F; [|discriminate]. cbn [bind]. intros H. injection H as <-. apply fdiv_ok in F. destruct F as (F & ->).
    split; [now split|]. intros [|[|i]] [|[|j]] Hi Hj; try lia; cbn [nsum me]; change (kron (K := K) 0 0) with (F1 (f := K)); change (kron (K := K) 1 1) with (F1 (f := K));
      change (kron (K := K) 0 1) with (F0 (f := K)); change (kron (K := K) 1 0) with (F0 (f := K)); field; exact F.
Qed.
Lemma sm_eig_ok : forall A ev, nr A = nc A -> sm_eig A = Ok ev -> eig_spec K A ev.
Proof.
  intros (rB, cB, B) ev E. cbn [nr nc me] in *. subst cB. unfold sm_eig. cbn [nr nc me]. destruct rB as [|[|[|]]]; try discriminate.
  - intros H. injection H as <-. split; [now split|]. split; [reflexivity|]. intros [|i] [|j] Hi Hj; cbn [nr] in *; try lia. cbn [nsum me nth]. ring.
  - destruct (_ && _) eqn:F; [|discriminate]. apply andb_true_iff in F. destruct F as (F1 & F2). apply feqb_eq in F1, F2. intros H. injection H as <-. split; [now split|]. split; [reflexivity|].
    intros [|[|i]] [|[|j]] Hi Hj; cbn [nr] in *; try lia; cbn [nsum me nth Nat.eqb]; rewrite ?F1, ?F2; ring.
Qed.
End Small.
Notation ex_inv := (sm_inv QcF).
Notation ex_eig := (sm_eig QcF).
Definition ex_sqrt (x : QcF) : QcF := if feqb x (qc 4) then qc 2 else x.       (* on 0, 1, 4 *)
Definition ex_sig (_ : list QcF) (x : QcF) : bool := negb (feqb x 0).
Definition ex_T1 : mat QcF := Mat (K := QcF) 2 2 (fun i j => match i, j with O, O => qc (36 # 25) | S _, S _ => qc (64 # 25) | _, _ => qc (48 # 25) end).
Definition ex_eigh1 (_ : mat QcF) : result (list QcF * mat QcF) :=
  Ok ([qc 0; qc 4], Mat (K := QcF) 2 2 (fun i j => match i, j with O, O => qc (-4 # 5) | S _, S _ => qc (4 # 5) | _, _ => qc (3 # 5) end)).
Definition ex_T2 : mat QcF := Mat (K := QcF) 2 2 (fun i j => match i, j with O, O => qc 1 | S _, S _ => qc 4 | _, _ => qc 0 end).
Definition ex_eigh2 (_ : mat QcF) : result (list QcF * mat QcF) :=
  Ok ([qc 1; qc 4], Mat (K := QcF) 2 2 (fun i j => if (i =? j)%nat then qc 1 else qc 0)).
Lemma ex_env1 : beb_env QcF (fun x => x) ex_eig ex_inv ex_eigh1 ex_sqrt ex_sig ex_T1.
Proof.
  constructor.
  - repeat split.
  - intros l x H E. subst x. vm_compute in H. discriminate H.
  - exact (sm_inv_ok QcF).
  - exact (sm_eig_ok QcF).
  - reflexivity.
  - intros ev x H. injection H as <-. intros [<-|[<-|[]]]; apply Qc_is_canon; reflexivity.
  - intros ev H. injection H as <-. split; [|split].
    + split; [now split|]. split; [reflexivity|]. intros [|[|i]] [|[|j]] Hi Hj; cbn [nr ex_T1] in *; try lia; apply Qc_is_canon; vm_compute; reflexivity.
    + reflexivity.
    + intros [|[|i]] [|[|j]] Hi Hj; cbn [nr ex_T1] in *; try lia; apply Qc_is_canon; vm_compute; reflexivity.
  - intros ev x H. injection H as <-. intros [<-|[<-|[]]] S; vm_compute in S; [reflexivity|discriminate S].
Qed.
Lemma ex_env2 : beb_env QcF (fun x => x) ex_eig ex_inv ex_eigh2 ex_sqrt ex_sig ex_T2.
Proof.
  constructor.
  - repeat split.
  - intros l x H E. subst x. vm_compute in H. discriminate H.
  - exact (sm_inv_ok QcF).
  - exact (sm_eig_ok QcF).
  - reflexivity.
  - intros ev x H. injection H as <-. intros [<-|[<-|[]]]; apply Qc_is_canon; reflexivity.
  - intros ev H. injection H as <-. split; [|split].
    + split; [now split|]. split; [reflexivity|]. intros [|[|i]] [|[|j]] Hi Hj; cbn [nr ex_T2] in *; try lia; apply Qc_is_canon; vm_compute; reflexivity.
    + reflexivity.
    + intros [|[|i]] [|[|j]] Hi Hj; cbn [nr ex_T2] in *; try lia; apply Qc_is_canon; vm_compute; reflexivity.
  - intros ev x H. injection H as <-. intros [<-|[<-|[]]] S; vm_compute in S; discriminate S.
Qed.
Definition ex_ht (x : QcF) : result QcF := do a <- fdiv (qc (1 # 2)) (x - qc 1); do b <- fdiv (qc (1 # 2)) (x - qc (-1)); Ok (a + b).
Definition ex_self (a b : QcF) : mat QcF := Mat (K := QcF) 2 2 (fun i j => match i, j with O, O => a | S _, S _ => b | _, _ => 0 end).
Definition show_m (m : result (mat QcF)) : list (list Q) := match m with Ok m => map (fun i => map (fun j => this (me m i j)) (seq 0 (nc m))) (seq 0 (nr m)) | _ => [] end.
(** rank one (truncated) and full rank *)
Example C39_example :
  show_m (gf_loc_full (K := QcF) (fun x => x) ex_eig ex_inv ex_eigh1 (fun x => feqb x 0) ex_sqrt ex_sig ex_ht (qc 8) (ex_self 0 0) ex_T1)
  = [[7 # 50; 1 # 50]; [1 # 50; 91 # 600]]%Q /\
  show_m (gf_loc_full (K := QcF) (fun x => x) ex_eig ex_inv ex_eigh2 (fun x => feqb x 0) ex_sqrt ex_sig ex_ht (qc 8) (ex_self (qc 1) 0) ex_T2)
  = [[7 # 48; 0]; [0; 1 # 6]]%Q.
Proof. vm_compute. split; reflexivity. Qed.

(** the hypotheses of C39 are met by this run *)
Example C39_example_hyps :
  beb_env QcF (fun x => x) ex_eig ex_inv ex_eigh1 ex_sqrt ex_sig ex_T1 /\
  (forall x, (forall k, (k < 2)%nat -> x <> match k with O => qc 1 | _ => qc (-1) end) ->
     ex_ht x = Ok (nsum 2 (fun k => qc (1 # 2) / (x - match k with O => qc 1 | _ => qc (-1) end)))).
Proof.
  split; [exact ex_env1|]. intros x Hx. unfold ex_ht. rewrite !fdiv_intro.
  - cbn [bind]. apply (f_equal Ok). symmetry. cbn [nsum]. f_equal. apply Qcplus_0_l.
  - intros E. apply (proj1 (fsub_eq0 QcF _ _)) in E. exact (Hx 1%nat (le_n 2) E).
  - intros E. apply (proj1 (fsub_eq0 QcF _ _)) in E. exact (Hx 0%nat ltac:(lia) E).
Qed.

(** if the reduced matrix has the eigenvalue zero the truncated formula divides by zero although the lattice sum exists *)
Definition ex_R (k i j : nat) : QcF :=
  let e := match k with O => qc 1 | _ => qc (-1) end in
  let zi := fun i => match i with O => qc 16 | _ => qc (-9) end in
  (if (i =? j)%nat then zi i else 0) + e * zi i * me ex_T1 i j * zi j.
Theorem C39_zero_eigenvalue_refuted : exists conj eigO invO eighO close0 sqrt significant ht (T : mat QcF) z self N w eps R,
  beb_env QcF conj eigO invO eighO sqrt significant T /\ nr self = nr T /\ nc self = nr T /\ nsum N w = 1 /\
  (forall x, (forall k, (k < N)%nat -> x <> eps k) -> ht x = Ok (nsum N (fun k => w k / (x - eps k)))) /\
  (forall k, (k < N)%nat -> minv QcF (nr T) (fun i j => (if (i =? j)%nat then z else 0) - me self i j - eps k * me T i j) (R k)) /\
  gf_loc_z conj eigO invO eighO close0 sqrt significant ht z self T false = Err NonFinite.
Proof.
  exists (fun x => x), ex_eig, ex_inv, ex_eigh1, (fun x => feqb x 0), ex_sqrt, ex_sig, ex_ht, ex_T1, (qc 0), (ex_self (qc (-1 # 16)) (qc (1 # 9))), 2%nat,
    (fun _ => qc (1 # 2)), (fun k => match k with O => qc 1 | _ => qc (-1) end), ex_R.
  split; [exact ex_env1|]. split; [reflexivity|]. split; [reflexivity|]. split; [apply Qc_is_canon; reflexivity|].
  split; [exact (proj2 C39_example_hyps)|]. split.
  - intros [|[|k]] Hk [|[|i]] [|[|j]] Hi Hj; cbn [nr ex_T1] in *; try lia; apply Qc_is_canon; vm_compute; reflexivity.
  - vm_compute. reflexivity.
Qed.
Print Assumptions C39_zero_eigenvalue_refuted.

(** C61: values of the root equation for a rank-one and a full-rank hopping matrix; the second is a solution *)
Definition ex_root eighO z self e c T : result (mat QcF) :=
  do d <- specdec (K := QcF) (fun x => x) eighO (fun x => feqb x 0) ex_sig T; beb_root_eq (K := QcF) ex_eig ex_inv ex_sqrt ex_ht self z e c d.
Example C61_example :
  show_m (ex_root ex_eigh1 (qc 8) (ex_self 0 0) [qc 1; qc 2] [qc (1 # 2); qc (1 # 2)] ex_T1) = [[-132 # 25; -24 # 25]; [-24 # 25; -68 # 25]]%Q /\
  show_m (ex_root ex_eigh2 (qc 8) (ex_self (qc 1) 0) [qc (31 # 7); qc 3] [qc (1 # 2); qc (1 # 2)] ex_T2) = [[0; 0]; [0; 0]]%Q.
Proof. vm_compute. split; reflexivity. Qed.

(** C36, BEB version: only the diagonal is restricted.  [shaped root]: root returns matrices of the shape of its argument. *)
Theorem C36_beb_zero_is_physical_root : forall (root : list (mat CF) -> result (list (mat CF))) (selfs r s' : list (mat CF)),
  (forall x y, root x = Ok y -> Forall2 (fun A B => nr A = nr B /\ nc A = nc B) y x) ->
  beb_restrict root selfs = (Ok r, s') -> (forall A, In A r -> forall i j, (i < nr A)%nat -> (j < nc A)%nat -> me A i j = RtoC 0) ->
  (forall A, In A selfs -> forall i, (i < nr A)%nat -> (i < nc A)%nat -> (snd (me A i i : C) <= 0)%R) /\ root selfs = Ok r /\ s' = selfs.
Proof. exact beb_restrict_zero. Qed.
Print Assumptions C36_beb_zero_is_physical_root.
Theorem C36_beb_physical_unchanged : forall (root : list (mat CF) -> result (list (mat CF))) (selfs : list (mat CF)),
  (forall A, In A selfs -> forall i, (i < nr A)%nat -> (i < nc A)%nat -> (snd (me A i i : C) <= 0)%R) -> beb_restrict root selfs = (root selfs, selfs).
Proof. exact beb_restrict_physical. Qed.
Print Assumptions C36_beb_physical_unchanged.
Theorem C36_beb_values : forall (root : list (mat CF) -> result (list (mat CF))) (selfs r s' : list (mat CF)),
  (forall x y, root x = Ok y -> Forall2 (fun A B => nr A = nr B /\ nc A = nc B) y x) -> beb_restrict root selfs = (Ok r, s') ->
  exists r0, root s' = Ok r0 /\ length r = length r0 /\ length s' = length selfs /\
    forall k A s B X, nth_error selfs k = Some A -> nth_error s' k = Some s -> nth_error r0 k = Some B -> nth_error r k = Some X ->
      forall i j, (i < nr A)%nat -> (j < nc A)%nat ->
        me s i j = (if (i =? j)%nat then (fst (me A i i : C), Rmin 0 (snd (me A i i : C))) : C else me A i j) /\
        (i <> j \/ (snd (me A i i : C) <= 0)%R -> me X i j = me B i j) /\ (i = j -> (0 < snd (me A i i : C))%R -> me X i i <> RtoC 0).
Proof.
  intros root selfs r s' SH H. destruct (beb_restrict_values root selfs r s' SH H) as (_ & L & _ & r0 & A & B & D). exists r0. auto.
Qed.
Print Assumptions C36_beb_values.
Example C36_beb_example : let A := Mat (K := CF) 1 1 (fun _ _ => (1, 1)%R) in
  forall r s', beb_restrict (fun x => Ok (map (fun A : mat CF => Mat (K := CF) (nr A) (nc A) (fun i j => Cminus (me A i j) (1, 1)%R)) x)) [A] = (Ok r, s') ->
  (exists X, In X r /\ me X 0%nat 0%nat <> RtoC 0) /\ exists S, s' = [S] /\ me S 0%nat 0%nat = (1, 0)%R.
Proof.
  intros A r s' H. match type of H with beb_restrict ?f _ = _ => assert (SH : shaped f) by (intros x y E; injection E as <-; clear; induction x; constructor; [now split|assumption]) end.
  destruct (beb_restrict_values _ _ _ _ SH H) as (_ & L & _ & r0 & R0 & L2 & V).
  destruct s' as [|S [|]]; try discriminate L. injection R0 as <-. cbn in L2. destruct r as [|X [|]]; try discriminate L2.
  destruct (V 0%nat A S _ X eq_refl eq_refl eq_refl eq_refl 0%nat 0%nat (le_n 1) (le_n 1)) as (V1 & _ & V3). split.
  - exists X. split; [now left|]. apply V3; [reflexivity|]. cbn. lra.
  - exists S. split; [reflexivity|]. rewrite V1. cbn. unfold Rmin. destruct (Rle_dec 0 1); [reflexivity|lra].
Qed.

(** C38, BEB version *)
Theorem C38_beb_solve_root : forall (root : list (mat CF) -> result (list (mat CF)))
    (opt : (list (mat CF) -> result (list (mat CF)) * list (mat CF)) -> list (mat CF) -> result (list (mat CF) * bool)) zs n self0 restricted sol,
  beb_solve_root root opt zs n self0 restricted = Ok sol ->
  exists x0, opt (if restricted then beb_restrict root else fun x => (root x, x)) x0 = Ok (sol, true) /\ (forall s, self0 = Some s -> x0 = s) /\
    (self0 = None -> (forall z, In z zs -> (0 <= snd z)%R) -> forall A, In A x0 -> forall i, (i < nr A)%nat -> (i < nc A)%nat -> (snd (me A i i : C) <= 0)%R).
Proof.
  intros root opt zs n self0 restricted sol H. destruct (beb_solve_spec root opt zs n self0 restricted sol H) as (x0 & E & A & B). exists x0.
  assert (F : beb_f root restricted = if restricted then beb_restrict root else fun x => (root x, x)) by (unfold beb_f; now destruct restricted).
  rewrite <- F. auto.
Qed.
Print Assumptions C38_beb_solve_root.
Theorem C38_beb_failure : forall root opt zs n self0 restricted, (forall f x0 x, opt f x0 <> Ok (x, true)) -> forall r, beb_solve_root root opt zs n self0 restricted <> Ok r.
Proof. exact beb_solve_failure. Qed.
Print Assumptions C38_beb_failure.
Theorem C38_beb_correct : forall (root : list (mat CF) -> result (list (mat CF))) opt zs n self0 restricted (sol : list (mat CF)),
  (forall x y, root x = Ok y -> Forall2 (fun A B : mat CF => nr A = nr B /\ nc A = nc B) y x) -> beb_solve_root root opt zs n self0 restricted = Ok sol ->
  (forall f x0 x, opt f x0 = Ok (x, true) -> exists r, fst (f x) = Ok r /\ forall A, In A r -> forall i j, (i < nr A)%nat -> (j < nc A)%nat -> me A i j = RtoC 0) ->
  (exists r, root sol = Ok r /\ forall A, In A r -> forall i j, (i < nr A)%nat -> (j < nc A)%nat -> me A i j = RtoC 0) /\
  (restricted = true -> forall A, In A sol -> forall i, (i < nr A)%nat -> (i < nc A)%nat -> (snd (me A i i : C) <= 0)%R).
Proof. exact beb_solve_zero. Qed.
Print Assumptions C38_beb_correct.
(** the assertion on the start value cannot fail *)
Theorem C38_beb_no_assertion : forall root opt zs n self0 restricted, (forall x, root x <> Err AssertionError) -> (forall f x, opt f x <> Err AssertionError) ->
  beb_solve_root root opt zs n self0 restricted <> Err AssertionError.
Proof. exact beb_solve_no_assert. Qed.
Print Assumptions C38_beb_no_assertion.
(** one component: the start value is the solution *)
Example C38_beb_example :
  beb_solve_root (fun x => Ok x) (fun _ x0 => Ok (x0, true)) [(0, 1)%R] 1 None true
  = Ok [retarded_diag (Mat (K := CF) 1 1 (fun _ _ => RtoC 0))].
Proof.
  unfold beb_solve_root. cbn [map bind]. unfold forallb. cbn [snd]. destruct (Rle_dec 0 1) as [_|]; [|lra]. cbn [andb map]. cbn [existsb].
  assert (E : diag_unphysical (retarded_diag (Mat (K := CF) 1 1 (fun _ _ => RtoC 0))) = false) by (apply phys_diag_iff, beb_start_retarded).
  rewrite E. reflexivity.
Qed.
