(** * C80: the BEB formalism with a component independent hopping is the CPA *)
From Coq Require Import List Arith Lia Bool QArith Qcanon.
From Verif Require Import Base FSum Herm_Proofs Linalg_Model Linalg_Proofs Mat Matrix_Model Matrix_Proofs MatAlg Cpa_Model Cpa_Proofs Beb_Model Beb_Core Beb_Proofs Beb_Props BebCpa_Proofs.
Import ListNotations.
Local Open Scope fld_scope.

(** the root equation of beb.py vanishes exactly if the self-energy matrix is built from a root s of the root equation of cpa.py;
    ht is any Hilbert transform *)
Theorem C80_root_iff_cpa_root : forall (K : Fld) conj eigO invO eighO close0 sqrt significant ht (T : mat K),
  beb_env K conj eigO invO eighO sqrt significant T -> (0 < nr T)%nat -> (forall i j, (i < nr T)%nat -> (j < nr T)%nat -> me T i j = 1) ->
  forall z (self : mat K) es cs d r, nr self = nr T -> nc self = nr T -> length es = nr T -> length cs = nr T -> lsum cs = 1 ->
  specdec conj eighO close0 significant T = Ok d -> beb_root_eq eigO invO sqrt ht self z es cs d = Ok r ->
  (forall i j, (i < nr T)%nat -> (j < nr T)%nat -> me r i j = 0) <->
  exists s g, z <> s /\ ht (z - s) = Ok g /\ g <> 0 /\ self_root_eq ht s z es cs = Ok 0 /\
    forall i j, (i < nr T)%nat -> (j < nr T)%nat -> me self i j = if (i =? j)%nat then s + 1 / g - (s + 1 / g - nth i es 0) / nth i cs 0 else s + 1 / g - z.
Proof.
  intros K conj eigO invO eighO close0 sqrt significant ht T [E1 E2 E3 E4 E5 E6 E7 E8] Np HO z self es cs d r S1 S2 L1 L2 C1 SD H.
  exact (root_iff_cpa K conj eigO invO eighO close0 sqrt significant ht E1 E2 E3 E4 T E5 E6 E7 E8 Np HO z self S1 S2 es cs d r L1 L2 C1 SD H).
Qed.
Print Assumptions C80_root_iff_cpa_root.

(** at such a self-energy gf_loc_z of beb.py is diagonal, holds the concentration times the component functions of cpa.py, and its
    trace is the CPA Green's function ht(z - s) *)
Theorem C80_gf_loc_is_cpa : forall (K : Fld) conj eigO invO eighO close0 sqrt significant ht (T : mat K),
  beb_env K conj eigO invO eighO sqrt significant T -> (0 < nr T)%nat -> (forall i j, (i < nr T)%nat -> (j < nr T)%nat -> me T i j = 1) ->
  forall z (self : mat K) es cs s g gs G, nr self = nr T -> nc self = nr T -> length es = nr T -> length cs = nr T -> lsum cs = 1 -> ~ In 0 cs ->
  ht (z - s) = Ok g -> g <> 0 -> self_root_eq ht s z es cs = Ok 0 -> gf_cmpt_z ht z s es = Ok gs ->
  (forall i j, (i < nr T)%nat -> (j < nr T)%nat -> me self i j = if (i =? j)%nat then s + 1 / g - (s + 1 / g - nth i es 0) / nth i cs 0 else s + 1 / g - z) ->
  gf_loc_z conj eigO invO eighO close0 sqrt significant ht z self T false = Ok (RFull G) ->
  nr G = nr T /\ nc G = nr T /\ (forall i j, (i < nr T)%nat -> (j < nr T)%nat -> me G i j = if (i =? j)%nat then nth i cs 0 * nth i gs 0 else 0) /\
  nsum (nr T) (fun i => me G i i) = g.
Proof.
  intros K conj eigO invO eighO close0 sqrt significant ht T [E1 E2 E3 E4 E5 E6 E7 E8] Np HO z self es cs s g gs G S1 S2 L1 L2 C1 CN Hg G0 RE CM SE H.
  unfold gf_loc_z in H. destruct (gf_loc_full _ _ _ _ _ _ _ _ _ _ _) as [G'|] eqn:EG; [|discriminate]. cbn [bind] in H. injection H as ->.
  exact (loc_cpa K conj eigO invO eighO close0 sqrt significant ht E1 E2 E3 E4 T E5 E6 E7 E8 Np HO z self S1 S2 es cs s g gs G L1 L2 C1 CN Hg G0 RE CM SE EG).
Qed.
Print Assumptions C80_gf_loc_is_cpa.

(** both together: a solution of the BEB equations yields the CPA solution *)
Theorem C80_beb_solution : forall (K : Fld) conj eigO invO eighO close0 sqrt significant ht (T : mat K),
  beb_env K conj eigO invO eighO sqrt significant T -> (0 < nr T)%nat -> (forall i j, (i < nr T)%nat -> (j < nr T)%nat -> me T i j = 1) ->
  forall z (self : mat K) es cs d r G, nr self = nr T -> nc self = nr T -> length es = nr T -> length cs = nr T -> lsum cs = 1 ->
  specdec conj eighO close0 significant T = Ok d -> beb_root_eq eigO invO sqrt ht self z es cs d = Ok r ->
  (forall i j, (i < nr T)%nat -> (j < nr T)%nat -> me r i j = 0) ->
  gf_loc_z conj eigO invO eighO close0 sqrt significant ht z self T false = Ok (RFull G) ->
  exists s g gs, self_root_eq ht s z es cs = Ok 0 /\ ht (z - s) = Ok g /\ gf_cmpt_z ht z s es = Ok gs /\ nsum (nr T) (fun i => me G i i) = g /\
    forall i j, (i < nr T)%nat -> (j < nr T)%nat -> me G i j = if (i =? j)%nat then nth i cs 0 * nth i gs 0 else 0.
Proof.
  intros K conj eigO invO eighO close0 sqrt significant ht T E Np HO z self es cs d r G S1 S2 L1 L2 C1 SD H R0 HG.
  destruct (proj1 (C80_root_iff_cpa_root K conj eigO invO eighO close0 sqrt significant ht T E Np HO z self es cs d r S1 S2 L1 L2 C1 SD H) R0) as (s & g & ZS & Hg & G0 & RE & SE).
  destruct (root_eq_value K ht z s g es cs Hg (eq_trans L1 (eq_sym L2)) C1 0 G0 RE) as (gs & CM & _).
  assert (CN : ~ In 0 cs).
  { intros I. unfold beb_root_eq in H. destruct (invO _); [|discriminate]. cbn [bind] in H. destruct (decompose_mat _ _ _); [|discriminate]. cbn [bind] in H.
    destruct (existsb _ (eig _)); [discriminate|]. destruct (mapM _ _); [|discriminate]. cbn [bind] in H. destruct (existsb _ _); [discriminate|].
    assert (X : existsb (fun x => feqb x 0) cs = true) by (apply existsb_exists; exists 0; split; [exact I|now apply feqb_true]). rewrite X in H. discriminate. }
  destruct (C80_gf_loc_is_cpa K conj eigO invO eighO close0 sqrt significant ht T E Np HO z self es cs s g gs G S1 S2 L1 L2 C1 CN Hg G0 RE CM SE HG) as (_ & _ & GD & TR).
  exists s, g, gs. auto.
Qed.
Print Assumptions C80_beb_solution.

(** ** a run over the rationals: four components with the on-site energies +1 and -1, the two level lattice of [ex_ht] *)
Definition b4_T : mat QcF := Mat (K := QcF) 4 4 (fun _ _ => qc 1).
Definition b4_eigh (_ : mat QcF) : result (list QcF * mat QcF) :=
  Ok ([qc 0; qc 0; qc 0; qc 4], Mat (K := QcF) 4 4 (fun i j => match i, j with
    | 1, 0 | 3, 0 | 2, 1 | 3, 1 | 1, 2 | 2, 2 => qc (-1 # 2) | _, _ => qc (1 # 2) end)%nat).
(** the inverse of a 4x4 matrix is read off a candidate and verified *)
Definition b4_m (i : nat) : QcF := match i with 0 | 2 => qc 8 | _ => qc 16 end%nat.
Definition b4_cand : mat QcF := Mat (K := QcF) 4 4 (fun i j => (if (i =? j)%nat then 1 / b4_m i else 0) - qc (8 # 27) / (b4_m i * b4_m j)).
Definition b4_inv (A : mat QcF) : result (mat QcF) :=
  if ((nr A =? 4) && (nc A =? 4))%nat then
    if forallb (fun i => forallb (fun j => feqb (nsum 4 (fun k => me A i k * me b4_cand k j)) (kron i j)) (seq 0 4)) (seq 0 4) then Ok b4_cand else Err LinAlgError
  else ex_inv A.
Lemma b4_env : beb_env QcF (fun x => x) ex_eig b4_inv b4_eigh ex_sqrt ex_sig b4_T.
Proof.
  constructor.
  - repeat split.
  - intros l x H E. subst x. vm_compute in H. discriminate H.
  - intros B C E. unfold b4_inv. destruct ((nr B =? 4) && (nc B =? 4))%nat eqn:N4; [|now apply sm_inv_ok].
    apply andb_true_iff in N4. destruct N4 as (N4 & _). apply Nat.eqb_eq in N4. destruct (forallb _ _) eqn:F; [|discriminate]. intros H. injection H as <-. rewrite N4.
    split; [now split|]. intros i j Hi Hj. rewrite forallb_forall in F. assert (F1 := F i ltac:(apply in_seq; lia)). cbv beta in F1.
    rewrite forallb_forall in F1. apply feqb_true. exact (F1 j ltac:(apply in_seq; lia)).
  - exact (sm_eig_ok QcF).
  - reflexivity.
  - intros ev x H. injection H as <-. intros [<-|[<-|[<-|[<-|[]]]]]; apply Qc_is_canon; reflexivity.
  - intros ev H. injection H as <-. split; [|split].
    + split; [now split|]. split; [reflexivity|]. intros [|[|[|[|i]]]] [|[|[|[|j]]]] Hi Hj; cbn [nr b4_T] in *; try lia; apply Qc_is_canon; vm_compute; reflexivity.
    + reflexivity.
    + intros [|[|[|[|i]]]] [|[|[|[|j]]]] Hi Hj; cbn [nr b4_T] in *; try lia; apply Qc_is_canon; vm_compute; reflexivity.
  - intros ev x H. injection H as <-. intros [<-|[<-|[<-|[<-|[]]]]] S; vm_compute in S; [reflexivity|reflexivity|reflexivity|discriminate S].
Qed.
Definition b4_z : QcF := qc (10 # 3).
Definition b4_es : list QcF := [qc 1; qc (-1); qc 1; qc (-1)].
Definition b4_cs : list QcF := [qc (1 # 4); qc (1 # 4); qc (1 # 4); qc (1 # 4)].
Definition b4_self : mat QcF := Mat (K := QcF) 4 4 (fun i j => if (i =? j)%nat then qc 3 - b4_m i else qc (-1 # 3)).
Definition b4_root (self : mat QcF) : result (mat QcF) :=
  do d <- specdec (K := QcF) (fun x => x) b4_eigh (fun x => feqb x 0) ex_sig b4_T; beb_root_eq (K := QcF) ex_eig b4_inv ex_sqrt ex_ht self b4_z b4_es b4_cs d.
Example C80_example :
  show_m (b4_root b4_self) = (let o := [0; 0; 0; 0] in [o; o; o; o])%Q /\
  match self_root_eq (K := QcF) ex_ht (qc (1 # 3)) b4_z b4_es b4_cs with Ok r => this r | Err _ => 1%Q end = 0%Q /\
  show_m (gf_loc_full (K := QcF) (fun x => x) ex_eig b4_inv b4_eigh (fun x => feqb x 0) ex_sqrt ex_sig ex_ht b4_z b4_self b4_T)
  = [[1 # 8; 0; 0; 0]; [0; 1 # 16; 0; 0]; [0; 0; 1 # 8; 0]; [0; 0; 0; 1 # 16]]%Q.
Proof. vm_compute. repeat split; reflexivity. Qed.
(** the hypotheses of the theorems are met by this run *)
Example C80_example_hyps : beb_env QcF (fun x => x) ex_eig b4_inv b4_eigh ex_sqrt ex_sig b4_T /\
  (forall i j, (i < nr b4_T)%nat -> (j < nr b4_T)%nat -> me b4_T i j = 1) /\ lsum b4_cs = 1 /\ ~ In (0 : QcF) b4_cs /\
  exists d r, specdec (K := QcF) (fun x => x) b4_eigh (fun x => feqb x 0) ex_sig b4_T = Ok d /\ beb_root_eq (K := QcF) ex_eig b4_inv ex_sqrt ex_ht b4_self b4_z b4_es b4_cs d = Ok r.
Proof.
  split; [exact b4_env|]. split; [intros i j _ _; apply Qc_is_canon; reflexivity|]. split; [apply Qc_is_canon; vm_compute; reflexivity|].
  split; [intros [E|[E|[E|[E|[]]]]]; apply (f_equal this) in E; vm_compute in E; discriminate E|].
  assert (X : match b4_root b4_self with Ok _ => true | Err _ => false end = true) by (vm_compute; reflexivity). unfold b4_root in X.
  destruct (specdec _ _ _ _ _) as [d|]; [|discriminate X]. cbn [bind] in X. exists d. destruct (beb_root_eq _ _ _ _ _ _ _ _ _) as [r|]; [|discriminate X]. now exists r.
Qed.
