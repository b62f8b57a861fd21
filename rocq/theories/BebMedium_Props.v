(** * C82 continued: the effective medium of gftool/beb.py *)
From Coq Require Import List Arith Lia Bool Reals Lra.
From Coquelicot Require Import Coquelicot.
From Verif Require Import Base FSum CBase Herm_Proofs Linalg_Model Linalg_Proofs Mat Matrix_Model Matrix_Proofs MatAlg Cpa_Model Beb_Model Beb_Core Beb_Proofs Beb_Props BebCausal_Proofs BebCausal_Props BebMedium_Proofs.
Import ListNotations.
Local Open Scope R_scope.

(** v^+ v *)
Definition norm2 (n : nat) (v : nat -> C) : R := fst (nsum (K := CF) n (fun i => (Cconj (v i) * v i)%C)).
Lemma norm2_sq n v : norm2 n v = sq n v.
Proof. unfold norm2, sq. rewrite fst_csum. clear. induction n as [|n IH]; cbn [rsum]; [reflexivity|]. rewrite IH. f_equal. cbn. ring. Qed.

(** the inverse local Green's function in the root equation damps by at least Im z more than the self-energy *)
Theorem C82_medium_damping : forall eigO invO eighO close0 sqrt significant ht (T : mat CF),
  beb_env CF Cconj eigO invO eighO sqrt significant T -> hermitian (nr T) (me T) ->
  forall (z : C) (self : mat CF) N w eps, nr self = nr T -> nc self = nr T -> 0 < snd z -> damping (nr T) (me self) -> discrete_ht ht N w eps ->
  forall e_onsite conc d r, length conc = nr T -> specdec (K := CF) Cconj eighO close0 significant T = Ok d -> beb_root_eq (K := CF) eigO invO sqrt ht self z e_onsite conc d = Ok r ->
  exists Gi : nat -> nat -> C,
    (forall G, gf_loc_z (K := CF) Cconj eigO invO eighO close0 sqrt significant ht z self T false = Ok (RFull G) -> minv CF (nr T) (me G) Gi) /\
    (forall v, snd z * norm2 (nr T) v <= snd (quad (nr T) Gi v) + snd (quad (nr T) (me self) v)) /\
    forall i j, (i < nr T)%nat -> (j < nr T)%nat -> me r i j = (Gi i j - (if (i =? j)%nat then (Gi i i + me self i i - nth i e_onsite (RtoC 0)) / nth i conc (RtoC 0) else RtoC 0))%C.
Proof.
  intros eigO invO eighO close0 sqrt significant ht T E HT z self N w eps S1 S2 Hz HS HD es cs d r L SD HR.
  destruct (C82_lattice_sum eigO invO eighO close0 sqrt significant ht T E HT z self N w eps S1 S2 Hz HS HD) as (R & MR & HL). destruct HD as [P1 P2 P3].
  destruct (C61_root_equation CF Cconj eigO invO eighO close0 sqrt significant ht T E z self N (fun k => RtoC (w k)) (fun k => RtoC (eps k)) R S1 S2 P2 P3 MR es cs d r L SD HR) as (Gi & MG0 & V & _). assert (MG := minv_comm CF (nr T) _ _ MG0).
  exists Gi. split; [|split; [|exact V]].
  - intros G HG. destruct (HL G HG) as (_ & _ & VG). intros i j Hi Hj. rewrite <- (MG i j Hi Hj). apply (nsum_ext CF). intros l Hl. exact (f_equal (fun x : C => Fmul (f := CF) x (Gi l j)) (VG i l Hi Hl)).
  - intros v. rewrite norm2_sq. exact (medium (nr T) z (me self) (me T) Hz HS HT N w eps R P1 P2 MR Gi MG v).
Qed.
Print Assumptions C82_medium_damping.

(** at a solution the local Green's function is diagonal, retarded, and bounded by the concentration over Im z *)
Theorem C82_solution_bound : forall eigO invO eighO close0 sqrt significant ht (T : mat CF),
  beb_env CF Cconj eigO invO eighO sqrt significant T -> hermitian (nr T) (me T) ->
  forall (z : C) (self : mat CF) N w eps, nr self = nr T -> nc self = nr T -> 0 < snd z -> damping (nr T) (me self) -> discrete_ht ht N w eps ->
  forall (es cs : list R) d r G, length es = nr T -> length cs = nr T -> (forall c, In c cs -> 0 < c) ->
  specdec (K := CF) Cconj eighO close0 significant T = Ok d -> beb_root_eq (K := CF) eigO invO sqrt ht self z (map RtoC es) (map RtoC cs) d = Ok r ->
  (forall i j, (i < nr T)%nat -> (j < nr T)%nat -> me r i j = RtoC 0) ->
  gf_loc_z (K := CF) Cconj eigO invO eighO close0 sqrt significant ht z self T false = Ok (RFull G) ->
  forall i j, (i < nr T)%nat -> (j < nr T)%nat ->
    (i <> j -> me G i j = RtoC 0) /\ (i = j -> snd (me G i i : C) < 0 /\ Cmod (me G i i) * snd z <= nth i cs 0).
Proof.
  intros eigO invO eighO close0 sqrt significant ht T E HT z self N w eps S1 S2 Hz HS HD es cs d r G Le Lc HC SD HR R0 HG i j Hi Hj.
  destruct (C82_medium_damping eigO invO eighO close0 sqrt significant ht T E HT z self N w eps S1 S2 Hz HS HD (map RtoC es) (map RtoC cs) d r ltac:(now rewrite map_length) SD HR) as (Gi & MG & P & V).
  specialize (MG G HG).
  assert (VV : forall k, (k < nr T)%nat -> (Gi k k * RtoC (nth k cs 0) = Gi k k + me self k k - RtoC (nth k es 0))%C /\ 0 < nth k cs 0).
  { intros k Hk. assert (C0 : 0 < nth k cs 0) by (apply HC, nth_In; lia). split; [|exact C0]. assert (X := V k k Hk Hk). rewrite Nat.eqb_refl, (R0 k k Hk Hk) in X.
    assert (Y : RtoC 0 = (Gi k k - (Gi k k + me self k k - RtoC (nth k es 0)) / RtoC (nth k cs 0))%C).
    { etransitivity; [exact X|]. exact (f_equal2 (fun x y : C => (Gi k k - (Gi k k + me self k k - x) / y)%C) (map_nth RtoC es 0 k) (map_nth RtoC cs 0 k)). }
    assert (N0 : RtoC (nth k cs 0) <> RtoC 0) by (intros Q; apply (f_equal (@fst R R)) in Q; cbn in Q; lra).
    set (a := (Gi k k + me self k k - RtoC (nth k es 0))%C) in *. set (c := RtoC (nth k cs 0)) in *. assert (GA : Gi k k = (a / c)%C); [|rewrite GA; field; exact N0].
    transitivity ((Gi k k - a / c) + a / c)%C; [ring|]. rewrite <- Y. ring. }
  assert (IM : forall k, (k < nr T)%nat -> snd z <= nth k cs 0 * snd (Gi k k)).
  { intros k Hk. assert (X := P (fun l => kron (K := CF) k l)). rewrite norm2_sq in X.
    change (snd z * sq (nr T) (fun l => kron (K := CF) k l) <= snd (qform (nr T) Gi (fun l => kron (K := CF) k l)) + snd (qform (nr T) (me self) (fun l => kron (K := CF) k l))) in X.
    rewrite !(qform_unit (nr T) _ k Hk) in X.
    assert (Q1 : 1 <= sq (nr T) (fun l => kron (K := CF) k l)).
    { unfold sq. refine (Rle_trans _ _ _ _ (rsum_pos (nr T) (fun l => fst (kron (K := CF) k l : C) * fst (kron (K := CF) k l : C) + snd (kron (K := CF) k l : C) * snd (kron (K := CF) k l : C)) _ k Hk)).
      - unfold kron. rewrite Nat.eqb_refl. cbn. lra.
      - intros l _. nra. }
    destruct (VV k Hk) as (Q & C0). apply (f_equal (@snd R R)) in Q. set (q := Gi k k) in *. set (s := (me self k k : C)) in *. cbn in Q. nra. }
  assert (OFF : forall a b, (a < nr T)%nat -> (b < nr T)%nat -> a <> b -> Gi a b = RtoC 0).
  { intros a b Ha Hb Nab. assert (X := V a b Ha Hb). rewrite (R0 a b Ha Hb) in X. destruct (Nat.eqb_spec a b); [contradiction|]. transitivity (Gi a b - RtoC 0)%C; [ring|]. now rewrite <- X. }
  assert (GG : (me G i j * Gi j j)%C = if (i =? j)%nat then RtoC 1 else RtoC 0).
  { assert (X := MG i j Hi Hj). rewrite (nsum_single CF (nr T) j (fun l => Fmul (f := CF) (me G i l) (Gi l j)) Hj) in X.
    - unfold kron in X. exact X.
    - intros l Hl Nl. rewrite (OFF l j Hl Hj Nl). change (@eq C (me G i l * RtoC 0)%C (RtoC 0)). ring. }
  destruct (VV j Hj) as (_ & C0). assert (Ij := IM j Hj). assert (Ip : 0 < snd (Gi j j)) by nra.
  assert (N0 : Gi j j <> RtoC 0) by (intros Q; rewrite Q in Ip; cbn in Ip; lra).
  assert (DV : forall a b : C, b <> RtoC 0 -> (a * b)%C = RtoC 0 -> a = RtoC 0).
  { intros a b Nb Eab. transitivity ((a * b) / b)%C; [field; exact Nb|]. rewrite Eab. field. exact Nb. }
  split.
  - intros Nij. destruct (Nat.eqb_spec i j); [contradiction|]. exact (DV (me G i j) (Gi j j) N0 GG).
  - intros <-. rewrite Nat.eqb_refl in GG. set (g := (me G i i : C)) in *. set (q := Gi i i) in *. split.
    + assert (Q1 := f_equal (@fst R R) GG). assert (Q2 := f_equal (@snd R R) GG). cbn in Q1, Q2.
      assert (Q3 : snd g * (fst q * fst q + snd q * snd q) = - snd q).
      { transitivity (fst q * (fst g * snd q + snd g * fst q) - snd q * (fst g * fst q - snd g * snd q)); [ring|]. rewrite Q1, Q2. ring. }
      destruct (Rlt_le_dec (snd g) 0) as [|Gp]; [assumption|]. assert (0 <= snd g * (fst q * fst q + snd q * snd q)) by (apply Rmult_le_pos; [exact Gp|nra]). lra.
    + assert (M := f_equal Cmod GG). rewrite Cmod_mult, Cmod_1 in M. assert (B := Rle_trans _ _ _ (Rmax_r _ _) (Rmax_Cmod q)). rewrite Rabs_pos_eq in B by lra.
      assert (0 <= Cmod g) by apply Cmod_ge_0. nra.
Qed.
Print Assumptions C82_solution_bound.

(** ** two components without hopping between them, concentrations 1/2, the two level lattice: Sigma = -5i/4 solves the root equation at z = 3i/4 *)
Definition d2_T : mat CF := Mat (K := CF) 2 2 (fun i j => kron i j).
Definition d2_eigh (_ : mat CF) : result (list CF * mat CF) := Ok ([RtoC 1; RtoC 1], d2_T).
Definition d2_self : mat CF := Mat (K := CF) 2 2 (fun i j => if (i =? j)%nat then (0, -5/4) else RtoC 0).
Lemma d2_env : beb_env CF Cconj c2_eig c2_inv d2_eigh c2_sqrt c2_sig d2_T.
Proof.
  destruct c2_env as [A1 A2 A3 A4 _ _ _ _]. constructor; try assumption.
  - reflexivity.
  - intros ev x H I. injection H as <-. cbn in I. unfold c2_sqrt. destruct I as [<-|[<-|[]]]; destruct (Ceq_dec _ _) as [e|e]; try c2; apply (f_equal fst) in e; cbn in e; lra.
  - intros ev H. injection H as <-. split; [split; [now split|split; [reflexivity|]]|split].
    + intros i j Hi Hj. cbn [nr d2_T] in Hi, Hj |- *. assert (i = 0 \/ i = 1)%nat as [->| ->] by lia; assert (j = 0 \/ j = 1)%nat as [->| ->] by lia; apply injective_projections; cbn; lra.
    + intros x I. cbn in I. destruct I as [<-|[<-|[]]]; c2.
    + intros i j Hi Hj. cbn [nr d2_T] in Hi, Hj |- *. assert (i = 0 \/ i = 1)%nat as [->| ->] by lia; assert (j = 0 \/ j = 1)%nat as [->| ->] by lia; apply injective_projections; cbn; lra.
  - intros ev x H I S. injection H as <-. unfold c2_sig in S. destruct (Ceq_dec x (RtoC 0)); [assumption|discriminate].
Qed.
Lemma d2_herm : hermitian 2 (me d2_T).
Proof. intros i j Hi Hj. assert (i = 0 \/ i = 1)%nat as [->| ->] by lia; assert (j = 0 \/ j = 1)%nat as [->| ->] by lia; apply injective_projections; cbn; lra. Qed.
Lemma d2_damping : damping 2 (me d2_self).
Proof. intros v. unfold quad. cbn. nra. Qed.
Lemma d2_run : exists d r G, specdec (K := CF) Cconj d2_eigh (fun _ => true) c2_sig d2_T = Ok d /\
  beb_root_eq (K := CF) c2_eig c2_inv c2_sqrt c2_ht d2_self (0, 3/4) (map RtoC [0; 0]) (map RtoC [1/2; 1/2]) d = Ok r /\
  (forall i j, (i < 2)%nat -> (j < 2)%nat -> me r i j = RtoC 0) /\
  gf_loc_z (K := CF) Cconj c2_eig c2_inv d2_eigh (fun _ => true) c2_sqrt c2_sig c2_ht (0, 3/4) d2_self d2_T false = Ok (RFull G).
Proof.
  unfold gf_loc_z, gf_loc_full, specdec, decompose_her.
  assert (A0 : allclose0 (K := CF) (fun _ => true) (msub (K := CF) d2_T (ctr (K := CF) Cconj d2_T)) = true) by reflexivity. rewrite A0. clear A0. cbn [andb negb d2_eigh bind fst snd].
  assert (E : truncate (K := CF) c2_sig (Dec d2_T [RtoC 1; RtoC 1] (ctr (K := CF) Cconj d2_T)) = Dec (Mat (K := CF) 2 2 (fun i j => me d2_T i (nth j [0;1] 0)%nat)) [RtoC 1; RtoC 1] (Mat (K := CF) 2 2 (fun i j => me (ctr (K := CF) Cconj d2_T) (nth i [0;1] 0)%nat j))).
  { unfold truncate. cbn [eig length seq filter nth]. unfold c2_sig. destruct (Ceq_dec (RtoC 1) (RtoC 0)) as [e|_]; [apply (f_equal fst) in e; cbn in e; lra|]. reflexivity. }
  rewrite E. clear E. set (hd := Dec _ _ _). exists hd. unfold beb_root_eq.
  assert (S1 : c2_sqrt (RtoC 1) = RtoC 1) by (unfold c2_sqrt; destruct (Ceq_dec _ _) as [e|_]; [apply (f_equal fst) in e; cbn in e; lra|reflexivity]).
  assert (I1 : exists zi, c2_inv (z_minus (K := CF) (0, 3/4) d2_self) = Ok zi /\ nr zi = 2%nat /\ nc zi = 2%nat /\ forall i j, me zi i j = match i, j with O, O => (0, -1/2) | O, _ => RtoC 0 | _, O => RtoC 0 | _, _ => (0, -1/2) end).
  { unfold c2_inv. cbn [nr nc z_minus d2_self Nat.eqb andb]. set (d := Cminus _ _). assert (D : d = RtoC (-4)) by (unfold d; cbn; c2). clearbody d. subst d.
    destruct (Ceq_dec _ _) as [e|_]; [apply (f_equal fst) in e; cbn in e; lra|]. eexists. split; [reflexivity|]. split; [reflexivity|]. split; [reflexivity|]. intros [|i] [|j]; cbn; apply injective_projections; cbn; field. }
  destruct I1 as (zi & -> & R1 & R2 & Vz). cbn [bind].
  set (M := mm _ _). unfold decompose_mat.
  assert (EM : nr M = 2%nat /\ nc M = 2%nat /\ me M 0%nat 1%nat = RtoC 0 /\ me M 1%nat 0%nat = RtoC 0 /\ me M 0%nat 0%nat = (0, -1/2) /\ me M 1%nat 1%nat = (0, -1/2)).
  { unfold M, mm. cbn [nr nc me part_us part_suh hd rv rv_inv eig nsum nth]. rewrite R2. cbn [nsum]. rewrite !Vz, S1. cbn. repeat split; apply injective_projections; cbn; lra. }
  destruct EM as (M1 & M2 & M3 & M4 & M5 & M6). unfold c2_eig. rewrite M1, M2. cbn [Nat.eqb andb].
  destruct (Ceq_dec (me M 0%nat 1%nat) _) as [_|e]; [|contradiction]. destruct (Ceq_dec _ _) as [_|e]; [|contradiction]. cbn [bind fst snd].
  assert (I2 : exists vi, c2_inv (Mat (K := CF) 2 2 (fun i j => kron i j)) = Ok vi /\ nr vi = 2%nat /\ nc vi = 2%nat /\ forall i j, me vi i j = match i, j with O, O => RtoC 1 | O, _ => RtoC 0 | _, O => RtoC 0 | _, _ => RtoC 1 end).
  { unfold c2_inv. cbn [nr nc Nat.eqb andb]. set (d := Cminus _ _). assert (D : d = RtoC 1) by (unfold d; cbn; c2). clearbody d. subst d.
    destruct (Ceq_dec _ _) as [e|_]; [apply (f_equal fst) in e; cbn in e; lra|]. eexists. split; [reflexivity|]. split; [reflexivity|]. split; [reflexivity|]. intros [|i] [|j]; cbn; apply injective_projections; cbn; field. }
  destruct I2 as (vi & -> & T1 & T2 & Vv). cbn [bind eig existsb]. rewrite M5, M6.
  assert (NZ : forall y : C, snd y <> 0 -> feqb (K := CF) y 0%fld = false) by (intros y Hy; unfold feqb; destruct (Feq_dec _ _) as [e|]; [apply (f_equal (@snd R R)) in e; contradiction|reflexivity]).
  rewrite (NZ (0, -1/2)) by (cbn; lra). cbn [orb map mapM].
  assert (Q1 : @Fdiv CF (@F1 CF) (0, -1/2) = (0, 2)) by (apply injective_projections; cbn; field).
  assert (H1 : c2_ht (0, 2) = Ok (0, -2/5)) by (unfold c2_ht; f_equal; apply injective_projections; cbn; unfold c2_w; field).
  rewrite Q1, H1. cbn [bind existsb]. rewrite (NZ (0, -2/5)) by (cbn; lra). cbn [orb].
  assert (NC : forall c : R, c <> 0 -> feqb (K := CF) (RtoC c) 0%fld = false) by (intros c Hc; unfold feqb; destruct (Feq_dec _ _) as [e|]; [apply (f_equal (@fst R R)) in e; contradiction|reflexivity]).
  rewrite (NC (1/2)) by lra. cbn [orb]. eexists. eexists. split; [reflexivity|]. split; [reflexivity|]. split; [|reflexivity].
  assert (Q2 : @Fdiv CF (@F1 CF) (0, -2/5) = (0, 5/2)) by (apply injective_projections; cbn; field).
  assert (TR : is_truncated (K := CF) hd = false) by reflexivity. rewrite TR. cbn [negb map]. rewrite ?Q2.
  intros i j Hi Hj. assert (i = 0 \/ i = 1)%nat as [->| ->] by lia; assert (j = 0 \/ j = 1)%nat as [->| ->] by lia; cbn [negb me recon_full rv rv_inv nr nc mm part_us part_suh hd eig nth nsum Nat.eqb d2_self map]; rewrite ?T1, ?T2; cbn [nsum]; rewrite ?Vv, ?S1; apply injective_projections; cbn; field.
Qed.
(** every hypothesis holds: the local Green's function is diagonal and bounded by (1/2) / (3/4) *)
Example C82_solution_example : exists G, gf_loc_z (K := CF) Cconj c2_eig c2_inv d2_eigh (fun _ => true) c2_sqrt c2_sig c2_ht (0, 3/4) d2_self d2_T false = Ok (RFull G) /\
  me G 0%nat 1%nat = RtoC 0 /\ snd (me G 0%nat 0%nat : C) < 0 /\ Cmod (me G 0%nat 0%nat) <= 2/3.
Proof.
  destruct d2_run as (d & r & G & HD & HR & R0 & HG). exists G. split; [exact HG|].
  assert (P := C82_solution_bound c2_eig c2_inv d2_eigh (fun _ => true) c2_sqrt c2_sig c2_ht d2_T d2_env d2_herm (0, 3/4) d2_self 2 c2_w c2_eps eq_refl eq_refl ltac:(cbn; lra) d2_damping c2_discrete
    [0; 0] [1/2; 1/2] d r G eq_refl eq_refl ltac:(intros c [<-|[<-|[]]]; lra) HD HR R0 HG).
  assert (P01 := proj1 (P 0%nat 1%nat ltac:(cbn; lia) ltac:(cbn; lia)) ltac:(lia)). destruct (proj2 (P 0%nat 0%nat ltac:(cbn; lia) ltac:(cbn; lia)) eq_refl) as (P1 & P2).
  split; [exact P01|]. split; [exact P1|]. cbn [snd nth] in P2. lra.
Qed.
