(** * C82: the local Green's function of gftool/beb.py is retarded *)
From Coq Require Import List Arith Lia Bool Reals Lra.
From Coquelicot Require Import Coquelicot.
From Verif Require Import Base FSum CBase Herm_Proofs Linalg_Model Linalg_Proofs Mat Matrix_Model Matrix_Proofs MatAlg Cpa_Model Beb_Model Beb_Core Beb_Proofs Beb_Props BebCausal_Proofs.
Import ListNotations.
Local Open Scope R_scope.

(** v^+ A v for the n x n matrix A *)
Definition quad (n : nat) (A : nat -> nat -> C) (v : nat -> C) : C :=
  nsum (K := CF) n (fun i => nsum (K := CF) n (fun j => (Cconj (v i) * A i j * v j)%C)).
(** a matrix self-energy which only damps: its anti-Hermitian part is negative semidefinite *)
Definition damping (n : nat) (S : nat -> nat -> C) : Prop := forall v, snd (quad n S v) <= 0.
Definition hermitian (n : nat) (T : nat -> nat -> C) : Prop := forall i j, (i < n)%nat -> (j < n)%nat -> T j i = Cconj (T i j).
(** ht is the Hilbert transform of the discrete density of states with the weights w and the energies eps *)
Record discrete_ht (ht : C -> result C) (N : nat) (w eps : nat -> R) : Prop := {
  dh_pos : forall k, (k < N)%nat -> 0 <= w k;
  dh_one : nsum (K := CF) N (fun k => RtoC (w k)) = RtoC 1;
  dh_val : forall x : C, (forall k, (k < N)%nat -> x <> RtoC (eps k)) -> ht x = Ok (nsum (K := CF) N (fun k => (RtoC (w k) / (x - RtoC (eps k)))%C)) }.

(** in the upper half plane every resolvent of the lattice exists, and gf_loc_z is their average; no resolvent is assumed *)
Theorem C82_lattice_sum : forall eigO invO eighO close0 sqrt significant ht (T : mat CF),
  beb_env CF Cconj eigO invO eighO sqrt significant T -> hermitian (nr T) (me T) ->
  forall (z : C) (self : mat CF) N w eps, nr self = nr T -> nc self = nr T -> 0 < snd z -> damping (nr T) (me self) -> discrete_ht ht N w eps ->
  exists R : nat -> nat -> nat -> C,
    (forall k, (k < N)%nat -> minv CF (nr T) (fun i j => ((if (i =? j)%nat then z else RtoC 0) - me self i j - RtoC (eps k) * me T i j)%C) (R k)) /\
    forall G, gf_loc_z (K := CF) Cconj eigO invO eighO close0 sqrt significant ht z self T false = Ok (RFull G) ->
      nr G = nr T /\ nc G = nr T /\ forall i j, (i < nr T)%nat -> (j < nr T)%nat -> me G i j = nsum (K := CF) N (fun k => (RtoC (w k) * R k i j)%C).
Proof.
  intros eigO invO eighO close0 sqrt significant ht T E HT z self N w eps S1 S2 Hz HS [P1 P2 P3].
  assert (X : forall M, exists R : nat -> nat -> nat -> C, forall k, (k < M)%nat -> minv CF (nr T) (Mk z (me self) (me T) (eps k)) (R k)).
  { induction M as [|M (R & HR)]; [exists (fun _ _ _ => RtoC 0); lia|]. 
    destruct (inj_minv CF (nr T) _ (Mk_inj (nr T) z (me self) (me T) (eps M) Hz HS HT)) as (B & HB).
    exists (fun k => if (k =? M)%nat then B else R k). intros k Hk. destruct (Nat.eqb_spec k M) as [->|N0]; [exact HB|apply HR; lia]. }
  destruct (X N) as (R & HR). exists R. split; [exact HR|]. intros G HG.
  exact (C39_lattice_sum_partial CF Cconj eigO invO eighO close0 sqrt significant ht T E z self N (fun k => RtoC (w k)) (fun k => RtoC (eps k)) R S1 S2 P2 P3 HR G HG).
Qed.
Print Assumptions C82_lattice_sum.

(** the spectral matrix of gf_loc_z is positive definite *)
Theorem C82_retarded : forall eigO invO eighO close0 sqrt significant ht (T : mat CF),
  beb_env CF Cconj eigO invO eighO sqrt significant T -> hermitian (nr T) (me T) ->
  forall (z : C) (self : mat CF) N w eps, nr self = nr T -> nc self = nr T -> 0 < snd z -> damping (nr T) (me self) -> discrete_ht ht N w eps ->
  forall G, gf_loc_z (K := CF) Cconj eigO invO eighO close0 sqrt significant ht z self T false = Ok (RFull G) ->
  forall v, (exists k, (k < nr T)%nat /\ v k <> RtoC 0) -> snd (quad (nr T) (me G) v) < 0.
Proof.
  intros eigO invO eighO close0 sqrt significant ht T E HT z self N w eps S1 S2 Hz HS HD G HG v (k & Hk & Nk).
  destruct (C82_lattice_sum eigO invO eighO close0 sqrt significant ht T E HT z self N w eps S1 S2 Hz HS HD) as (R & HR & HL).
  destruct (HL G HG) as (_ & _ & V). destruct HD as [P1 P2 _].
  assert (X := sum_neg (nr T) z (me self) (me T) Hz HS HT N w eps R P1 P2 HR v k Hk Nk).
  assert (Q : quad (nr T) (me G) v = qform (nr T) (fun i j => nsum (K := CF) N (fun l => (RtoC (w l) * R l i j)%C)) v); [|rewrite Q; exact X].
  unfold quad, qform. apply (nsum_ext CF). intros i Hi. apply (nsum_ext CF). intros j Hj. now rewrite (V i j Hi Hj).
Qed.
Print Assumptions C82_retarded.

(** diag=True: every component has a positive spectral function *)
Theorem C82_components_retarded : forall eigO invO eighO close0 sqrt significant ht (T : mat CF),
  beb_env CF Cconj eigO invO eighO sqrt significant T -> hermitian (nr T) (me T) ->
  forall (z : C) (self : mat CF) N w eps, nr self = nr T -> nc self = nr T -> 0 < snd z -> damping (nr T) (me self) -> discrete_ht ht N w eps ->
  forall l, gf_loc_z (K := CF) Cconj eigO invO eighO close0 sqrt significant ht z self T true = Ok (RDiag l) ->
  length l = nr T /\ forall g, In g l -> snd g < 0.
Proof.
  intros eigO invO eighO close0 sqrt significant ht T E HT z self N w eps S1 S2 Hz HS HD l H.
  rewrite (C39_diag CF Cconj eigO invO eighO close0 sqrt significant ht T z self (env_sq _ _ _ _ _ _ _ _ E) S1 S2) in H.
  destruct (gf_loc_z (K := CF) Cconj eigO invO eighO close0 sqrt significant ht z self T false) as [[l0|G|x]|] eqn:EG; try discriminate.
  - exfalso. unfold gf_loc_z in EG. destruct (gf_loc_full _ _ _ _ _ _ _ _ _ _ _); discriminate.
  - injection H as <-. destruct (C82_lattice_sum eigO invO eighO close0 sqrt significant ht T E HT z self N w eps S1 S2 Hz HS HD) as (R & HR & HL).
    destruct (HL G EG) as (N1 & _ & _). split; [now rewrite map_length, seq_length|]. intros g Hg. apply in_map_iff in Hg. destruct Hg as (i & <- & Hi). apply in_seq in Hi. 
    assert (Hi' : (i < nr T)%nat) by lia.
    assert (NZ : exists k, (k < nr T)%nat /\ (fun j => kron (K := CF) i j : C) k <> RtoC 0).
    { exists i. split; [exact Hi'|]. cbv beta. unfold kron. rewrite Nat.eqb_refl. intros ZZ. apply (f_equal (@fst Rdefinitions.R Rdefinitions.R)) in ZZ. cbn in ZZ. lra. }
    assert (X := C82_retarded eigO invO eighO close0 sqrt significant ht T E HT z self N w eps S1 S2 Hz HS HD G EG (fun j => kron (K := CF) i j) NZ).
    unfold quad in X.
    replace (me G i i) with (nsum (K := CF) (nr T) (fun a => nsum (K := CF) (nr T) (fun j => (Cconj (kron (K := CF) i a) * me G a j * kron (K := CF) i j)%C))); [exact X|].
    transitivity (nsum (K := CF) (nr T) (fun a => Fmul (f := CF) (kron i a) (me G a i))); [|exact (kron_sum CF (nr T) i (fun a => me G a i) Hi')].
    apply (nsum_ext CF). intros a Ha. transitivity (nsum (K := CF) (nr T) (fun j => Fmul (f := CF) (kron i j) (Cconj (kron (K := CF) i a) * me G a j)%C)).
    + apply (nsum_ext CF). intros j Hj. change (Fmul (f := CF)) with Cmult. ringC.
    + rewrite (kron_sum CF (nr T) i (fun j => (Cconj (kron (K := CF) i a) * me G a j)%C) Hi'). change (Fmul (f := CF)) with Cmult. f_equal. unfold kron. destruct (i =? a)%nat; apply injective_projections; cbn; ring.
Qed.
Print Assumptions C82_components_retarded.

(** the inverse of the local Green's function in the BEB root equation has a positive definite imaginary part *)
Theorem C82_effective_medium : forall eigO invO eighO close0 sqrt significant ht (T : mat CF),
  beb_env CF Cconj eigO invO eighO sqrt significant T -> hermitian (nr T) (me T) ->
  forall (z : C) (self : mat CF) N w eps, nr self = nr T -> nc self = nr T -> 0 < snd z -> damping (nr T) (me self) -> discrete_ht ht N w eps ->
  forall e_onsite conc d r, length conc = nr T -> specdec (K := CF) Cconj eighO close0 significant T = Ok d -> beb_root_eq (K := CF) eigO invO sqrt ht self z e_onsite conc d = Ok r ->
  exists Gi : nat -> nat -> C, (forall v, (exists k, (k < nr T)%nat /\ v k <> RtoC 0) -> 0 < snd (quad (nr T) Gi v)) /\
    forall i j, (i < nr T)%nat -> (j < nr T)%nat -> me r i j = (Gi i j - (if (i =? j)%nat then (Gi i i + me self i i - nth i e_onsite (RtoC 0)) / nth i conc (RtoC 0) else RtoC 0))%C.
Proof.
  intros eigO invO eighO close0 sqrt significant ht T E HT z self N w eps S1 S2 Hz HS HD es cs d r L SD HR.
  destruct (C82_lattice_sum eigO invO eighO close0 sqrt significant ht T E HT z self N w eps S1 S2 Hz HS HD) as (R & MR & _). assert (HD' := HD). destruct HD as [P1 P2 P3].
  destruct (C61_root_equation CF Cconj eigO invO eighO close0 sqrt significant ht T E z self N (fun k => RtoC (w k)) (fun k => RtoC (eps k)) R S1 S2 P2 P3 MR es cs d r L SD HR) as (Gi & MG & V & _).
  exists Gi. split; [|exact V]. intros v (k & Hk & Nk).
  destruct (qform_inv (nr T) _ Gi v k (minv_comm CF (nr T) _ _ MG) Hk Nk) as (u & l & Hl & Ul & EQ).
  assert (X := sum_neg (nr T) z (me self) (me T) Hz HS HT N w eps R P1 P2 MR u l Hl Ul). change (0 < snd (qform (nr T) Gi v)).
  assert (Y : snd (Cconj (qform (nr T) Gi v)) < 0) by (rewrite EQ; exact X). cbn [Cconj snd] in Y. unfold Cconj in Y. cbn [snd] in Y. lra.
Qed.
Print Assumptions C82_effective_medium.
(** solve_root without initial guess starts from the root equation at the vanishing self-energy: its diagonal is physical *)
Theorem C82_start_physical : forall eigO invO eighO close0 sqrt significant ht (T : mat CF),
  beb_env CF Cconj eigO invO eighO sqrt significant T -> hermitian (nr T) (me T) ->
  forall (z : C) N w eps, 0 < snd z -> discrete_ht ht N w eps ->
  forall (es cs : list R) d r, length es = nr T -> length cs = nr T -> (forall c, In c cs -> 0 < c <= 1) -> specdec (K := CF) Cconj eighO close0 significant T = Ok d ->
  beb_root_eq (K := CF) eigO invO sqrt ht (Mat (K := CF) (nr T) (nr T) (fun _ _ => RtoC 0)) z (map RtoC es) (map RtoC cs) d = Ok r ->
  forall i, (i < nr T)%nat -> snd (me r i i : C) <= 0 /\ (nth i cs 0 < 1 -> snd (me r i i : C) < 0).
Proof.
  intros eigO invO eighO close0 sqrt significant ht T E HT z N w eps Hz HD es cs d r Le Lc HC SD HR i Hi.
  assert (D0 : damping (nr T) (me (Mat (K := CF) (nr T) (nr T) (fun _ _ => RtoC 0)))).
  { intros v. assert (Z : quad (nr T) (fun _ _ => RtoC 0) v = RtoC 0).
    { unfold quad. apply (nsum_0' CF). intros a _. apply (nsum_0' CF). intros b _. apply injective_projections; cbn; ring. }
    change (snd (quad (nr T) (fun _ _ => RtoC 0) v) <= 0). rewrite Z. cbn. lra. }
  destruct (C82_effective_medium eigO invO eighO close0 sqrt significant ht T E HT z (Mat (K := CF) (nr T) (nr T) (fun _ _ => RtoC 0)) N w eps eq_refl eq_refl Hz D0 HD (map RtoC es) (map RtoC cs) d r
    ltac:(now rewrite map_length) SD HR) as (Gi & P & V).
  specialize (P (fun j => kron (K := CF) i j) (ex_intro _ i (Logic.conj Hi (kron_nz i)))). change (quad (nr T) Gi (fun j => kron (K := CF) i j)) with (qform (nr T) Gi (fun j => kron (K := CF) i j)) in P. rewrite (qform_unit (nr T) Gi i Hi) in P.
  assert (C0 : 0 < nth i cs 0 <= 1) by (apply HC, nth_In; lia).
  assert (VV : me r i i = (Gi i i - (Gi i i + RtoC 0 - RtoC (nth i es 0)) / RtoC (nth i cs 0))%C).
  { etransitivity; [exact (V i i Hi Hi)|]. rewrite Nat.eqb_refl. exact (f_equal2 (fun x y : C => (Gi i i - (Gi i i + RtoC 0 - x) / y)%C) (map_nth RtoC es 0 i) (map_nth RtoC cs 0 i)). }
  rewrite VV. set (c := nth i cs 0) in *. set (e := nth i es 0). set (q := Gi i i) in *.
  replace (snd (q - (q + RtoC 0 - RtoC e) / RtoC c)%C) with (snd q * (1 - / c)) by (cbn; field; lra).
  assert (I : 1 <= / c) by (rewrite <- Rinv_1; apply Rinv_le_contravar; lra). split; [nra|]. intros C1. assert (1 < / c) by (rewrite <- Rinv_1 at 1; apply Rinv_lt_contravar; lra). nra.
Qed.
Print Assumptions C82_start_physical.

(** ** two components with a complex hopping (eigenvalues 1 and 4), a damped self-energy and the two level lattice *)
Definition c2_v : mat CF := Mat (K := CF) 2 2 (fun i j => match i, j with
  | O, O => (3/5, 0) | O, _ => (4/5, 0) | _, O => (0, -4/5) | _, _ => (0, 3/5) end).
Definition c2_T : mat CF := Mat (K := CF) 2 2 (fun i j => match i, j with
  | O, O => (73/25, 0) | O, _ => (0, -36/25) | _, O => (0, 36/25) | _, _ => (52/25, 0) end).
Definition c2_eigh (_ : mat CF) : result (list CF * mat CF) := Ok ([RtoC 1; RtoC 4], c2_v).
Definition c2_sqrt (x : C) : C := if Ceq_dec x (RtoC 4) then RtoC 2 else x.
Definition c2_sig (_ : list C) (x : C) : bool := if Ceq_dec x (RtoC 0) then false else true.
(** numpy.linalg.inv of a 2x2 matrix; numpy.linalg.eig where the matrix is diagonal *)
Definition c2_inv (B : mat CF) : result (mat CF) :=
  let d := (me B 0%nat 0%nat * me B 1%nat 1%nat - me B 0%nat 1%nat * me B 1%nat 0%nat)%C in
  if ((nr B =? 2) && (nc B =? 2))%nat then
    if Ceq_dec d (RtoC 0) then Err LinAlgError
    else Ok (Mat (K := CF) 2 2 (fun i j => match i, j with
      | O, O => me B 1%nat 1%nat / d | O, _ => - me B 0%nat 1%nat / d | _, O => - me B 1%nat 0%nat / d | _, _ => me B 0%nat 0%nat / d end)%C)
  else Err LinAlgError.
Definition c2_eig (A : mat CF) : result (list CF * mat CF) :=
  if ((nr A =? 2) && (nc A =? 2))%nat then
    if Ceq_dec (me A 0%nat 1%nat) (RtoC 0) then
      if Ceq_dec (me A 1%nat 0%nat) (RtoC 0) then Ok ([me A 0%nat 0%nat; me A 1%nat 1%nat], Mat (K := CF) 2 2 (fun i j => kron i j)) else Err LinAlgError
    else Err LinAlgError
  else Err LinAlgError.
Definition c2_self : mat CF := Mat (K := CF) 2 2 (fun i j => if (i =? j)%nat then (0, -1) else RtoC 0).
Definition c2_w (_ : nat) : R := 1/2.
Definition c2_eps (k : nat) : R := match k with O => -1 | _ => 1 end.
Definition c2_ht (x : C) : result C := Ok (nsum (K := CF) 2 (fun k => (RtoC (c2_w k) / (x - RtoC (c2_eps k)))%C)).
Ltac c2 := apply injective_projections; cbn; lra.
Lemma c2_env : beb_env CF Cconj c2_eig c2_inv c2_eigh c2_sqrt c2_sig c2_T.
Proof.
  constructor.
  - repeat split; intros; apply injective_projections; cbn; ring.
  - intros l x H E. unfold c2_sig in H. destruct (Ceq_dec x (RtoC 0)); [discriminate|now apply n].
  - intros B A E H. unfold c2_inv in H. destruct ((nr B =? 2) && (nc B =? 2))%nat eqn:Q; [|discriminate]. apply andb_true_iff in Q. destruct Q as (Q & _). apply Nat.eqb_eq in Q.
    destruct (Ceq_dec _ _) as [|D]; [discriminate|]. injection H as <-. rewrite Q. split; [now split|].
    intros i j Hi Hj. cbn [me nsum]. assert (i = 0 \/ i = 1)%nat as [->| ->] by lia; assert (j = 0 \/ j = 1)%nat as [->| ->] by lia; unfold kron; cbn [Nat.eqb F0 F1 CF Fadd Fmul];
    match goal with |- @eq _ ?a ?b => change (@eq C a b) end; field; exact D.
  - intros A ev E H. unfold c2_eig in H. destruct ((nr A =? 2) && (nc A =? 2))%nat eqn:Q; [|discriminate]. apply andb_true_iff in Q. destruct Q as (Q & _). apply Nat.eqb_eq in Q.
    destruct (Ceq_dec (me A 0%nat 1%nat) _) as [Z1|]; [|discriminate]. destruct (Ceq_dec _ _) as [Z2|]; [|discriminate]. injection H as <-. unfold eig_spec. rewrite Q. split; [now split|]. split; [reflexivity|].
    intros i j Hi Hj. cbn [me nsum]. assert (i = 0 \/ i = 1)%nat as [->| ->] by lia; assert (j = 0 \/ j = 1)%nat as [->| ->] by lia; unfold kron; cbn [Nat.eqb F0 F1 CF Fadd Fmul nth];
    rewrite ?Z1, ?Z2; match goal with |- @eq _ ?a ?b => change (@eq C a b) end; ring.
  - reflexivity.
  - intros ev x H I. injection H as <-. cbn in I. unfold c2_sqrt. destruct I as [<-|[<-|[]]]; destruct (Ceq_dec _ _) as [e|e]; try c2; try (now destruct e); apply (f_equal fst) in e; cbn in e; lra.
  - intros ev H. injection H as <-. split; [split; [now split|split; [reflexivity|]]|split].
    + intros i j Hi Hj. cbn [nr c2_T] in Hi, Hj |- *. assert (i = 0 \/ i = 1)%nat as [->| ->] by lia; assert (j = 0 \/ j = 1)%nat as [->| ->] by lia; apply injective_projections; cbn; lra.
    + intros x I. cbn in I. destruct I as [<-|[<-|[]]]; c2.
    + intros i j Hi Hj. cbn [nr c2_T] in Hi, Hj |- *. assert (i = 0 \/ i = 1)%nat as [->| ->] by lia; assert (j = 0 \/ j = 1)%nat as [->| ->] by lia; apply injective_projections; cbn; lra.
  - intros ev x H I S. injection H as <-. unfold c2_sig in S. destruct (Ceq_dec x (RtoC 0)); [assumption|discriminate].
Qed.
Lemma c2_herm : hermitian 2 (me c2_T).
Proof. intros i j Hi Hj. assert (i = 0 \/ i = 1)%nat as [->| ->] by lia; assert (j = 0 \/ j = 1)%nat as [->| ->] by lia; apply injective_projections; cbn; lra. Qed.
Lemma c2_damping : damping 2 (me c2_self).
Proof. intros v. unfold quad. cbn. nra. Qed.
Lemma c2_discrete : discrete_ht c2_ht 2 c2_w c2_eps.
Proof. split; [intros; unfold c2_w; lra|unfold c2_w; c2|reflexivity]. Qed.
Lemma c2_run : exists G, gf_loc_z (K := CF) Cconj c2_eig c2_inv c2_eigh (fun _ => true) c2_sqrt c2_sig c2_ht (0, 1) c2_self c2_T false = Ok (RFull G).
Proof.
  unfold gf_loc_z, gf_loc_full, specdec, decompose_her.
  assert (A0 : allclose0 (K := CF) (fun _ => true) (msub (K := CF) c2_T (ctr (K := CF) Cconj c2_T)) = true) by reflexivity. rewrite A0. clear A0. cbn [andb negb c2_eigh bind fst snd].
  assert (E : truncate (K := CF) c2_sig (Dec c2_v [RtoC 1; RtoC 4] (ctr (K := CF) Cconj c2_v)) = Dec (Mat (K := CF) 2 2 (fun i j => me c2_v i (nth j [0;1] 0)%nat)) [RtoC 1; RtoC 4] (Mat (K := CF) 2 2 (fun i j => me (ctr (K := CF) Cconj c2_v) (nth i [0;1] 0)%nat j))).
  { unfold truncate. cbn [eig length seq filter nth]. unfold c2_sig.
    destruct (Ceq_dec (RtoC 1) (RtoC 0)) as [e|_]; [apply (f_equal fst) in e; cbn in e; lra|]. destruct (Ceq_dec (RtoC 4) (RtoC 0)) as [e|_]; [apply (f_equal fst) in e; cbn in e; lra|]. reflexivity. }
  rewrite E. clear E. set (hd := Dec _ _ _).
  assert (S1 : c2_sqrt (RtoC 1) = RtoC 1) by (unfold c2_sqrt; destruct (Ceq_dec _ _) as [e|_]; [apply (f_equal fst) in e; cbn in e; lra|reflexivity]).
  assert (S4 : c2_sqrt (RtoC 4) = RtoC 2) by (unfold c2_sqrt; destruct (Ceq_dec _ _) as [_|e]; [reflexivity|now destruct e]).
  assert (I1 : exists zi, c2_inv (z_minus (K := CF) (0, 1) c2_self) = Ok zi /\ nr zi = 2%nat /\ nc zi = 2%nat /\ forall i j, me zi i j = match i, j with O, O => (0, -1/2) | O, _ => RtoC 0 | _, O => RtoC 0 | _, _ => (0, -1/2) end).
  { unfold c2_inv. cbn [nr nc z_minus c2_self Nat.eqb andb]. set (d := Cminus _ _). assert (D : d = RtoC (-4)) by (unfold d; cbn; c2). clearbody d. subst d.
    destruct (Ceq_dec _ _) as [e|_]; [apply (f_equal fst) in e; cbn in e; lra|]. eexists. split; [reflexivity|]. split; [reflexivity|]. split; [reflexivity|]. intros [|i] [|j]; cbn; apply injective_projections; cbn; field. }
  destruct I1 as (zi & -> & R1 & R2 & Vz). cbn [bind].
  set (M := mm _ _). unfold decompose_mat.
  assert (EM : nr M = 2%nat /\ nc M = 2%nat /\ me M 0%nat 1%nat = RtoC 0 /\ me M 1%nat 0%nat = RtoC 0 /\ me M 0%nat 0%nat = (0, -1/2) /\ me M 1%nat 1%nat = (0, -2)).
  { unfold M, mm. cbn [nr nc me part_us part_suh hd rv rv_inv eig nsum nth]. rewrite R2. cbn [nsum]. rewrite !Vz, S1, S4. cbn. repeat split; apply injective_projections; cbn; lra. }
  destruct EM as (M1 & M2 & M3 & M4 & M5 & M6). unfold c2_eig. rewrite M1, M2. cbn [Nat.eqb andb].
  destruct (Ceq_dec (me M 0%nat 1%nat) _) as [_|e]; [|contradiction]. destruct (Ceq_dec _ _) as [_|e]; [|contradiction]. cbn [bind fst snd].
  assert (I2 : exists vi, c2_inv (Mat (K := CF) 2 2 (fun i j => kron i j)) = Ok vi).
  { unfold c2_inv. cbn [nr nc Nat.eqb andb]. destruct (Ceq_dec _ _) as [e|_]; [apply (f_equal fst) in e; cbn in e; lra|]. eexists; reflexivity. }
  destruct I2 as (vi & ->). cbn [bind eig existsb]. rewrite M5, M6.
  assert (F1 : feqb (K := CF) (0, -1/2) 0%fld = false) by (unfold feqb; destruct (Feq_dec _ _) as [e|]; [apply (f_equal (@snd R R)) in e; cbn in e; lra|reflexivity]).
  assert (F2 : feqb (K := CF) (0, -2) 0%fld = false) by (unfold feqb; destruct (Feq_dec _ _) as [e|]; [apply (f_equal (@snd R R)) in e; cbn in e; lra|reflexivity]).
  rewrite F1, F2. cbn [orb map mapM bind c2_ht]. eexists. reflexivity.
Qed.
(** all hypotheses of the theorems hold here and the function returns a matrix *)
Example C82_example : exists G, gf_loc_z (K := CF) Cconj c2_eig c2_inv c2_eigh (fun _ => true) c2_sqrt c2_sig c2_ht (0, 1) c2_self c2_T false = Ok (RFull G) /\
  nr G = 2%nat /\ forall v, (exists k, (k < 2)%nat /\ v k <> RtoC 0) -> snd (quad 2 (me G) v) < 0.
Proof.
  destruct c2_run as (G & HG). exists G. split; [exact HG|].
  destruct (C82_lattice_sum c2_eig c2_inv c2_eigh (fun _ => true) c2_sqrt c2_sig c2_ht c2_T c2_env c2_herm (0, 1) c2_self 2 c2_w c2_eps eq_refl eq_refl ltac:(cbn; lra) c2_damping c2_discrete) as (R & _ & H).
  split; [exact (proj1 (H G HG))|].
  exact (C82_retarded c2_eig c2_inv c2_eigh (fun _ => true) c2_sqrt c2_sig c2_ht c2_T c2_env c2_herm (0, 1) c2_self 2 c2_w c2_eps eq_refl eq_refl ltac:(cbn; lra) c2_damping c2_discrete G HG).
Qed.
(** the root equation at the vanishing self-energy runs on the same lattice *)
Definition c2_zero : mat CF := Mat (K := CF) 2 2 (fun _ _ => RtoC 0).
Lemma c2_root_run : exists d r, specdec (K := CF) Cconj c2_eigh (fun _ => true) c2_sig c2_T = Ok d /\
  beb_root_eq (K := CF) c2_eig c2_inv c2_sqrt c2_ht c2_zero (0, 1) (map RtoC [-1; 1]) (map RtoC [1/4; 3/4]) d = Ok r.
Proof.
  unfold specdec, decompose_her.
  assert (A0 : allclose0 (K := CF) (fun _ => true) (msub (K := CF) c2_T (ctr (K := CF) Cconj c2_T)) = true) by reflexivity. rewrite A0. clear A0. cbn [andb negb c2_eigh bind fst snd].
  assert (E : truncate (K := CF) c2_sig (Dec c2_v [RtoC 1; RtoC 4] (ctr (K := CF) Cconj c2_v)) = Dec (Mat (K := CF) 2 2 (fun i j => me c2_v i (nth j [0;1] 0)%nat)) [RtoC 1; RtoC 4] (Mat (K := CF) 2 2 (fun i j => me (ctr (K := CF) Cconj c2_v) (nth i [0;1] 0)%nat j))).
  { unfold truncate. cbn [eig length seq filter nth]. unfold c2_sig.
    destruct (Ceq_dec (RtoC 1) (RtoC 0)) as [e|_]; [apply (f_equal fst) in e; cbn in e; lra|]. destruct (Ceq_dec (RtoC 4) (RtoC 0)) as [e|_]; [apply (f_equal fst) in e; cbn in e; lra|]. reflexivity. }
  rewrite E. clear E. set (hd := Dec _ _ _). exists hd. unfold beb_root_eq.
  assert (S1 : c2_sqrt (RtoC 1) = RtoC 1) by (unfold c2_sqrt; destruct (Ceq_dec _ _) as [e|_]; [apply (f_equal fst) in e; cbn in e; lra|reflexivity]).
  assert (S4 : c2_sqrt (RtoC 4) = RtoC 2) by (unfold c2_sqrt; destruct (Ceq_dec _ _) as [_|e]; [reflexivity|now destruct e]).
  assert (I1 : exists zi, c2_inv (z_minus (K := CF) (0, 1) c2_zero) = Ok zi /\ nr zi = 2%nat /\ nc zi = 2%nat /\ forall i j, me zi i j = match i, j with O, O => (0, -1) | O, _ => RtoC 0 | _, O => RtoC 0 | _, _ => (0, -1) end).
  { unfold c2_inv. cbn [nr nc z_minus c2_zero Nat.eqb andb]. set (d := Cminus _ _). assert (D : d = RtoC (-1)) by (unfold d; cbn; c2). clearbody d. subst d.
    destruct (Ceq_dec _ _) as [e|_]; [apply (f_equal fst) in e; cbn in e; lra|]. eexists. split; [reflexivity|]. split; [reflexivity|]. split; [reflexivity|]. intros [|i] [|j]; cbn; apply injective_projections; cbn; field. }
  destruct I1 as (zi & -> & R1 & R2 & Vz). cbn [bind].
  set (M := mm _ _). unfold decompose_mat.
  assert (EM : nr M = 2%nat /\ nc M = 2%nat /\ me M 0%nat 1%nat = RtoC 0 /\ me M 1%nat 0%nat = RtoC 0 /\ me M 0%nat 0%nat = (0, -1) /\ me M 1%nat 1%nat = (0, -4)).
  { unfold M, mm. cbn [nr nc me part_us part_suh hd rv rv_inv eig nsum nth]. rewrite R2. cbn [nsum]. rewrite !Vz, S1, S4. cbn. repeat split; apply injective_projections; cbn; lra. }
  destruct EM as (M1 & M2 & M3 & M4 & M5 & M6). unfold c2_eig. rewrite M1, M2. cbn [Nat.eqb andb].
  destruct (Ceq_dec (me M 0%nat 1%nat) _) as [_|e]; [|contradiction]. destruct (Ceq_dec _ _) as [_|e]; [|contradiction]. cbn [bind fst snd].
  assert (I2 : exists vi, c2_inv (Mat (K := CF) 2 2 (fun i j => kron i j)) = Ok vi).
  { unfold c2_inv. cbn [nr nc Nat.eqb andb]. destruct (Ceq_dec _ _) as [e|_]; [apply (f_equal fst) in e; cbn in e; lra|]. eexists; reflexivity. }
  destruct I2 as (vi & ->). cbn [bind eig existsb]. rewrite M5, M6.
  assert (NZ : forall y : C, snd y <> 0 -> feqb (K := CF) y 0%fld = false) by (intros y Hy; unfold feqb; destruct (Feq_dec _ _) as [e|]; [apply (f_equal (@snd R R)) in e; contradiction|reflexivity]).
  rewrite (NZ (0, -1)), (NZ (0, -4)) by (cbn; lra). cbn [orb map mapM].
  assert (Q1 : @Fdiv CF (@F1 CF) (0, -1) = (0, 1)) by (apply injective_projections; cbn; field).
  assert (H1 : c2_ht (0, 1) = Ok (0, -1/2)) by (unfold c2_ht; f_equal; apply injective_projections; cbn; unfold c2_w; field).
  assert (Q2 : @Fdiv CF (@F1 CF) (0, -4) = (0, 1/4)) by (apply injective_projections; cbn; field).
  assert (H2 : c2_ht (0, 1/4) = Ok (0, -4/17)) by (unfold c2_ht; f_equal; apply injective_projections; cbn; unfold c2_w; field).
  rewrite Q1, Q2, H1. cbn [bind]. rewrite H2. cbn [bind existsb]. rewrite (NZ (0, -1/2)), (NZ (0, -4/17)) by (cbn; lra). cbn [orb].
  assert (NC : forall c : R, c <> 0 -> feqb (K := CF) (RtoC c) 0%fld = false) by (intros c Hc; unfold feqb; destruct (Feq_dec _ _) as [e|]; [apply (f_equal (@fst R R)) in e; contradiction|reflexivity]).
  rewrite (NC (1/4)), (NC (3/4)) by lra. cbn [orb]. eexists. split; reflexivity.
Qed.
Example C82_start_example : exists d r, specdec (K := CF) Cconj c2_eigh (fun _ => true) c2_sig c2_T = Ok d /\
  beb_root_eq (K := CF) c2_eig c2_inv c2_sqrt c2_ht c2_zero (0, 1) (map RtoC [-1; 1]) (map RtoC [1/4; 3/4]) d = Ok r /\
  snd (me r 0%nat 0%nat : C) < 0 /\ snd (me r 1%nat 1%nat : C) < 0.
Proof.
  destruct c2_root_run as (d & r & HD & HR). exists d, r. split; [exact HD|]. split; [exact HR|].
  assert (P := C82_start_physical c2_eig c2_inv c2_eigh (fun _ => true) c2_sqrt c2_sig c2_ht c2_T c2_env c2_herm (0, 1) 2 c2_w c2_eps ltac:(cbn; lra) c2_discrete [-1; 1] [1/4; 3/4] d r eq_refl eq_refl
    ltac:(intros c [<-|[<-|[]]]; lra) HD HR). split; [apply (P 0%nat)|apply (P 1%nat)]; cbn; try lia; lra.
Qed.
