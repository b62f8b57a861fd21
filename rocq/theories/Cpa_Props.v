(** * Properties of gftool/cpa.py: C35, C36, C37, C38 *)
From Coq Require Import List Arith ZArith Bool QArith Qcanon Reals Lia Lra.
From Coquelicot Require Import Coquelicot.
From Verif Require Import Base FSum CBase Cpa_Model Cpa_Proofs.
Import ListNotations.
Local Open Scope fld_scope.

(** C35.  [hilbert_trafo] is an arbitrary function that may also raise. *)
Theorem C35_root_iff_cpa_condition_partial : forall (K : Fld) (ht : K -> result K) z s g es cs gs,
  ht (z - s) = Ok g -> length es = length cs -> lsum cs = 1 -> g <> 0 -> gf_cmpt_z ht z s es = Ok gs ->
  self_root_eq ht s z es cs = Ok 0 <-> lsum (map (fun p => fst p * snd p) (combine cs gs)) = g.
Proof. intros K ht z s g es cs gs H1 H2 H3 H4 H5. exact (root_iff K ht z s g es cs H1 H2 H3 gs H4 H5). Qed.
Print Assumptions C35_root_iff_cpa_condition_partial.
(** the component functions are 1/(1/g - e_i + s) *)
Theorem C35_components : forall (K : Fld) (ht : K -> result K) z s g es gs, ht (z - s) = Ok g -> g <> 0 -> gf_cmpt_z ht z s es = Ok gs ->
  length gs = length es /\ forall i, (i < length es)%nat -> 1 / g - nth i es 0 + s <> 0 /\ nth i gs 0 = 1 / (1 / g - nth i es 0 + s).
Proof. exact cmpt_value. Qed.
Print Assumptions C35_components.
(** in general the value is the difference of the inverse Green's functions *)
Theorem C35_root_value : forall (K : Fld) (ht : K -> result K) z s g es cs r,
  ht (z - s) = Ok g -> length es = length cs -> lsum cs = 1 -> g <> 0 -> self_root_eq ht s z es cs = Ok r ->
  exists gs, gf_cmpt_z ht z s es = Ok gs /\
    let avg := lsum (map (fun p => fst p * snd p) (combine cs gs)) in avg <> 0 /\ r = 1 / g - 1 / avg.
Proof. intros K ht z s g es cs r H1 H2 H3 H4 H5. exact (root_eq_value K ht z s g es cs H1 H2 H3 r H4 H5). Qed.
Print Assumptions C35_root_value.
Theorem C35_fixed_point : forall (K : Fld) (ht : K -> result K) z s es cs,
  self_fxdpnt_eq ht s z es cs = Ok s <-> self_root_eq ht s z es cs = Ok 0.
Proof. exact fxdpnt_iff. Qed.
Print Assumptions C35_fixed_point.
Theorem C35_single_component : forall (K : Fld) (ht : K -> result K) z s g e,
  ht (z - s) = Ok g -> 1 - (e - s) * g <> 0 -> self_fxdpnt_eq ht s z [e] [1] = Ok e.
Proof. exact fxdpnt_single. Qed.
Print Assumptions C35_single_component.
(** moving all energies together does not change the equation *)
Theorem C35_shift : forall (K : Fld) (ht : K -> result K) z s es cs mu,
  self_root_eq ht (s + mu) (z + mu) (map (fun e => e + mu) es) cs = self_root_eq ht s z es cs.
Proof. exact root_shift. Qed.
Print Assumptions C35_shift.
(** without g <> 0 the equivalence fails: a vanishing coherent Green's function fulfils the CPA condition for every
    self-energy, but the root equation is not zero *)
Theorem C35_zero_gf_refuted : exists (ht : QcF -> result QcF) z s g es cs gs,
  ht (z - s) = Ok g /\ length es = length cs /\ lsum cs = 1 /\ gf_cmpt_z ht z s es = Ok gs /\
  lsum (map (fun p => fst p * snd p) (combine cs gs)) = g /\ self_root_eq ht s z es cs <> Ok 0.
Proof.
  exists (fun _ => Ok (F0 : QcF)), (qc 0), (qc 0), (qc 0), [qc 1], [qc 1], [qc 0].
  split; [reflexivity|]. split; [reflexivity|]. split; [apply Qc_is_canon; reflexivity|]. split; [vm_compute; reflexivity|]. split; [apply Qc_is_canon; reflexivity|].
  intros H. apply (f_equal show) in H. vm_compute in H. discriminate H.
Qed.
Print Assumptions C35_zero_gf_refuted.
(** two components, flat band Hilbert transform replaced by 1/x: root and component functions *)
Example C35_example :
  let ht := fun x : QcF => fdiv 1 x in
  (show (self_root_eq (K := QcF) ht (qc (1 # 2)) (qc 2) [qc 1; qc 0] [qc (1 # 2); qc (1 # 2)]) = Ok (1 # 6)%Q) /\
  (show (self_root_eq (K := QcF) ht (qc (2 # 3)) (qc 2) [qc 1; qc 0] [qc (1 # 2); qc (1 # 2)]) = Ok 0%Q) /\
  (match gf_cmpt_z (K := QcF) ht (qc 2) (qc (2 # 3)) [qc 1; qc 0] with Ok l => map this l | Err _ => [] end = [1; 1 # 2]%Q).
Proof. vm_compute. repeat split. Qed.

(** C36.  [root] is self_root_eq on the whole array; the second component of [restrict] is the argument array after the call
    (it is overwritten in place). *)
Theorem C36_zero_is_physical_root : forall (ht : C -> result C) pars selfs r s',
  restrict (root_vec (K := CF) ht pars) selfs = (Ok r, s') -> (forall x, In x r -> x = RtoC 0) ->
  (forall s, In s selfs -> (snd s <= 0)%R) /\ root_vec (K := CF) ht pars selfs = Ok r /\ s' = selfs.
Proof. intros ht pars selfs r s'. apply restrict_zero. intros x y. apply root_vec_len. Qed.
Print Assumptions C36_zero_is_physical_root.
Theorem C36_physical_unchanged : forall (root : list C -> result (list C)) selfs,
  (forall s, In s selfs -> (snd s <= 0)%R) -> restrict root selfs = (root selfs, selfs).
Proof. exact restrict_physical. Qed.
Print Assumptions C36_physical_unchanged.
(** unphysical entries are evaluated at the boundary and the result is pushed away from zero *)
Theorem C36_values : forall (ht : C -> result C) pars selfs r s',
  restrict (root_vec (K := CF) ht pars) selfs = (Ok r, s') ->
  s' = map (fun s => (fst s, Rmin 0 (snd s))) selfs /\ length r = length selfs /\
  exists r0, root_vec (K := CF) ht pars s' = Ok r0 /\
    (forall i, (i < length selfs)%nat -> (snd (nth i selfs (RtoC 0)) <= 0)%R -> nth i r (RtoC 0) = nth i r0 (RtoC 0)) /\
    (forall i, (i < length selfs)%nat -> (0 < snd (nth i selfs (RtoC 0)))%R -> nth i r (RtoC 0) <> RtoC 0 /\ (Cmod (nth i r0 (RtoC 0)) <= Cmod (nth i r (RtoC 0)))%R).
Proof.
  intros ht pars selfs r s' H. destruct (restrict_values _ _ _ _ (root_vec_len ht pars) H) as (A & _ & B & D). split; [|now split].
  rewrite A. apply map_ext. intros (a, b). unfold clip. cbn [fst snd]. destruct (Rlt_dec 0 b); f_equal; [rewrite Rmin_left; lra|rewrite Rmin_right; lra].
Qed.
Print Assumptions C36_values.
(** an unphysical root of the plain equation is not a zero of the restricted one *)
Example C36_example : forall r s', restrict (fun x => Ok (map (fun s => Cminus s (1, 1)%R) x)) [(1, 1)%R] = (Ok r, s') ->
  r <> [RtoC 0] /\ s' = [(1, 0)%R].
Proof.
  intros r s' H. unfold restrict in H. cbn [existsb] in H. unfold unphysical at 1 in H. cbn [snd] in H. destruct (Rlt_dec 0 1) as [P|]; [|lra]. cbn [orb map bind combine fst snd] in H.
  injection H as <- <-. split.
  - intros E. apply (f_equal (hd (RtoC 0))) in E. exact (penalty_nonzero (1, 1)%R _ P E).
  - unfold clip. cbn [snd fst]. destruct (Rlt_dec 0 1) as [_|]; [reflexivity|lra].
Qed.

(** C37 *)
Theorem C37_split_join_partial : forall X (args : list (ndarray X)) v shs, (forall a, In a args -> length (data a) = prod (shape a)) ->
  (forall a, In a (removelast args) -> shape a <> []) -> join args = Ok (v, shs) -> split_arr v shs = Ok args.
Proof. exact @split_join. Qed.
Print Assumptions C37_split_join_partial.
Theorem C37_join_split : forall X (v : list X) shs args, shs <> [] -> split_arr v shs = Ok args ->
  join args = Ok (v, shs) /\ (forall a, In a args -> length (data a) = prod (shape a)).
Proof. exact @join_split. Qed.
Print Assumptions C37_join_split.
(** a scalar in any position but the last makes _split fail: np.prod(()) is a float *)
Theorem C37_scalar_refuted : exists (args : list (ndarray QcF)) v shs,
  (forall a, In a args -> length (data a) = prod (shape a)) /\ join args = Ok (v, shs) /\ split_arr v shs = Err TypeError.
Proof.
  exists [Arr [] [qc 1]; Arr [2%nat] [qc 2; qc 3]]. do 2 eexists. split; [|split; reflexivity]. intros a [<-|[<-|[]]]; reflexivity.
Qed.
Print Assumptions C37_scalar_refuted.
Theorem C37_scalar_always_fails : forall X (v : list X) shs, In [] (removelast shs) -> split_arr v shs = Err TypeError.
Proof. exact @split_scalar. Qed.
Print Assumptions C37_scalar_always_fails.
Example C37_example : (exists js, join [Arr [2; 2]%nat [qc 1; qc 2; qc 3; qc 4]; Arr [1%nat] [qc 5]; Arr [] [qc 6]] = Ok js /\
  fst js = [qc 1; qc 2; qc 3; qc 4; qc 5; qc 6] /\
  split_arr (fst js) (snd js) = Ok [Arr [2; 2]%nat [qc 1; qc 2; qc 3; qc 4]; Arr [1%nat] [qc 5]; Arr [] [qc 6]]).
Proof. eexists. split; [reflexivity|]. split; reflexivity. Qed.

(** C38.  [opt] is scipy.optimize.root: an arbitrary function to (sol.x, sol.success) or an exception. *)
Notation root_finder := (forall X, (list X -> result (list X) * list X) -> list X -> result (list X * bool)).
Theorem C38_solve_root : forall (ht : C -> result C) (opt : root_finder)
    (pars : list (C * (list C * list C))) (self0 : option (list C)) (restricted : bool),
  let f : list C -> result (list C) * list C := if restricted then restrict (root_vec (K := CF) ht pars) else fun x => (root_vec (K := CF) ht pars x, x) in
  let x0 := match self0 with Some s => s | None => map (fun p => lsum (K := CF) (map (fun ec => Cmult (fst ec) (snd ec)) (combine (fst (snd p)) (snd (snd p))))) pars end in
  solve_root ht opt pars self0 restricted
  = match opt C f x0 with Ok (x, true) => Ok x | Ok (_, false) => Err RuntimeError | Err e => Err e end.
Proof.
  intros ht opt pars self0 restricted f x0. unfold solve_root.
  assert (E : root_eq_of restricted (root_vec (K := CF) ht pars) = f) by (unfold f, root_eq_of; now destruct restricted).
  rewrite E. fold x0. change (map static_average pars) with (map (fun p : C * (list C * list C) => lsum (K := CF) (map (fun ec => Cmult (fst ec) (snd ec)) (combine (fst (snd p)) (snd (snd p))))) pars).
  fold x0. destruct (opt C f x0) as [(x, [|])|]; reflexivity.
Qed.
Print Assumptions C38_solve_root.
(** if success means that the function vanishes at the returned point, the result solves the CPA equation (and is retarded for
    the restricted version) *)
Theorem C38_solve_root_correct : forall (ht : C -> result C) (opt : root_finder) pars self0 restricted x,
  (forall f x0 y, opt C f x0 = Ok (y, true) -> exists r, fst (f y) = Ok r /\ forall e, In e r -> e = RtoC 0) ->
  solve_root ht opt pars self0 restricted = Ok x ->
  length pars = length x /\
  (forall i z es cs s, nth_error pars i = Some (z, (es, cs)) -> nth_error x i = Some s -> self_root_eq (K := CF) ht s z es cs = Ok (RtoC 0)) /\
  (restricted = true -> forall s, In s x -> (snd s <= 0)%R).
Proof. exact solve_root_correct. Qed.
Print Assumptions C38_solve_root_correct.
(** fixed occupation: a result means the root finder succeeded, and at a zero of its function the self-energy solves the CPA
    equation with on-site energies e - mu for the returned mu, and the occupation is the requested one *)
Theorem C38_fxdocc : forall (ht : C -> result C) (opt : root_finder)
    (density_iw : list C -> list C -> R -> list R -> list R -> nat -> result R) (chempot : (R -> result R) -> R -> result R)
    iws es cs beta occ self0 mu0 weights n_fit restricted self mu,
  (forall f x0 y, opt R f x0 = Ok (y, true) -> exists r, fst (f y) = Ok r /\ forall e, In e r -> e = 0%R) ->
  (0 < length iws)%nat -> length es = length iws -> length cs = length iws ->
  solve_fxdocc_root ht opt density_iw chempot iws es cs beta occ self0 mu0 weights n_fit restricted = Ok (self, mu) ->
  length self = length iws /\
  (forall i w e c s, nth_error iws i = Some w -> nth_error es i = Some e -> nth_error cs i = Some c -> nth_error self i = Some s ->
     self_root_eq (K := CF) ht s w (map (fun x => Cminus x (RtoC mu)) e) c = Ok (RtoC 0)) /\
  (restricted = true -> forall s, In s self -> (snd s <= 0)%R) /\
  exists gf o, mapM (fun p => ht (Cminus (fst p) (snd p))) (combine iws self) = Ok gf /\ occ = Some o /\
    density_iw iws gf beta weights [1%R; fst (last self (RtoC 0))] n_fit = Ok o.
Proof.
  intros ht opt dn cp iws es cs beta occ self0 mu0 weights n_fit restricted self mu HO H0 HE HC H.
  destruct (solve_fxdocc_spec _ _ _ _ _ _ _ _ _ _ _ _ _ _ _ _ H) as (n & x0 & x & E & F). apply F; try assumption. exact (HO _ _ _ E).
Qed.
Print Assumptions C38_fxdocc.
Theorem C38_fxdocc_failure : forall ht (opt : root_finder) density_iw chempot iws es cs beta occ self0 mu0 weights n_fit restricted,
  (forall f x0 x, opt R f x0 <> Ok (x, true)) ->
  forall r, solve_fxdocc_root ht opt density_iw chempot iws es cs beta occ self0 mu0 weights n_fit restricted <> Ok r.
Proof. exact solve_fxdocc_failure. Qed.
Print Assumptions C38_fxdocc_failure.
(** the default occ=None never works *)
Theorem C38_occ_none_fails : forall ht (opt : root_finder) density_iw chempot iws es cs beta self0 mu0 weights n_fit restricted,
  (forall f x0 y, opt R f x0 = Ok (y, true) -> exists r, fst (f y) = Ok r /\ forall e, In e r -> e = 0%R) ->
  (0 < length iws)%nat -> length es = length iws -> length cs = length iws ->
  forall r, solve_fxdocc_root ht opt density_iw chempot iws es cs beta None self0 mu0 weights n_fit restricted <> Ok r.
Proof.
  intros ht opt dn cp iws es cs beta self0 mu0 weights n_fit restricted HO H0 HE HC (self, mu) H.
  destruct (C38_fxdocc _ _ _ _ _ _ _ _ _ _ _ _ _ _ _ _ HO H0 HE HC H) as (_ & _ & _ & gf & o & _ & E & _). discriminate E.
Qed.
Print Assumptions C38_occ_none_fails.

(** a root finder that knows the solution of the atomic limit *)
Example C38_example : let ht := fun _ : C => Ok (RtoC 1) in
  let opt := fun X (f : list X -> result (list X) * list X) (x0 : list X) => Ok (x0, true) in
  solve_root ht opt [(RtoC 5, ([RtoC 2], [RtoC 1]))] None false = Ok [RtoC 2] /\
  self_root_eq (K := CF) ht (RtoC 2) (RtoC 5) [RtoC 2] [RtoC 1] = Ok (RtoC 0).
Proof.
  split.
  - cbn. apply (f_equal (fun x => Ok [x])). unfold static_average, lsum. cbn. apply C_ext; cbn; ring.
  - apply (fxdpnt_iff CF).
    assert (Q := fxdpnt_single CF (fun _ : C => Ok (RtoC 1)) (RtoC 5) (RtoC 2) (RtoC 1) (RtoC 2) eq_refl). apply Q.
    intros E. apply (f_equal fst) in E. cbn in E. lra.
Qed.
(** fixed occupation in the same limit, starting from mu0 = 1: the on-site energy is shifted by the chemical potential *)
Example C38_fxdocc_example : let ht := fun _ : C => Ok (RtoC 1) in
  let opt := fun X (f : list X -> result (list X) * list X) (x0 : list X) => Ok (x0, true) in
  let density := fun (_ _ : list C) (_ : R) (_ _ : list R) (_ : nat) => Ok 1%R in
  let chempot := fun (f : R -> result R) (mu : R) => do _ <- f mu; Ok mu in
  solve_fxdocc_root ht opt density chempot [Ci] [[RtoC 2]] [[RtoC 1]] 1 (Some 1%R) None 1 [1%R] 0 false = Ok ([RtoC 1], 1%R) /\
  exists r, fxdocc_root_eq ht density [Ci] [[RtoC 2]] [[RtoC 1]] 1 (Some 1%R) [1%R] 0 false [[1%nat]; [1%nat]; [1%nat]] [1%R; 2%R; 0%R] = Ok r /\
    forall y, In y r -> y = 0%R.
Proof.
  assert (RV : forall s : C, root_vec (K := CF) (fun _ : C => Ok (RtoC 1)) [(Ci, ([Cminus (RtoC 2) (RtoC 1)], [RtoC 1]))] [s] = 
     do r <- self_root_eq (K := CF) (fun _ : C => Ok (RtoC 1)) s Ci [Cminus (RtoC 2) (RtoC 1)] [RtoC 1]; Ok [r]).
  { intros s. unfold root_vec. cbn [length Nat.eqb combine mapM fst snd bind]. destruct (self_root_eq _ _ _ _ _); reflexivity. }
  assert (E1 : Cminus (RtoC 2) (RtoC 1) = RtoC 1) by (apply C_ext; cbn; ring).
  assert (S : self_root_eq (K := CF) (fun _ : C => Ok (RtoC 1)) (RtoC 1) Ci [RtoC 1] [RtoC 1] = Ok (RtoC 0)).
  { apply (fxdpnt_iff CF). assert (Q := fxdpnt_single CF (fun _ : C => Ok (RtoC 1)) Ci (RtoC 1) (RtoC 1) (RtoC 1) eq_refl). apply Q.
    intros E. apply (f_equal fst) in E. cbn in E. lra. }
  split.
  - unfold solve_fxdocc_root. cbn [combine map].
    assert (E0 : Cminus (static_average (Ci, ([RtoC 2], [RtoC 1]))) (RtoC 1) = RtoC 1) by (unfold static_average, lsum; cbn; apply C_ext; cbn; ring).
    rewrite E0. assert (E2 : Cminus (Cplus (RtoC 1) (RtoC 1)) (RtoC 1) = RtoC 1) by (apply C_ext; cbn; ring).
    unfold occ_diff. cbn [length Nat.eqb combine mapM bind]. unfold shift_pars. cbn [map combine]. unfold fxdpnt_vec. rewrite RV, E1, E2, S. cbn [bind combine map fst snd].
    assert (E3 : Fadd (f := CF) (RtoC 1) (RtoC 0) = RtoC 1) by (apply C_ext; cbn; ring). rewrite E3. cbn [map fst snd bind].
    cbn [join map data shape concat app bind fst snd]. cbn [length Nat.eqb combine mapM bind]. unfold split_arr. cbn [removelast existsb is_scalar orb map prod fold_right Nat.mul Nat.add cut firstn skipn combine mapM fst snd].
    unfold reshape. cbn [length Nat.eqb prod fold_right Nat.mul Nat.add bind data]. apply (f_equal Ok). f_equal. cbn [combine map fst snd]. f_equal. apply C_ext; cbn; ring.
  - unfold fxdocc_root_eq, split_arr. cbn [removelast existsb is_scalar orb map prod fold_right Nat.mul Nat.add cut firstn skipn combine mapM fst snd].
    unfold reshape. cbn [length Nat.eqb prod fold_right Nat.mul Nat.add bind data nth combine map fst snd root_eq_of].
    assert (E4 : (2 - 1, 0)%R = RtoC 1) by (apply C_ext; cbn; ring). rewrite E4. unfold shift_pars. cbn [map combine]. rewrite RV, E1, S. cbn [bind].
    unfold occ_diff. cbn [length Nat.eqb combine mapM bind map fst snd app]. eexists. split; [reflexivity|].
    intros y [<-|[<-|[<-|[]]]]; [|reflexivity|reflexivity]. cbn [INR]. ring.
Qed.
