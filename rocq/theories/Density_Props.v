(** * Properties of density_iw and chemical_potential: C30, C31 *)
From Coq Require Import List Arith ZArith Reals Lia Lra Bool.
From Coquelicot Require Import Coquelicot.
From Verif Require Import Base FSum CBase CExp Stat_Model Stat_Proofs Linalg_Model Linalg_Proofs Mat Backend Pole_Model Pole_Proofs Pole_Proofs2 Pole_Time
  Pole_Fit Pole_Spec Pole_Bridge Density_Model Density_Proofs.
Import ListNotations.
Local Open Scope R_scope.

(** C30: a value is returned only for an exact start or as a converged root in a genuine bracket *)
Theorem C30_returns_genuine : forall f root_scalar mu0 step0 mu,
  chemical_potential f root_scalar mu0 step0 = Ok mu ->
  (mu = mu0 /\ f mu0 = 0) \/ (exists a b, a <= b /\ f a * f b <= 0 /\ root_scalar f (a, b) = Ok (mu, true)).
Proof. exact chemical_potential_ok. Qed.
Print Assumptions C30_returns_genuine.

(** the complete behaviour: [2^j] times the first step -step0*f(mu0) is tried for j = 0..100; the first change of sign is
    bracketed and handed to the root finder, whose exceptions are passed on *)
Theorem C30_complete : forall f root_scalar mu0 step0, let step := - step0 * f mu0 in
  (f mu0 = 0 /\ chemical_potential f root_scalar mu0 step0 = Ok mu0) \/
  (f mu0 <> 0 /\ (exists k, (k <= 100)%nat /\
      (forall j, (j < k)%nat -> sgn (f (mu0 + step * 2 ^ j)) = sgn (f mu0)) /\ sgn (f (mu0 + step * 2 ^ k)) <> sgn (f mu0) /\
      let a := match k with O => mu0 | S j => mu0 + step * 2 ^ j end in
      let b := mu0 + step * 2 ^ k in
      chemical_potential f root_scalar mu0 step0
      = match root_scalar f (Rmin a b, Rmax a b) with
        | Ok (r, true) => Ok r
        | Ok (r, false) => Err RuntimeError
        | Err e => Err e
        end)) \/
  (f mu0 <> 0 /\ (forall j, (j <= 100)%nat -> sgn (f (mu0 + step * 2 ^ j)) = sgn (f mu0)) /\
      chemical_potential f root_scalar mu0 step0 = Err RuntimeError).
Proof.
  intros f rs mu0 step0 step. destruct (chemical_potential_cases f rs mu0 step0) as [H|[(E & k & Hk & H1 & H2 & H3)|H]]; [left; exact H| |right; right; exact H].
  right; left. split; [exact E|]. exists k. split; [exact Hk|]. split; [exact H1|]. split; [exact H2|]. cbv zeta. rewrite H3. unfold finish.
  fold step. destruct k; cbn [prev]; unfold reach; destruct (rs f _) as [[r [|]]|]; reflexivity.
Qed.
Print Assumptions C30_complete.

Theorem C30_not_converged : forall f root_scalar mu0 step0,
  (forall b, exists r, root_scalar f b = Ok (r, false)) -> f mu0 <> 0 -> chemical_potential f root_scalar mu0 step0 = Err RuntimeError.
Proof. exact chemical_potential_not_converged. Qed.
Print Assumptions C30_not_converged.

Theorem C30_root : forall f root_scalar mu0 step0 mu,
  (forall a b r, a <= b -> f a * f b <= 0 -> root_scalar f (a, b) = Ok (r, true) -> f r = 0) ->
  chemical_potential f root_scalar mu0 step0 = Ok mu -> f mu = 0.
Proof. exact chemical_potential_root. Qed.
Print Assumptions C30_root.

(** non-decreasing occupation: success of the bracket search is decided by the farthest step alone *)
Theorem C30_monotone : forall f root_scalar mu0 step0, (forall x y, x <= y -> f x <= f y) -> 0 < step0 -> f mu0 <> 0 ->
  let step := - step0 * f mu0 in
  let last := mu0 + step * 2 ^ 100 in
  (0 < f last * f mu0 -> chemical_potential f root_scalar mu0 step0 = Err RuntimeError) /\
  (f last * f mu0 <= 0 -> exists a b, a <= b /\ f a * f b <= 0 /\
     chemical_potential f root_scalar mu0 step0
      = match root_scalar f (a, b) with Ok (r, true) => Ok r | Ok (r, false) => Err RuntimeError | Err e => Err e end).
Proof.
  intros f rs mu0 step0 HM Hs Hf step last. destruct (chemical_potential_monotone f rs mu0 step0 HM Hs Hf) as (H1 & H2).
  split; [exact H1|]. intros HL. destruct (H2 HL) as (k & Hk & E & P). fold step in E, P.
  set (a := prev mu0 step k) in *. set (b := reach mu0 step k) in *. exists (Rmin a b), (Rmax a b).
  split; [apply Rle_trans with a; [apply Rmin_l|apply Rmax_l]|]. split.
  - unfold Rmin, Rmax. destruct (Rle_dec a b); lra.
  - rewrite E. unfold finish. fold a b. destruct (rs f _) as [[r [|]]|]; reflexivity.
Qed.
Print Assumptions C30_monotone.

(** start 0, f(x) = x - 3, step0 = 1/2: steps 3/2, 3 -> bracket [3/2, 3] *)
Example C30_example : forall rs,
  chemical_potential (fun x => x - 3) rs 0 (1/2)
  = match rs (fun x => x - 3) (3/2, 3) with Ok (r, true) => Ok r | Ok (r, false) => Err RuntimeError | Err e => Err e end.
Proof.
  intros rs. unfold chemical_potential. destruct (Req_EM_T (0 - 3) 0) as [E|_]; [lra|]. cbn [search].
  rewrite (sgn_neg (0 - 3)) by lra. rewrite (sgn_neg (0 + - (1 / 2) * (0 - 3) - 3)) by lra.
  destruct (Req_EM_T (-1) (-1)) as [_|N]; [|lra].
  replace (0 + - (1 / 2) * (0 - 3) * 2 - 3) with 0 by lra. replace (sgn 0) with 0 by (unfold sgn; destruct (Rlt_dec 0 0); [lra|]; destruct (Rlt_dec 0 0); lra).
  destruct (Req_EM_T 0 (-1)) as [E|_]; [lra|]. cbn [bind fst snd].
  replace (0 + - (1 / 2) * (0 - 3)) with (3/2) by lra. replace (0 + - (1 / 2) * (0 - 3) * 2) with 3 by lra.
  replace (Rmin (3/2) 3) with (3/2) by (unfold Rmin; destruct (Rle_dec (3/2) 3); lra).
  replace (Rmax (3/2) 3) with 3 by (unfold Rmax; destruct (Rle_dec (3/2) 3); lra).
  destruct (rs _ _) as [[r [|]]|]; reflexivity.
Qed.
(** a constant, completely filled occupation has no bracket *)
Example C30_example_none : forall rs, chemical_potential (fun _ => 1) rs 0 1 = Err RuntimeError.
Proof. intros rs. apply (C30_monotone (fun _ => 1)); intros; lra. Qed.

(** C31: [quad] is 2/beta sum_i weights_i Re G(iws_i) for the pole function G *)
Notation EC qr tri lstsq allclose0 := (Linalg_Model.lstsq_ec (K := RF) (fun x => x) qr tri lstsq allclose0).

(** the tail itself: exact for any frequencies, weights and temperature, n_fit = 0 *)
Theorem C31_exact_for_tail : forall qr tri lstsq allclose0 solve, solve_spec RF solve ->
  forall (iws : list C) beta weights moms, moms <> [] ->
  exists poles resid, gf_from_moments (K := RF) Rabs (fun x => x) solve moms None = Ok (poles, resid) /\
    (forall k, (k < length moms)%nat -> moment (K := RF) poles resid k = nth k moms 0) /\
    ((forall (w : C) (p : R), In w iws -> In p poles -> w <> RtoC p) ->
     density_iw lstsq (EC qr tri lstsq allclose0) solve iws (map (fun z => green_z z poles resid) iws) beta weights moms 0
     = Ok (occupation poles resid beta)).
Proof. unspec. exact density_iw_tail. Qed.
Print Assumptions C31_exact_for_tail.

(** n_fit > 0: any function on the fitted (Chebyshev) poles with the given moments, once there are enough frequencies *)
Theorem C31_exact_for_fit : forall qr tri lstsq allclose0 solve, backend_ok RF (fun x => x) rle qr tri lstsq allclose0 ->
  forall (iws : list C) beta weights (moms : list R) n_fit (resid0 : list R), (1 <= n_fit)%nat ->
  let n := (n_fit + length moms)%nat in
  let poles := nodes (node_scale None moms n) n in
  NoDup iws -> (forall w : C, In w iws -> 0 < snd w) -> (n <= 2 * length iws)%nat ->
  length resid0 = n -> (forall k, (k < length moms)%nat -> moment (K := RF) poles resid0 k = nth k moms 0) ->
  density_iw lstsq (EC qr tri lstsq allclose0) solve iws (map (fun z => green_z z poles resid0) iws) beta weights moms n_fit
  = Ok (occupation poles resid0 beta).
Proof.
  unspec. intros qr tri lstsq allclose0 solve HB iws beta weights moms n_fit resid0 H1. cbv zeta. rewrite node_scale_eq by lia.
  now apply (density_iw_fit qr tri lstsq allclose0 solve HB).
Qed.
Print Assumptions C31_exact_for_fit.

(** arbitrary pole functions: the error is the quadrature error of G minus that of the tail *)
Theorem C31_error : forall qr tri lstsq allclose0 solve
  (iws : list C) beta weights moms P W poles resid,
  gf_from_moments (K := RF) Rabs (fun x => x) solve moms None = Ok (poles, resid) ->
  (forall (w : C) (p : R), In w iws -> In p poles -> w <> RtoC p) ->
  exists n, density_iw lstsq (EC qr tri lstsq allclose0) solve iws (map (fun z => green_z z P W) iws) beta weights moms 0 = Ok n /\
    let quad p r := 2 / beta * nsum (K := RF) (length iws) (fun i => nth i weights 0 * fst (green_z (nth i iws 0%C) p r)) in
    n - occupation P W beta = (quad P W - occupation P W beta) - (quad poles resid - occupation poles resid beta).
Proof. unspec. exact density_iw_error. Qed.
Print Assumptions C31_error.

(** one frequency is enough for two fitted poles *)
Example C31_example : exists qr tri lstsq allclose0 solve, let poles := nodes (node_scale None [1] 2) 2 in
  density_iw lstsq (EC qr tri lstsq allclose0) solve [((0, PI) : C)] (map (fun z => green_z z poles [1/3; 2/3]) [((0, PI) : C)]) 1 [1] [1] 1
  = Ok (occupation poles [1/3; 2/3] 1).
Proof.
  destruct real_backend as (qr & tri & ls & ac & HB). exists qr, tri, ls, ac, (mat_solve RF). cbv zeta.
  apply (C31_exact_for_fit qr tri ls ac (mat_solve RF) HB); cbn [length]; try lia.
  - repeat constructor. intros [].
  - intros w [<-|[]]. exact PI_RGT_0.
  - intros k Hk. replace k with 0%nat by lia. unfold nodes. cbn [Nat.add seq map moment fpow nth]. cbn. field.
Qed.
