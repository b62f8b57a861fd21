(** * Properties of the transforms with pole subtraction: C45 *)
From Coq Require Import List Arith ZArith Reals Lia Lra Bool String Field.
From Coquelicot Require Import Coquelicot.
From Verif Require Import Base FSum CBase CExp Herm_Proofs Stat_Model Linalg_Model Linalg_Proofs Mat Backend Matrix_Time Pole_Model Pole_Proofs2 Pole_Time Pole_Fit Pole_Spec Pole_Bridge
  Fourier_Model Fourier_Filon Fourier_Lin FourierMom_Model FourierMom_Proofs FourierMom_Main FourierMom_Width FourierMom_Iv.
Import ListNotations.
Local Open Scope R_scope.
Notation EC qr tri lstsq allclose0 := (Linalg_Model.lstsq_ec (K := RF) (fun x => x) qr tri lstsq allclose0).

(** what is subtracted and added is a Green's function and its transform: pole function and its imaginary-time function *)
Theorem C45_pole_pair : forall p r beta tau z, 0 <= tau <= beta -> (forall x, In x p -> z <> RtoC x) ->
  gf_tau tau p r beta = Ok (green_tau tau p r beta) /\ eval_z p r [z] = Ok [green_z z p r].
Proof.
  intros p r beta tau z Ht Hz. split; [now apply gf_tau_spec|]. unfold eval_z.
  assert (H : hits_pole [z] p = false) by (apply hits_pole_false; intros w x [<-|[]] Hx; now apply Hz). rewrite H. cbn [map]. f_equal. f_equal. exact (gfun_spec z p r).
Qed.
Print Assumptions C45_pole_pair.

(** iw2tau with given moments: one pole function with these moments is subtracted, whatever the data; the remainder goes through the back-end *)
Theorem C45_iw2tau_adds_back : forall lstsq lstsq_ec solve moms beta, solve_spec RF solve -> moms <> [] -> 0 < beta ->
  exists p r, List.length p = List.length moms /\ List.length r = List.length moms /\ NoDup p /\
    (forall k, (k < List.length moms)%nat -> moment (K := RF) p r k = nth k moms 0) /\
    forall (fourier : list C -> R -> result (list R)) rest,
      iw2tau lstsq lstsq_ec solve fourier (map (fun j => (green_z (iw beta j) p r + nth j rest (RtoC 0))%C) (seq 0 (List.length rest))) beta moms 0
      = do t <- fourier rest beta; Ok (map (fun k => nth k t 0 + green_tau (tau_pt beta (List.length t) k) p r beta) (seq 0 (List.length t))).
Proof. unspec. intros lstsq lstsq_ec solve moms beta HS. exact (iw2tau_moments lstsq lstsq_ec solve HS moms beta). Qed.
Print Assumptions C45_iw2tau_adds_back.
(** so the pole function itself is transformed exactly by the actual back-ends *)
Theorem C45_iw2tau_exact : forall lstsq lstsq_ec solve moms beta N, solve_spec RF solve -> moms <> [] -> 0 < beta -> (0 < N)%nat ->
  exists p r, List.length p = List.length moms /\ List.length r = List.length moms /\ NoDup p /\
    (forall k, (k < List.length moms)%nat -> moment (K := RF) p r k = nth k moms 0) /\
    forall fourier, In fourier [iw2tau_dft; iw2tau_dft_soft] ->
      iw2tau lstsq lstsq_ec solve fourier (map (fun j => green_z (iw beta j) p r) (seq 0 N)) beta moms 0
      = Ok (map (fun k => green_tau (tau_pt beta (2 * N + 1) k) p r beta) (seq 0 (2 * N + 1))).
Proof.
  unspec. intros lstsq lstsq_ec solve moms beta N HS Hm Hb HN. destruct (iw2tau_moments lstsq lstsq_ec solve HS moms beta Hm Hb) as (p & r & L1 & L2 & ND & HM & HR). exists p, r.
  split; [exact L1|]. split; [exact L2|]. split; [exact ND|]. split; [exact HM|]. intros fourier Hf.
  specialize (HR fourier (repeat (RtoC 0) N)). rewrite repeat_length in HR.
  assert (E : map (fun j => (gfun (matsubara_frequencies (Z.of_nat j) beta) p r + nth j (repeat (RtoC 0) N) (RtoC 0))%C) (seq 0 N) = map (fun j => gfun (matsubara_frequencies (Z.of_nat j) beta) p r) (seq 0 N)).
  { apply map_ext. intros j. rewrite nth_repeat. apply Cplus_0_r. }
  rewrite E in HR. rewrite HR. assert (HZ : fourier (repeat (RtoC 0) N) beta = Ok (repeat 0 (2 * N + 1))).
  { destruct Hf as [<-|[<-|[]]]; [apply iw2tau_dft_zero|apply iw2tau_dft_soft_zero]; lra || exact HN. }
  rewrite HZ. cbn [bind]. rewrite repeat_length. f_equal. apply map_ext. intros k. rewrite nth_repeat. ring.
Qed.
Print Assumptions C45_iw2tau_exact.
(** ... and with fitted poles *)
Theorem C45_iw2tau_fit_exact : forall qr tri lstsq allclose0 solve, backend_ok RF (fun x => x) rle qr tri lstsq allclose0 ->
  forall (fourier : list C -> R -> result (list R)) beta moms n_fit N M (r : list R), 0 < beta -> (1 <= n_fit)%nat ->
  let n := (n_fit + List.length moms)%nat in
  let p := nodes (node_scale None moms n) n in
  (n <= N)%nat -> List.length r = n -> (forall k, (k < List.length moms)%nat -> moment (K := RF) p r k = nth k moms 0) ->
  fourier (repeat (RtoC 0) N) beta = Ok (repeat 0 M) ->
  iw2tau lstsq (EC qr tri lstsq allclose0) solve fourier (map (fun j => green_z (iw beta j) p r) (seq 0 N)) beta moms n_fit
  = Ok (map (fun k => green_tau (tau_pt beta M k) p r beta) (seq 0 M)).
Proof.
  unspec. intros qr tri lstsq allclose0 solve HB fourier beta moms n_fit N M r Hb H1. cbv zeta. rewrite node_scale_eq by lia.
  now apply (iw2tau_fit_exact qr tri lstsq allclose0 HB solve).
Qed.
Print Assumptions C45_iw2tau_fit_exact.

(** tau2iw *)
Theorem C45_tau2iw_adds_back : forall qr tri lstsq allclose0, backend_ok RF (fun x => x) rle qr tri lstsq allclose0 -> forall moms beta, moms <> [] -> 0 < beta ->
  exists p r, List.length p = List.length moms /\ List.length r = List.length moms /\ NoDup p /\
    (forall k, (k < List.length moms)%nat -> moment (K := RF) p r k = nth k moms 0) /\
    forall (fourier : list R -> R -> result (list C)) rest, rest <> [] ->
      tau2iw lstsq (EC qr tri lstsq allclose0) fourier (map (fun k => green_tau (tau_pt beta (List.length rest) k) p r beta + nth k rest 0) (seq 0 (List.length rest))) beta None (Some moms)
      = do g <- fourier rest beta; Ok (map (fun j => (nth j g (RtoC 0) + green_z (iw beta j) p r)%C) (seq 0 (List.length g))).
Proof. unspec. intros qr tri lstsq allclose0 HB. exact (tau2iw_moments qr tri lstsq allclose0 HB (fun _ _ => Err OutOfFuel)). Qed.
Print Assumptions C45_tau2iw_adds_back.
Theorem C45_tau2iw_exact : forall qr tri lstsq allclose0, backend_ok RF (fun x => x) rle qr tri lstsq allclose0 ->
  forall (fourier : list R -> R -> result (list C)) beta moments_arg n_pole ntau M (r : list R), 0 < beta -> (2 <= ntau)%nat ->
  let moms : list R := match moments_arg with None => [lsum (K := RF) r : R] | Some l => l end in
  let n := match n_pole with None => List.length moms | Some n => n end in
  let p := nodes 1 n in
  moms <> [] -> (List.length moms <= n <= ntau)%nat -> List.length r = n -> (forall k, (k < List.length moms)%nat -> moment (K := RF) p r k = nth k moms 0) ->
  fourier (repeat 0 ntau) beta = Ok (repeat (RtoC 0) M) ->
  tau2iw lstsq (EC qr tri lstsq allclose0) fourier (map (fun k => green_tau (tau_pt beta ntau k) p r beta) (seq 0 ntau)) beta n_pole moments_arg
  = Ok (map (fun j => green_z (iw beta j) p r) (seq 0 M)).
Proof. unspec. intros qr tri lstsq allclose0 HB. exact (tau2iw_exact qr tri lstsq allclose0 HB (fun _ _ => Err OutOfFuel)). Qed.
Print Assumptions C45_tau2iw_exact.
(** the actual back-ends meet the condition *)
Theorem C45_backends_zero : forall beta N, beta <> 0 ->
  ((0 < N)%nat -> iw2tau_dft (repeat (RtoC 0) N) beta = Ok (repeat 0 (2 * N + 1)) /\ iw2tau_dft_soft (repeat (RtoC 0) N) beta = Ok (repeat 0 (2 * N + 1))) /\
  ((2 <= N)%nat -> tau2iw_dft (repeat 0 N) beta = Ok (repeat (RtoC 0) (N / 2)) /\ tau2iw_ft_lin (repeat 0 N) beta = Ok (repeat (RtoC 0) (N / 2))).
Proof.
  intros beta N Hb. split; intros H; split; [now apply iw2tau_dft_zero|now apply iw2tau_dft_soft_zero|now apply tau2iw_dft_zero|now apply tau2iw_ft_lin_zero].
Qed.
Print Assumptions C45_backends_zero.
(** the transforms through fits with optimised width, for any result x <> 0 of the optimiser *)
Theorem C45_izp2tau_exact : forall qr tri lstsq allclose0, backend_ok RF (fun x => x) rle qr tri lstsq allclose0 ->
  forall minimize_scalar izp tau beta moms x (r : list R), 0 <= beta -> izp <> [] -> NoDup izp ->
  let n := List.length izp in
  let p := nodes x n in
  x <> 0 -> (forall f, minimize_scalar f = Ok x) -> (List.length moms <= n)%nat -> (forall w y, In w izp -> In y p -> w <> RtoC y) -> (forall t, In t tau -> 0 <= t <= beta) ->
  List.length r = n -> (forall k, (k < List.length moms)%nat -> moment (K := RF) p r k = nth k moms 0) ->
  izp2tau lstsq (EC qr tri lstsq allclose0) minimize_scalar izp (map (fun w => green_z w p r) izp) tau beta moms = Ok (map (fun t => green_tau t p r beta) tau).
Proof. unspec. intros qr tri lstsq allclose0 HB. exact (izp2tau_exact qr tri lstsq allclose0 HB (fun _ _ => Err OutOfFuel)). Qed.
Print Assumptions C45_izp2tau_exact.
Theorem C45_tau2izp_exact : forall qr tri lstsq allclose0, backend_ok RF (fun x => x) rle qr tri lstsq allclose0 ->
  forall minimize_scalar ntau beta izp moms x weight (r : list R), 0 < beta -> (2 <= ntau)%nat ->
  let n := List.length izp in
  let p := nodes x n in
  x <> 0 -> (forall f, minimize_scalar f = Ok x) -> moms <> [] -> (List.length moms <= n <= ntau)%nat -> (forall w y, In w izp -> In y p -> w <> RtoC y) ->
  (forall i, (i < ntau)%nat -> weight_at weight i <> 0) ->
  List.length r = n -> (forall k, (k < List.length moms)%nat -> moment (K := RF) p r k = nth k moms 0) ->
  tau2izp lstsq (EC qr tri lstsq allclose0) minimize_scalar (map (fun k => green_tau (tau_pt beta ntau k) p r beta) (seq 0 ntau)) beta izp (Some moms) 0 weight
  = Ok (map (fun w => green_z w p r) izp).
Proof. unspec. intros qr tri lstsq allclose0 HB. exact (tau2izp_exact qr tri lstsq allclose0 HB (fun _ _ => Err OutOfFuel)). Qed.
Print Assumptions C45_tau2izp_exact.

(** the width is the best one, if the optimiser returns a minimum: compared with the constrained fits of every other width, and with all poles at zero, where only the first moment is kept *)
Theorem C45_izp2tau_width : forall qr tri lstsq allclose0, backend_ok RF (fun x => x) rle qr tri lstsq allclose0 ->
  forall minimize_scalar, (forall f x, minimize_scalar f = Ok x -> forall w e, f w = Ok e -> exists e0, f x = Ok e0 /\ e0 <= e) ->
  forall (izp gfz : list C) (tau : list R) beta (moms out : list R),
  List.length gfz = List.length izp -> izp <> [] -> (forall w, In w izp -> snd w <> 0) -> (List.length moms <= List.length izp)%nat -> (forall t, In t tau -> 0 <= t <= beta) ->
  izp2tau lstsq (EC qr tri lstsq allclose0) minimize_scalar izp gfz tau beta moms = Ok out ->
  let n := List.length izp in
  exists x r, out = map (fun t => green_tau t (nodes x n) r beta) tau /\
    (x <> 0 -> List.length r = n /\ (forall k, (k < List.length moms)%nat -> moment (K := RF) (nodes x n) r k = nth k moms 0) /\
       (forall w (r' : list R), w <> 0 -> List.length r' = n -> (forall k, (k < List.length moms)%nat -> moment (K := RF) (nodes w n) r' k = nth k moms 0) ->
          dist_z izp gfz None (nodes x n) r <= dist_z izp gfz None (nodes w n) r') /\
       (forall m ms, moms = m :: ms -> dist_z izp gfz None (nodes x n) r <= nsum (K := RF) n (fun i => Cmod (RtoC m / nth i izp (RtoC 0) - nth i gfz (RtoC 0))%C ^ 2))).
Proof. rewrite nodes_fn. exact izp2tau_width. Qed.
Print Assumptions C45_izp2tau_width.
(** the fits of tau2izp: residues with the given moments and (if not 0) occupation, with the least weighted distance from the data *)
Definition C45_admissible (n : nat) (moms : list R) (beta occ w : R) (r : list R) : Prop :=
  List.length r = n /\ (forall k, (k < List.length moms)%nat -> moment (K := RF) (nodes w n) r k = nth k moms 0) /\ (occ <> 0 -> occupation (nodes w n) r beta = occ).
Definition C45_best (n : nat) (moms : list R) (gftau : list R) (beta occ : R) (weight : option (list R)) (w : R) (r : list R) : Prop :=
  C45_admissible n moms beta occ w r /\ forall r', C45_admissible n moms beta occ w r' -> dist_tau gftau beta weight (nodes w n) r <= dist_tau gftau beta weight (nodes w n) r'.
Theorem C45_tau2izp_width : forall qr tri lstsq allclose0, backend_ok RF (fun x => x) rle qr tri lstsq allclose0 ->
  forall minimize_scalar, (forall f x, minimize_scalar f = Ok x -> forall w e, f w = Ok e -> exists e0, f x = Ok e0 /\ e0 <= e) ->
  forall (gftau : list R) beta (izp : list C) (moments_arg : option (list R)) occ weight out,
  let n := List.length izp in
  let m1 := - last gftau 0 - nth 0 gftau 0 in
  let moms := match moments_arg with None => [m1] | Some l => l end in
  0 < beta -> gftau <> [] -> (1 <= n)%nat -> (forall w, In w izp -> snd w <> 0) -> moms <> [] ->
  (occ = 0 /\ (List.length moms <= n)%nat \/ occ <> 0 /\ List.length moms = 1%nat /\ (2 <= n)%nat /\ (1 + trunc occ <= Z.of_nat n)%Z) ->
  tau2izp lstsq (EC qr tri lstsq allclose0) minimize_scalar gftau beta izp moments_arg occ weight = Ok out ->
  exists x r, out = map (fun z => green_z z (nodes x n) r) izp /\
    (x <> 0 -> C45_best n moms gftau beta occ weight x r /\
       (forall w, w <> 0 -> exists r', C45_best n moms gftau beta occ weight w r' /\ dist_tau gftau beta None (nodes x n) r <= dist_tau gftau beta None (nodes w n) r') /\
       (occ = 0 -> dist_tau gftau beta None (nodes x n) r <= nsum (K := RF) (List.length gftau) (fun i => (- m1 / 2 - nth i gftau 0) ^ 2))).
Proof. unfold C45_best, C45_admissible. rewrite nodes_fn. exact tau2izp_width. Qed.
Print Assumptions C45_tau2izp_width.
(** such an optimiser exists and the transform succeeds with it: one frequency, one pole *)
Example C45_width_example : exists qr tri lstsq allclose0 minimize_scalar, backend_ok RF (fun x => x) rle qr tri lstsq allclose0 /\
  (forall f x, minimize_scalar f = Ok x -> forall w e, f w = Ok e -> exists e0, f x = Ok e0 /\ e0 <= e) /\
  forall (z g : C) m, snd z <> 0 -> izp2tau lstsq (EC qr tri lstsq allclose0) minimize_scalar [z] [g] [0; 1] 1 [m] = Ok [- m / 2; - m / 2].
Proof.
  destruct real_backend as (qr & tri & ls & ac & HB). exists qr, tri, ls, ac, minimize_eps. split; [exact HB|]. split; [exact (proj1 minimize_eps_ok)|]. exact (izp2tau_eps qr tri ls ac HB).
Qed.
Print Assumptions C45_width_example.

(** tau2iv: the part linear in tau is transformed exactly, the rest goes through the back-end *)
Theorem C45_tau2iv_adds_back : forall (fourier : list R -> R -> result (list C)) c rest beta giv,
  beta <> 0 -> (2 <= List.length rest)%nat -> last rest 0 = nth 0 rest 0 -> fourier rest beta = Ok giv -> giv <> [] ->
  exists out, tau2iv fourier (map (fun k => c * tau_pt beta (List.length rest) k + nth k rest 0) (seq 0 (List.length rest))) beta = Ok out /\
    List.length out = List.length giv /\
    forall m, (m < List.length giv)%nat -> exists v,
      is_CInt (fun tau => Cmult (cexp (Cmult (iv beta m) (RtoC tau))) (RtoC (c * tau))) 0 beta v /\ nth m out (RtoC 0) = Cplus (nth m giv (RtoC 0)) v.
Proof. unspec. exact tau2iv_rest. Qed.
Print Assumptions C45_tau2iv_adds_back.
Theorem C45_tau2iv_ft_lin : forall g beta, 0 < beta -> (2 <= List.length g)%nat -> tau2iv tau2iv_ft_lin g beta = tau2iv_ft_lin g beta.
Proof. exact tau2iv_ft_lin_same. Qed.
Print Assumptions C45_tau2iv_ft_lin.

(** a constant imaginary-time function -1/2 is the pole at zero: tau2iw gives 1/(i w_n) for both back-ends and all grids *)
Example C45_example : exists qr tri lstsq allclose0, backend_ok RF (fun x => x) rle qr tri lstsq allclose0 /\
  forall N, (2 <= N)%nat ->
  tau2iw lstsq (EC qr tri lstsq allclose0) tau2iw_dft (repeat (- (1 / 2)) N) 1 None None
  = Ok (map (fun j => Cdiv (RtoC 1) (iw 1 j)) (seq 0 (N / 2))).
Proof.
  destruct real_backend as (qr & tri & ls & ac & HB). exists qr, tri, ls, ac. split; [exact HB|]. intros N HN. unspec.
  assert (P : poles_of 1 1 = [0]). { unfold poles_of. cbn [seq map]. f_equal. unfold cheb. cbn [INR]. transitivity (1 * sin 0); [do 2 f_equal; cbn; field|rewrite sin_0; ring]. }
  assert (T := tau2iw_exact qr tri ls ac HB (fun _ _ => Err OutOfFuel) tau2iw_dft 1 None None N (N / 2)%nat [1] ltac:(lra) HN). cbn [lsum fold_right List.length] in T. cbv zeta in T. rewrite P in T.
  assert (E1 : map (fun k => ptau [0] [1] 1 (linspace 0 1 N k)) (seq 0 N) = repeat (- (1 / 2)) N).
  { apply (list_ext _ _ 0); rewrite map_length, seq_length; [now rewrite repeat_length|]. intros k Hk. rewrite nth_map_seq by exact Hk. rewrite (nth_indep _ 0 (- (1 / 2))) by now rewrite repeat_length. rewrite nth_repeat.
    unfold ptau. cbn [List.length nsum nth]. rewrite Stat_Proofs.fermi_def, Rmult_0_r, Rmult_0_r, exp_0. cbn. field. }
  rewrite E1 in T. rewrite T.
  - f_equal. apply map_ext. intros j. unfold gfun. cbn [combine map lsum fold_right fst snd]. change (@eq C (Cplus (Cdiv (RtoC 1) (Cminus (matsubara_frequencies (Z.of_nat j) 1) (RtoC 0))) (RtoC 0)) (Cdiv (RtoC 1) (matsubara_frequencies (Z.of_nat j) 1))). rewrite Cplus_0_r. f_equal. unfold Cminus. apply C_ext; cbn; ring.
  - discriminate.
  - cbn. lia.
  - reflexivity.
  - intros k Hk. cbn in Hk. assert (k = 0)%nat by lia. subst. cbn. ring.
  - apply tau2iw_dft_zero. exact HN.
Qed.
