(** * C75: averages and errors of Averager and Mod_Averager *)
From Coq Require Import Reals List Lia Lra.
From Coquelicot Require Import Coquelicot.
From Verif Require Import Base CBase PadeMod_Spec PadeMod_Model PadeMod_Proofs.
Import ListNotations.
Local Open Scope C_scope.

(** Averager: at every output point x is the mean of the valid approximants, err has the sample standard deviations of the real
    and imaginary parts as real and imaginary part. *)
Theorem C75_average :
  forall m valid ps, (forall p, In p ps -> length p = m) -> valids valid ps <> [] ->
  exists res, average valid (map (map Some) ps) = Ok res /\ length res = m /\
    forall j xe, nth_error res j = Some xe -> column_spec (map (fun p => nth j p (RtoC 0)) (valids valid ps)) xe.
Proof. exact average_spec. Qed.
Print Assumptions C75_average.

(** Mod_Averager: the same of the modified approximants. *)
Theorem C75_mod_average :
  forall (mod_fct : list (option C) -> list (option C)) (g : list C -> list C) m valid ps,
  (forall p, In p (valids valid ps) -> mod_fct (map Some p) = map Some (g p) /\ length (g p) = m) -> valids valid ps <> [] ->
  exists res, mod_average mod_fct valid (map (map Some) ps) = Ok res /\ length res = m /\
    forall j xe, nth_error res j = Some xe -> column_spec (map (fun p => nth j (g p) (RtoC 0)) (valids valid ps)) xe.
Proof. exact mod_average_spec. Qed.
Print Assumptions C75_mod_average.

(** A mask for every function: the same, if the function maps rows of NaN to rows of NaN. *)
Theorem C75_mod_average_stacked :
  forall (mod_fct : list (option C) -> list (option C)) (g : list C -> list C) m cols,
  (forall c, In c cols -> length (fst c) = length (snd c) /\ existsb (fun b => b) (fst c) = true) ->
  (forall c p, In c cols -> In p (snd c) -> mod_fct (map Some p) = map Some (g p) /\ length (g p) = m /\
     length (mod_fct (map (fun _ => None) p)) = m /\ forall j, nth j (mod_fct (map (fun _ => None) p)) None = None) ->
  exists res, mod_average_nd mod_fct (map lift_col cols) = Ok res /\
    Forall2 (fun c r => length r = m /\ forall j xe, nth_error r j = Some xe ->
      column_spec (map (fun p => nth j (g p) (RtoC 0)) (valids (fst c) (snd c))) xe) cols res.
Proof. exact mod_average_nd_spec. Qed.
Print Assumptions C75_mod_average_stacked.

(** Averaging commutes with linear functions (a mollification by quadrature): Mod_Averager returns the function of the average. *)
Theorem C75_linear :
  forall (A : list (list C)) m valid ps, (forall p, In p ps -> length p = m) -> valids valid ps <> [] ->
  exists res res' xbar, average valid (map (map Some) ps) = Ok res /\ map fst res = map Some xbar /\
    mod_average (fun r => map Some (mat_vec A (nonan r))) valid (map (map Some) ps) = Ok res' /\ map fst res' = map Some (mat_vec A xbar).
Proof. exact linear_commutes. Qed.
Print Assumptions C75_linear.

(** What the error says: no part of a valid approximant is further from the mean than (n-1)/sqrt(n) times the error, ... *)
Theorem C75_error_bounds_spread :
  forall l m s, is_mean l m -> is_sample_std l s -> forall x, In x l ->
  (INR (length l) * ((x - m) * (x - m)) <= (INR (length l) - 1) * (INR (length l) - 1) * (s * s))%R.
Proof. exact samuelson. Qed.
Print Assumptions C75_error_bounds_spread.
(** ... and it vanishes exactly if all valid approximants agree. *)
Theorem C75_error_zero :
  forall l m s, is_mean l m -> is_sample_std l s -> (2 <= length l)%nat -> (s = 0%R <-> forall x, In x l -> x = m).
Proof. exact std_zero. Qed.
Print Assumptions C75_error_zero.

(** [err] is documented as "variance": it is not. *)
Theorem C75_variance_refuted :
  exists valid ps res x e, average valid (map (map Some) ps) = Ok res /\ nth_error res 0 = Some (Some x, Some e) /\
  ~ (is_sample_std (map (fun p => fst (nth 0 p (RtoC 0))) (valids valid ps)) (sqrt (fst e))).
Proof.
  destruct (average_spec 1 [true; true] [[RtoC 0]; [RtoC 4]]) as (res & E & L & H).
  { intros p [<-|[<-|[]]]; reflexivity. } { discriminate. }
  destruct res as [|[ox oe] res]; [discriminate|]. destruct (H 0%nat _ eq_refl) as (x & Ex & _ & _ & He & _). cbn in Ex. subst ox.
  destruct (He ltac:(cbn; lia)) as (e & Ee & Hs & _). cbn in Ee. subst oe.
  exists [true; true], [[RtoC 0]; [RtoC 4]], ((Some x, Some e) :: res), x, e. split; [exact E|]. split; [reflexivity|].
  cbn in Hs |- *. intros Hs'. destruct Hs as (P & m & [_ Hm] & Hq), Hs' as (_ & m' & [_ Hm'] & Hq'). cbn in *.
  assert (m = 2)%R by lra. assert (m' = 2)%R by lra. subst m m'. rewrite sqrt_sqrt in Hq' by exact P. nra.
Qed.
Print Assumptions C75_variance_refuted.

(** A NaN which the function returns for a valid approximant is dropped without notice: the mean is not the one of all valid. *)
Definition inv_or_nan (r : list (option C)) : list (option C) :=
  map (fun v => match v with Some x => if Ceq_dec x 0 then None else Some (/ x) | None => None end) r.
Theorem C75_nan_dropped_refuted :
  exists (mod_fct : list (option C) -> list (option C)) valid p q x,
  valids valid [p; q] = [p; q] /\ mod_fct (map Some p) = [None] /\
  mod_average mod_fct valid (map (map Some) [p; q]) = Ok [(Some x, None)].
Proof.
  exists inv_or_nan, [true; true], [RtoC 0], [RtoC 2], (/ RtoC 2 / RtoC 1).
  assert (E0 : inv_or_nan [Some (RtoC 0)] = [None]). { cbn. destruct (Ceq_dec 0 0); [reflexivity|easy]. }
  assert (E2 : inv_or_nan [Some (RtoC 2)] = [Some (/ RtoC 2)]). { cbn. destruct (Ceq_dec 2 0) as [E|]; [injection E; lra|reflexivity]. }
  split; [reflexivity|]. split; [exact E0|].
  unfold mod_average. rewrite (rows_1d_ok [true; true] [[RtoC 0]; [RtoC 2]]) by discriminate. cbn [bind valids map].
  rewrite E0, E2. cbn. do 4 f_equal. rewrite Cplus_0_r. reflexivity.
Qed.
Print Assumptions C75_nan_dropped_refuted.

(** With a mask for every function, one which replaces NaN lets the invalid approximants contribute, unlike with a common mask. *)
Definition nan_to_num (r : list (option C)) : list (option C) := map (fun v => match v with Some x => Some x | None => Some (RtoC 0) end) r.
Theorem C75_stacked_invalid_refuted :
  exists (mod_fct : list (option C) -> list (option C)) valid pades x y e e',
  mod_average mod_fct valid pades = Ok [(Some x, e)] /\ mod_average_nd mod_fct [(valid, pades)] = Ok [[(Some y, e')]] /\ x <> y.
Proof.
  exists nan_to_num, [true; false], [[Some (RtoC 1)]; [Some (RtoC 5)]]. do 4 eexists. split; [|split].
  - reflexivity.
  - reflexivity.
  - cbn. intros E. apply (f_equal Re) in E. cbn in E. lra.
Qed.
Print Assumptions C75_stacked_invalid_refuted.

Example C75_example :
  valids [true; false; true] [[RtoC 1; RtoC 2]; [RtoC 7; RtoC 7]; [RtoC 3; RtoC 2]] = [[RtoC 1; RtoC 2]; [RtoC 3; RtoC 2]] /\
  is_mean [1; 3]%R 2 /\ is_sample_std [1; 3]%R (sqrt 2) /\ is_sample_std [2; 2]%R 0 /\
  nth 0 (inv_or_nan (map (fun _ => None) [RtoC 1])) None = None.
Proof.
  split; [reflexivity|]. assert (M : is_mean [1; 3]%R 2) by (split; [discriminate|cbn; lra]).
  split; [exact M|]. split; [|split; [|reflexivity]].
  - split; [apply sqrt_pos|]. exists 2%R. split; [exact M|]. rewrite sqrt_sqrt by lra. cbn. lra.
  - split; [lra|]. exists 2%R. split; [split; [discriminate|cbn; lra]|]. cbn. lra.
Qed.
