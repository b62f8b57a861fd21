(** * C08, C09: the exception of apply_filter and the choice of FilterHighVariance *)
From Coq Require Import List Arith ZArith QArith Lia Bool.
From Verif Require Import Base Pade_Model Pade_Spec PadeAvg_Model PadeAvg_Spec PadeKind_Proofs PadeAvg_Proofs PadeHV_Spec PadeHV_Proofs.
Import ListNotations.

(** apply_filter raises RuntimeError unless a filter raises something else *)
Theorem C08_apply_filter_error : forall (A : Type) (fs : list (list A -> result (list bool))) (l : list A) e,
  Forall well_behaved fs -> length fs <> 1%nat -> apply_filter fs l = Err e ->
  survivors fs (combine (seq 0 (length l)) l) = None /\ (e = RuntimeError \/ exists f l', In f fs /\ f l' = Err e).
Proof.
  intros A fs l e Hw Hl H. assert (S := @apply_filter_spec A fs l Hw Hl). rewrite H in S. split; [exact S|]. clear S.
  assert (E : apply_filter fs l = apply_loop fs l (repeat true (length l))). { destruct fs as [|f [|g fs]]; try reflexivity. exfalso; now apply Hl. }
  rewrite E in H. clear E Hl. assert (Lm : length (repeat true (length l)) = length l) by apply repeat_length. revert Lm H. generalize (repeat true (length l)).
  induction fs as [|f fs IH]; intros mask Lm H; cbn [apply_loop] in H; [discriminate|]. inversion Hw as [|? ? Hf Hw']; subst.
  destruct (f (select mask l)) as [new|e'] eqn:Ef; cbn [bind] in H.
  - assert (Hnew : length new = count_true mask) by (rewrite (Hf _ _ Ef); now apply select_length).
    destruct (@mask_assign_ok A mask new Hnew) as (m' & E & L & _). rewrite E in H. cbn [bind] in H. destruct (existsb (fun b => b) m').
    + destruct (IH Hw' m' ltac:(congruence) H) as [->|(g & l' & Hg & Eg)]; [now left|]. right. exists g, l'. split; [now right|exact Eg].
    + left. congruence.
  - right. exists f, (select mask l). split; [now left|]. congruence.
Qed.
Print Assumptions C08_apply_filter_error.
Example C08_apply_filter_error_ex :
  apply_filter [fun l => Ok (filter_neg_imag 1 l); fun l => Ok (filter_neg_imag 0 l)] [[(0, 3)]; [(0, 1 # 2)]]%Q = Err RuntimeError /\
  apply_filter [fun l => Ok (filter_neg_imag 1 l); fun _ => Err TypeError] [[(0, 3)]; [(0, 1 # 2)]]%Q = Err TypeError.
Proof. split; reflexivity. Qed.

(** C09: every removed approximant has, among those not yet removed, the largest distance from their mean.  The mask keeps the approximants
    nearest to the mean of the last pass, of all approximants, whether removed or not.  Approximants at nz points each *)
Theorem C09_greedy : forall argsort, argsort_ok argsort ->
  forall (nz : nat) (pades : list (list cQ)) (n : nat), (forall p, In p pades -> length p = nz) -> (0 < n)%nat -> (n < length pades)%nat ->
  exists mask bad, filter_high_variance argsort (AbsNum (Z.of_nat n)) nz pades = Ok (mask, bad) /\ length bad = (length pades - n)%nat /\
    (forall k x, nth_error bad k = Some x -> (x < length pades)%nat /\ ~ In x (firstn k bad) /\
       forall j, (j < length pades)%nat -> ~ In j (firstn k bad) -> (mean_dist nz pades (firstn k bad) j <= mean_dist nz pades (firstn k bad) x)%Q) /\
    (forall i j, nth_error mask i = Some true -> nth_error mask j = Some false ->
       (mean_dist nz pades (firstn (length pades - n - 1) bad) i <= mean_dist nz pades (firstn (length pades - n - 1) bad) j)%Q).
Proof. intros argsort Hs nz pades n Hz. exact (filter_high_variance_greedy argsort Hs nz pades Hz n). Qed.
Print Assumptions C09_greedy.
(** removing only one approximant: the discarded one is the removed one, the farthest from the mean (ties are broken the same way) *)
Theorem C09_one : forall argsort, argsort_ok argsort ->
  forall (nz : nat) (pades : list (list cQ)), (forall p, In p pades -> length p = nz) -> (2 <= length pades)%nat ->
  exists mask x, filter_high_variance argsort (AbsNum (Z.of_nat (length pades - 1))) nz pades = Ok (mask, [x]) /\ (x < length pades)%nat /\
    (forall i, (i < length pades)%nat -> (mean_dist nz pades [] i <= mean_dist nz pades [] x)%Q) /\
    (forall i, (i < length pades)%nat -> (nth_error mask i = Some false <-> i = x)).
Proof. intros argsort Hs nz pades Hz H2. exact (filter_high_variance_one argsort Hs nz pades Hz H2). Qed.
Print Assumptions C09_one.
Example C09_greedy_ex : let p := [[(0, 1)]; [(1, 1)]; [(0, 2)]; [(7, 1)]; [(1, 2)]; [(0, -(9))]]%Q in
  filter_high_variance argsort_ins (AbsNum 4) 1 p = Ok ([true; true; true; false; true; false], [5; 3]%nat) /\
  filter_high_variance argsort_ins (AbsNum 5) 1 p = Ok ([true; true; true; true; true; false], [5]%nat).
Proof. split; vm_compute; reflexivity. Qed.

(** ** C07: without filters averaged() is the mean of all approximants it forms *)
Section Unfiltered.
Local Open Scope fld_scope.
Lemma kept_all {A} (ps : list A) : forall n, (length ps <= n)%nat -> map fst (filter snd (combine ps (repeat true n))) = ps.
Proof. induction ps as [|p ps IH]; intros [|n] H; cbn in *; try reflexivity; [lia|]. f_equal. apply IH. lia. Qed.
Lemma kind_covers (K : Fld) k (z : K) zin f pades : good_kind k -> averaged_pades z zin f k = Ok pades -> (k_stop k <= Z.of_nat (length zin))%Z -> (k_start k + 2 <= k_stop k)%Z ->
  (length pades <= Z.to_nat (kind_len k))%nat /\ (0 < length pades)%nat.
Proof.
  intros Hg H Hl H2. destruct (averaged_pades_length K k z zin f pades Hg H Hl) as (E1 & E2). set (d := (k_stop k - k_start k)%Z) in *.
  assert (2 <= d)%Z by (unfold d; lia). pose proof (Z.div_mod d 2 ltac:(lia)). pose proof (Z.mod_pos_bound d 2 ltac:(lia)). pose proof (Z.div_mod (d+1) 2 ltac:(lia)). pose proof (Z.mod_pos_bound (d+1) 2 ltac:(lia)). lia.
Qed.
Theorem C07_unfiltered : forall (K : Fld) (Hchar : forall n, fnat (S n) <> (0 : K)) k (z : K) zin f ps,
  good_kind k -> (k_stop k <= Z.of_nat (length zin))%Z -> (k_start k + 2 <= k_stop k)%Z -> averaged_pades z zin f k = Ok (map Some ps) ->
  averaged_1d z zin f k = Ok (lsum ps / fnat (length ps)).
Proof.
  intros K Hchar k z zin f ps Hg Hl H2 H. destruct (kind_covers K k z zin f _ Hg H Hl H2) as (C1 & C2). rewrite map_length in C1, C2.
  unfold averaged_1d. rewrite H. cbn [bind]. unfold average_1d. destruct (Z.to_nat (kind_len k)) as [|n] eqn:En; [lia|].
  replace (existsb (fun b => b) (repeat true (S n))) with true by reflexivity. cbn [negb]. rewrite kept_all by (rewrite map_length; lia). rewrite no_none, finites_map_Some.
  unfold mean, fdiv. destruct (length ps) as [|m]; [lia|]. destruct (Feq_dec (fnat (S m)) 0) as [E|E]; [exfalso; now apply (Hchar m)|reflexivity].
Qed.
Print Assumptions C07_unfiltered.
(** an approximant that is not finite makes averaged() raise *)
Theorem C07_unfiltered_raises : forall (K : Fld) k (z : K) zin f pades,
  good_kind k -> (k_stop k <= Z.of_nat (length zin))%Z -> (k_start k + 2 <= k_stop k)%Z -> averaged_pades z zin f k = Ok pades -> In None pades ->
  averaged_1d z zin f k = Err RuntimeError.
Proof.
  intros K k z zin f ps Hg Hl H2 H HN. destruct (kind_covers K k z zin f _ Hg H Hl H2) as (C1 & C2).
  unfold averaged_1d. rewrite H. cbn [bind]. unfold average_1d. destruct (Z.to_nat (kind_len k)) as [|n] eqn:En; [lia|].
  replace (existsb (fun b => b) (repeat true (S n))) with true by reflexivity. cbn [negb]. rewrite kept_all by lia.
  replace (existsb is_none ps) with true; [reflexivity|]. symmetry. apply existsb_exists. exists None. now split.
Qed.
Print Assumptions C07_unfiltered_raises.
(** stacked functions: every function gets the mean of its own approximants if the window has an even width; else averaged() raises IndexError *)
Theorem C07_unfiltered_stacked : forall (K : Fld) (Hchar : forall n, fnat (S n) <> (0 : K)) k (z : K) zin (fs : list (list K)) (ps : list (list K)),
  good_kind k -> (k_stop k <= Z.of_nat (length zin))%Z -> (k_start k + 2 <= k_stop k)%Z ->
  Forall2 (fun f p => averaged_pades z zin f k = Ok (map Some p)) fs ps ->
  averaged_nd z zin fs k = if Z.even (k_stop k - k_start k) then Ok (map (fun p => lsum p / fnat (length p)) ps) else match fs with [] => Ok [] | _ => Err IndexError end.
Proof.
  intros K Hchar k z zin fs ps Hg Hl H2 F. set (n := Z.to_nat (kind_len k)).
  assert (LEN : Forall (fun p => (0 < length p <= n)%nat /\ (length p = n <-> Z.even (k_stop k - k_start k) = true)) ps).
  { clear Hchar. induction F as [|f p fs ps H F IH]; constructor; [|exact IH]. destruct (kind_covers K k z zin f _ Hg H Hl H2) as (C1 & C2). destruct (averaged_count_iff K k z zin f _ Hg H Hl) as (C3 & _). rewrite map_length in *. fold n in C1.
    split; [lia|]. rewrite <- C3. unfold n. destruct (averaged_pades_length K k z zin f _ Hg H Hl) as (_ & E2). assert (0 <= kind_len k)%Z by (rewrite E2; apply Z.div_pos; lia). lia. }
  unfold averaged_nd. fold n.
  assert (E : fold_right (fun f acc => do rest <- acc; do pades <- averaged_pades z zin f k; Ok ((repeat true n, pades) :: rest)) (Ok []) fs = Ok (map (fun p => (repeat true n, map Some p)) ps)).
  { clear LEN. induction F as [|f p fs ps H F IH]; [reflexivity|]. cbn [fold_right map]. rewrite IH. cbn [bind]. rewrite H. reflexivity. }
  rewrite E. cbn [bind]. clear E. destruct F as [|f p fs ps H F]; [cbn; now destruct (Z.even _)|]. assert (Np : (0 < n)%nat) by (inversion LEN as [|? ? (A & _) _]; lia).
  clear H F. remember (p :: ps) as qs eqn:Eq. assert (Nq : qs <> []) by (rewrite Eq; discriminate). clear Eq p ps.
  unfold average_nd.
  assert (X1 : existsb (fun c : list bool * list (ext K) => negb (existsb (fun b => b) (fst c))) (map (fun p => (repeat true n, map Some p)) qs) = false).
  { clear -Np. destruct n as [|m]; [lia|]. induction qs; [reflexivity|]. cbn in *. exact IHqs. }
  assert (X2 : existsb (fun c : list bool * list (ext K) => existsb is_none (snd c)) (map (fun p => (repeat true n, map Some p)) qs) = false).
  { clear. induction qs as [|q qs IH]; [reflexivity|]. cbn [map existsb snd]. now rewrite no_none. }
  rewrite X1, X2. destruct (Z.even (k_stop k - k_start k)).
  - assert (X3 : existsb (fun c : list bool * list (ext K) => negb (length (fst c) =? length (snd c))%nat) (map (fun p => (repeat true n, map Some p)) qs) = false).
    { clear -LEN. induction LEN as [|q qs (_ & L) _ IH]; [reflexivity|]. cbn [map existsb fst snd]. rewrite repeat_length, map_length, (proj2 L eq_refl), Nat.eqb_refl. exact IH. }
    rewrite X3. clear X1 X2 X3 Nq. induction LEN as [|q qs (L0 & L) _ IH]; [reflexivity|]. cbn [map fold_right fst snd]. rewrite IH. cbn [bind]. rewrite kept_all by (rewrite map_length; lia). rewrite finites_map_Some.
    unfold mean, fdiv. destruct (length q) as [|m]; [lia|]. destruct (Feq_dec (fnat (S m)) 0) as [E|E]; [exfalso; now apply (Hchar m)|reflexivity].
  - destruct qs as [|q qs]; [contradiction|]. inversion LEN as [|? ? (_ & L) _]; subst. cbn [map existsb fst snd]. rewrite repeat_length, map_length.
    destruct (Nat.eqb_spec n (length q)) as [e|_]; [symmetry in e; apply L in e; discriminate|]. reflexivity.
Qed.
Print Assumptions C07_unfiltered_stacked.
Example C07_unfiltered_example :
  show_list (averaged_pades (qc 7) [qc 0; qc 1; qc 2; qc 4; qc 5] [qc 3; qc 1; qc 2; qc 5; qc 7] (mkKind 0 4 2)) = Ok [Some (1#5)%Q; Some (-(19)#3)%Q] /\
  good_kind (mkKind 0 4 2) /\ show (averaged_1d (qc 7) [qc 0; qc 1; qc 2; qc 4; qc 5] [qc 3; qc 1; qc 2; qc 5; qc 7] (mkKind 0 4 2)) = Ok (-(46)#15)%Q.
Proof. split; [vm_compute; reflexivity|]. split; [unfold good_kind; cbn; lia|vm_compute; reflexivity]. Qed.
Example C07_unfiltered_stacked_example :
  let zin := [qc 0; qc 1; qc 2; qc 4; qc 5] in let fs := [[qc 3; qc 1; qc 2; qc 5; qc 7]; [qc 1; qc 2; qc 7; qc 5; qc 3]] in
  (exists m1 m2, averaged_nd (qc 7) zin fs (mkKind 0 4 2) = Ok [m1; m2] /\ Qcanon.this m1 = (-(46)#15)%Q) /\ averaged_nd (qc 7) zin fs (mkKind 0 3 2) = Err IndexError.
Proof. cbv zeta. split; [|vm_compute; reflexivity]. eexists. eexists. split; vm_compute; reflexivity. Qed.
End Unfiltered.
