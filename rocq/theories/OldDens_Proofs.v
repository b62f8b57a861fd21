(** * Proofs about the deprecated density functions *)
From Coq Require Import List Arith ZArith Reals Lia Lra Psatz Bool String.
From Coquelicot Require Import Coquelicot.
From Verif Require Import Base FSum CBase CExp Stat_Model Stat_Proofs Linalg_Model Linalg_Proofs Matrix_Model Matrix_Proofs MatAlg Mat Pole_Spec FourierMom_Model Fourier_Quad Matsu_Ser Matsu_Sum Matsu_Main OldDens_Model.
Import ListNotations.
Local Open Scope R_scope.

Lemma nsum_sub_R N (f g : nat -> R) : nsum (K := RF) N (fun n => f n - g n) = nsum (K := RF) N f - nsum (K := RF) N g.
Proof. exact (nsum_sub RF N f g). Qed.
(** ** limits *)
Theorem density_lim (P W p r : list R) beta : 0 < beta -> List.length P = List.length W -> List.length p = List.length r ->
  is_lim_seq (fun N => 2 * nsum (K := RF) N (fun n => fst (green_z (iw beta n) P W) - fst (green_z (iw beta n) p r)) / beta + occupation p r beta)
    (occupation P W beta + (lsum (K := RF) r - lsum (K := RF) W) / 2).
Proof.
  intros Hb HL Hl. assert (A := matsubara_equal P W beta Hb HL). assert (B := matsubara_equal p r beta Hb Hl). assert (D := is_lim_seq_minus' _ _ _ _ A B). apply (lim_add _ _ (occupation p r beta) (occupation P W beta + (lsum (K := RF) r - lsum (K := RF) W) / 2)) in D.
  - refine (is_lim_seq_ext _ _ _ _ D). intros N. f_equal. unfold msum. rewrite <- Rmult_minus_distr_l.
    assert (X : forall G : nat -> C, nsum (K := RF) N (fun n => fst (G n * cexp (- (iw beta n * RtoC 0)))%C) = nsum (K := RF) N (fun n => fst (G n))).
    { intros G. apply nsum_ext_R. intros n. replace (- (iw beta n * RtoC 0))%C with (RtoC 0) by ring. rewrite cexp_0. cbn. ring. }
    rewrite !X. rewrite <- (nsum_sub_R N). unfold Rdiv. ring.
  - set (a := lsum (K := RF) W). set (b := lsum (K := RF) r). change (car RF) with R in a, b. clearbody a b. field.
Qed.

(** ** lists over the index *)
Lemma combine_map {A B D} (f : D -> A) (g : D -> B) l : combine (map f l) (map g l) = map (fun d => (f d, g d)) l.
Proof. induction l as [|d l IH]; [reflexivity|]. cbn. now rewrite IH. Qed.
Lemma lsum_seq N (f : nat -> R) : lsum (K := RF) (map f (seq 0 N)) = nsum (K := RF) N f.
Proof. exact (lsum_map_seq (K := RF) N f). Qed.
Lemma skipn_seq k N : skipn k (seq 0 N) = seq k (N - k).
Proof.
  assert (H : forall s, skipn k (seq s N) = seq (s + k) (N - k)); [|apply (H 0%nat)]. revert N. induction k as [|k IH]; intros N s; [rewrite Nat.add_0_r, Nat.sub_0_r; reflexivity|].
  destruct N as [|N]; [reflexivity|]. cbn [seq skipn]. rewrite IH. f_equal; lia.
Qed.
Lemma skipn_map_seq {A} (f : nat -> A) k N : skipn k (map f (seq 0 N)) = map f (seq k (N - k)).
Proof. rewrite skipn_map, skipn_seq. reflexivity. Qed.
Lemma last_map_seq (f : nat -> R) k n d : (0 < n)%nat -> last (map f (seq k n)) d = f (k + n - 1)%nat.
Proof. intros H. destruct n as [|n]; [lia|]. rewrite seq_S, map_app. cbn [map]. rewrite last_last. f_equal. lia. Qed.
Lemma lmax_ge l x : In x l -> x <= lmax l.
Proof.
  destruct l as [|y l]; [intros []|]. cbn [lmax]. assert (Hb : forall l z, z <= fold_right Rmax z l). { intros l0 z. induction l0 as [|a l0 IH]; cbn; [lra|]. eapply Rle_trans; [exact IH|apply Rmax_r]. }
  intros [<-|H]; [apply Hb|]. induction l as [|a l IH]; [destruct H|]. cbn. destruct H as [<-|H]; [apply Rmax_l|]. eapply Rle_trans; [apply IH, H|apply Rmax_r].
Qed.

Definition wn (beta : R) (n : nat) : R := (2 * INR n + 1) * PI / beta.
Lemma snd_iw beta n : beta <> 0 -> snd (iw beta n) = wn beta n.
Proof. intros Hb. unfold iw, wn. cbn. field. exact Hb. Qed.
Lemma wn_pos beta n : 0 < beta -> 0 < wn beta n.
Proof. intros Hb. unfold wn. assert (P := PI_RGT_0). assert (N := pos_INR n). apply Rdiv_lt_0_compat; [apply Rmult_lt_0_compat; lra|exact Hb]. Qed.
Lemma wn_S beta n : 0 < beta -> wn beta (S n) = wn beta n + 2 * PI / beta.
Proof. intros Hb. unfold wn. rewrite S_INR. field. lra. Qed.
Lemma iw_grid_iw beta N : iw_grid beta N = map (iw beta) (seq 0 N).
Proof. unfold iw_grid. apply map_ext. intros n. symmetry. apply iw_mats. Qed.
Lemma grid_wn beta N : beta <> 0 -> map snd (iw_grid beta N) = map (wn beta) (seq 0 N).
Proof. intros Hb. rewrite iw_grid_iw, map_map. apply map_ext. intros n. now apply snd_iw. Qed.

Lemma density_error_eq (delta : nat -> R) beta N noisy : (0 < N)%nat ->
  density_error (map delta (seq 0 N)) (map (wn beta) (seq 0 N)) noisy
  = Ok ((if noisy then nsum (K := RF) (N - N / 10) (fun i => delta (N / 10 + i)%nat * wn beta (N / 10 + i) ^ 2) / INR (N - N / 10)
         else lmax (map (fun n => Rabs (delta n) * wn beta n ^ 2) (seq (N / 10) (N - N / 10)))) * (1 / PI / wn beta (N - 1))).
Proof.
  intros HN. unfold density_error. rewrite !map_length, !seq_length, Nat.eqb_refl. cbv zeta. assert (K : (N / 10 < N)%nat) by (apply Nat.div_lt; lia).
  rewrite !map_map, !skipn_map_seq. destruct (map (wn beta) (seq (N / 10) (N - N / 10))) as [|w0 rest] eqn:E.
  { apply (f_equal (@List.length R)) in E. rewrite map_length, seq_length in E. change (List.length (@nil R)) with 0%nat in E. lia. }
  rewrite <- E. rewrite last_map_seq by lia. replace (N / 10 + (N - N / 10) - 1)%nat with (N - 1)%nat by lia. f_equal. f_equal. destruct noisy.
  - rewrite combine_map, !map_map. cbn [fst snd]. rewrite !map_length, seq_length. f_equal.
    transitivity (lsum (K := RF) (map (fun i => delta (N / 10 + i)%nat * wn beta (N / 10 + i) ^ 2) (seq 0 (N - N / 10)))); [|apply lsum_seq].
    f_equal. clear E. generalize (N - N / 10)%nat as m. intros m. assert (S : forall k s, map (fun x => delta x * wn beta x ^ 2) (seq (k + s) m) = map (fun i => delta (k + i)%nat * wn beta (k + i) ^ 2) (seq s m)).
    { intros k. induction m as [|m IH]; intros s; [reflexivity|]. cbn [seq map]. f_equal. rewrite <- IH. f_equal. f_equal. lia. }
    rewrite <- S, Nat.add_0_r. reflexivity.
  - rewrite combine_map, !map_map. reflexivity.
Qed.
Lemma density_error2_eq (delta : nat -> R) beta N : (0 < N)%nat ->
  density_error2 (map delta (seq 0 N)) (map (wn beta) (seq 0 N)) = Ok (lmax (map (fun n => Rabs (delta n) * wn beta n ^ 3) (seq (N / 10) (N - N / 10))) * (1 / 2 * PI / wn beta (N - 1) ^ 2)).
Proof.
  intros HN. unfold density_error2. rewrite !map_length, !seq_length, Nat.eqb_refl. cbv zeta. assert (K : (N / 10 < N)%nat) by (apply Nat.div_lt; lia).
  rewrite !map_map, !skipn_map_seq. destruct (map (wn beta) (seq (N / 10) (N - N / 10))) as [|w0 rest] eqn:E.
  { apply (f_equal (@List.length R)) in E. rewrite map_length, seq_length in E. change (List.length (@nil R)) with 0%nat in E. lia. }
  rewrite <- E. rewrite last_map_seq by lia. replace (N / 10 + (N - N / 10) - 1)%nat with (N - 1)%nat by lia. rewrite combine_map, map_map. reflexivity.
Qed.

(** ** the truncation error: comparison with a telescoping sum *)
Lemma nsum_tail_le (f g : nat -> R) N M : (forall n, (N <= n)%nat -> Rabs (f n) <= g n - g (S n)) -> Rabs (nsum (K := RF) (N + M) f - nsum (K := RF) N f) <= g N - g (N + M)%nat.
Proof.
  intros H. induction M as [|M IH].
  - rewrite Nat.add_0_r. replace (nsum (K := RF) N f - nsum (K := RF) N f) with 0; [rewrite Rabs_R0; lra|]. set (x := nsum (K := RF) N f). change (car RF) with R in x. ring.
  - rewrite Nat.add_succ_r. change (nsum (K := RF) (S (N + M)) f) with (nsum (K := RF) (N + M) f + f (N + M)%nat). specialize (H (N + M)%nat ltac:(lia)). set (x := nsum (K := RF) (N + M) f) in *. set (y := nsum (K := RF) N f) in *. change (car RF) with R in x, y. clearbody x y.
    replace (x + f (N + M)%nat - y) with ((x - y) + f (N + M)%nat) by ring. eapply Rle_trans; [apply Rabs_triang|]. lra.
Qed.
Theorem tail_bound (delta g : nat -> R) beta c N (X : R) : 0 < beta -> (forall n, (N <= n)%nat -> Rabs (delta n) <= g n - g (S n)) -> (forall n, 0 <= g n) ->
  is_lim_seq (fun N => 2 * nsum (K := RF) N delta / beta + c) X -> Rabs (X - (2 * nsum (K := RF) N delta / beta + c)) <= 2 / beta * g N.
Proof.
  intros Hb H Hg L. set (x := fun N => 2 * nsum (K := RF) N delta / beta + c) in *. change (Rabs (X - x N) <= 2 / beta * g N).
  assert (L' : is_lim_seq (fun M => Rabs (x (M + N)%nat - x N)) (Rabs (X - x N))). { apply (is_lim_seq_abs _ (Finite (X - x N))). apply is_lim_seq_minus'; [|apply is_lim_seq_const]. apply (is_lim_seq_incr_n x N (Finite X)), L. }
  apply (is_lim_seq_le (fun M => Rabs (x (M + N)%nat - x N)) (fun _ => 2 / beta * g N) _ _) with (2 := L') (3 := is_lim_seq_const _). intros M. rewrite Nat.add_comm. unfold x.
  assert (K := nsum_tail_le delta g N M H). assert (G := Hg (N + M)%nat). set (a := nsum (K := RF) (N + M) delta) in *. set (b := nsum (K := RF) N delta) in *. change (car RF) with R in a, b. clearbody a b.
  replace (2 * a / beta + c - (2 * b / beta + c)) with (2 / beta * (a - b)) by (field; lra). assert (B : 0 < 2 / beta) by (apply Rdiv_lt_0_compat; lra). rewrite Rabs_mult, (Rabs_pos_eq (2 / beta)) by lra. apply Rmult_le_compat_l; lra.
Qed.
Lemma tele2 beta F d n : 0 < beta -> Rabs d * wn beta (S n) ^ 2 <= F -> Rabs d <= F * (beta / (2 * PI)) * (/ wn beta n - / wn beta (S n)).
Proof.
  intros Hb H. assert (W := wn_pos beta n Hb). assert (W' := wn_pos beta (S n) Hb). assert (P := PI_RGT_0). assert (E := wn_S beta n Hb). assert (F0 : 0 <= F) by (eapply Rle_trans; [|exact H]; apply Rmult_le_pos; [apply Rabs_pos|nra]).
  replace (F * (beta / (2 * PI)) * (/ wn beta n - / wn beta (S n))) with (F * / (wn beta n * wn beta (S n))).
  2:{ rewrite E. field. assert (0 < 2 * PI / beta) by (apply Rdiv_lt_0_compat; lra). repeat split; try lra. intros Q. assert (wn beta n * beta + 2 * PI = 0 -> False) by nra. first [lra | nra]. }
  apply (Rle_trans _ (F * / wn beta (S n) ^ 2)).
  - apply (Rmult_le_reg_r (wn beta (S n) ^ 2)); [nra|]. rewrite Rmult_assoc, Rinv_l by nra. lra.
  - apply Rmult_le_compat_l; [exact F0|]. apply Rinv_le_contravar; [nra|]. assert (D : 0 < 2 * PI / beta) by (apply Rdiv_lt_0_compat; lra). nra.
Qed.
Lemma tele3 beta F d n : 0 < beta -> Rabs d * wn beta (S n) ^ 3 <= F -> Rabs d <= F * (beta / (4 * PI)) * (/ wn beta n ^ 2 - / wn beta (S n) ^ 2).
Proof.
  intros Hb H. assert (W := wn_pos beta n Hb). assert (W' := wn_pos beta (S n) Hb). assert (P := PI_RGT_0). assert (E := wn_S beta n Hb). assert (W3 : 0 < wn beta (S n) ^ 3) by (apply pow_lt, W'). assert (F0 : 0 <= F) by (eapply Rle_trans; [|exact H]; apply Rmult_le_pos; [apply Rabs_pos|lra]).
  assert (D : 0 < 2 * PI / beta) by (apply Rdiv_lt_0_compat; lra).
  replace (F * (beta / (4 * PI)) * (/ wn beta n ^ 2 - / wn beta (S n) ^ 2)) with (F * ((wn beta (S n) + wn beta n) / 2 / (wn beta n ^ 2 * wn beta (S n) ^ 2))).
  2:{ assert (Q : beta / (4 * PI) = / (2 * (wn beta (S n) - wn beta n))) by (rewrite E; field; lra). rewrite Q. field. repeat split; lra. }
  apply (Rle_trans _ (F * / wn beta (S n) ^ 3)).
  - apply (Rmult_le_reg_r (wn beta (S n) ^ 3)); [exact W3|]. rewrite Rmult_assoc, Rinv_l by lra. lra.
  - apply Rmult_le_compat_l; [exact F0|]. set (a := wn beta n) in *. set (b := wn beta (S n)) in *. assert (AB : a < b) by lra.
    apply (Rmult_le_reg_r (a ^ 2 * b ^ 3)); [apply Rmult_lt_0_compat; [nra|exact W3]|]. replace (/ b ^ 3 * (a ^ 2 * b ^ 3)) with (a ^ 2) by (field; lra). replace ((b + a) / 2 / (a ^ 2 * b ^ 2) * (a ^ 2 * b ^ 3)) with ((b + a) * b / 2) by (field; lra). nra.
Qed.

(** ** density for scalar potentials *)
Lemma cinv_green pot beta n : 0 < beta -> cinv_re (Cplus (RtoC pot) (iw beta n)) = fst (green_z (iw beta n) [- pot] [1]).
Proof. intros Hb. unfold cinv_re. cbn [green_z]. f_equal. replace (iw beta n - RtoC (- pot))%C with (RtoC pot + iw beta n)%C by (rewrite RtoC_opp; ring). ring. Qed.
Definition delta_of (gf : nat -> C) (pot beta : R) (n : nat) : R := fst (gf n) - fst (1 / (RtoC pot + iw beta n))%C.
Lemma density_from_x gf tail a beta r N : beta <> 0 -> (0 < N)%nat -> exists o, density_from (map gf (seq 0 N)) (map tail (seq 0 N)) a beta r = Ok o /\
  dens_x o = 2 * nsum (K := RF) N (fun n => fst (gf n) - tail n) / beta + a.
Proof.
  intros Hb HN. unfold density_from. cbv zeta. rewrite combine_map, map_map. cbn [fst snd]. rewrite map_length, seq_length, lsum_seq. rewrite grid_wn by exact Hb.
  destruct r as [|tol]; [|destruct (Req_EM_T tol 0)]; rewrite ?(density_error_eq _ beta N true HN); eexists; (split; [reflexivity|reflexivity]).
Qed.
Lemma density_tail pot beta N : map (fun w => cinv_re (RtoC pot + w)%C) (iw_grid beta N) = map (fun n => fst (1 / (RtoC pot + iw beta n))%C) (seq 0 N).
Proof. rewrite iw_grid_iw, map_map. reflexivity. Qed.
Lemma density_x gf pot beta r N : beta <> 0 -> (0 < N)%nat -> exists o, density (map gf (seq 0 N)) pot beta r = Ok o /\
  dens_x o = 2 * nsum (K := RF) N (delta_of gf pot beta) / beta + / (exp (- (beta * pot)) + 1).
Proof.
  intros Hb HN. unfold density. destruct (Req_EM_T beta 0); [contradiction|]. cbv zeta. rewrite map_length, seq_length, density_tail. rewrite fermi_def. replace (beta * - pot) with (- (beta * pot)) by ring. now apply density_from_x.
Qed.
Lemma occ1 pot beta : occupation [- pot] [1] beta = / (exp (- (beta * pot)) + 1).
Proof. cbn [occupation]. replace (beta * - pot) with (- (beta * pot)) by ring. unfold Rdiv. ring. Qed.

Theorem density_converges (P W : list R) pot beta : 0 < beta -> List.length P = List.length W ->
  is_lim_seq (fun N => 2 * nsum (K := RF) N (delta_of (fun n => green_z (iw beta n) P W) pot beta) / beta + / (exp (- (beta * pot)) + 1)) (occupation P W beta + (1 - lsum (K := RF) W) / 2).
Proof.
  intros Hb HL. assert (D := density_lim P W [- pot] [1] beta Hb HL eq_refl). rewrite occ1 in D.
  match type of D with is_lim_seq _ ?l => match goal with |- is_lim_seq _ ?l' => replace l' with l end end.
  - refine (is_lim_seq_ext _ _ _ _ D). intros N. f_equal. f_equal. f_equal. apply nsum_ext_R. intros n. unfold delta_of. f_equal. rewrite <- cinv_green by exact Hb. reflexivity.
  - apply f_equal. f_equal. f_equal. change (lsum (K := RF) [1]) with (1 + 0). set (w := lsum (K := RF) W). change (car RF) with R in w. ring.
Qed.

Lemma ok_inj (x y : R) : Ok x = Ok y -> x = y.
Proof. intros E. now injection E. Qed.
Theorem error_bound gf pot beta N (X : R) e : 0 < beta -> (0 < N)%nat ->
  is_lim_seq (fun N => 2 * nsum (K := RF) N (delta_of gf pot beta) / beta + / (exp (- (beta * pot)) + 1)) X ->
  (forall n, (N <= n)%nat -> exists m, (N / 10 <= m < N)%nat /\ Rabs (delta_of gf pot beta n) * wn beta n ^ 2 <= Rabs (delta_of gf pot beta m) * wn beta m ^ 2) ->
  density_error (map (delta_of gf pot beta) (seq 0 N)) (map (wn beta) (seq 0 N)) false = Ok e ->
  Rabs (X - (2 * nsum (K := RF) N (delta_of gf pot beta) / beta + / (exp (- (beta * pot)) + 1))) <= e.
Proof.
  intros Hb HN L H E. rewrite density_error_eq in E by exact HN. apply ok_inj in E. subst e. assert (K : (N / 10 < N)%nat) by (apply Nat.div_lt; lia). set (k := (N / 10)%nat) in *. clearbody k. set (F := lmax _).
  destruct N as [|N]; [lia|]. replace (S N - 1)%nat with N in * by lia. assert (P := PI_RGT_0). assert (W := wn_pos beta N Hb).
  assert (HF : forall n, (S N <= n)%nat -> Rabs (delta_of gf pot beta n) * wn beta n ^ 2 <= F). { intros n Hn. destruct (H n Hn) as (m & Hm & Q). eapply Rle_trans; [exact Q|]. apply lmax_ge. apply in_map_iff. exists m. split; [reflexivity|]. apply in_seq. lia. }
  assert (F0 : 0 <= F). { eapply Rle_trans; [|apply (HF (S N)); lia]. apply Rmult_le_pos; [apply Rabs_pos|apply pow2_ge_0]. }
  replace (F * (1 / PI / wn beta N)) with (2 / beta * (F * (beta / (2 * PI)) * / wn beta N)) by (field; lra).
  apply (tail_bound _ (fun n => F * (beta / (2 * PI)) * / wn beta (n - 1)) beta _ (S N) X Hb) in L.
  - cbn [Nat.sub] in L. rewrite Nat.sub_0_r in L. exact L.
  - intros n Hn. destruct n as [|n]; [lia|]. cbn [Nat.sub]. rewrite Nat.sub_0_r, <- Rmult_minus_distr_l. apply tele2; [exact Hb|]. apply HF, Hn.
  - intros n. apply Rmult_le_pos; [apply Rmult_le_pos; [exact F0|apply Rlt_le, Rdiv_lt_0_compat; lra]|apply Rlt_le, Rinv_0_lt_compat, wn_pos, Hb].
Qed.
Theorem error2_bound gf pot beta N (X : R) e : 0 < beta -> (0 < N)%nat ->
  is_lim_seq (fun N => 2 * nsum (K := RF) N (delta_of gf pot beta) / beta + / (exp (- (beta * pot)) + 1)) X ->
  (forall n, (N <= n)%nat -> exists m, (N / 10 <= m < N)%nat /\ Rabs (delta_of gf pot beta n) * wn beta n ^ 3 <= Rabs (delta_of gf pot beta m) * wn beta m ^ 3) ->
  density_error2 (map (delta_of gf pot beta) (seq 0 N)) (map (wn beta) (seq 0 N)) = Ok e ->
  Rabs (X - (2 * nsum (K := RF) N (delta_of gf pot beta) / beta + / (exp (- (beta * pot)) + 1))) <= e / PI ^ 2.
Proof.
  intros Hb HN L H E. rewrite density_error2_eq in E by exact HN. apply ok_inj in E. subst e. assert (K : (N / 10 < N)%nat) by (apply Nat.div_lt; lia). set (k := (N / 10)%nat) in *. clearbody k. set (F := lmax _).
  destruct N as [|N]; [lia|]. replace (S N - 1)%nat with N in * by lia. assert (P := PI_RGT_0). assert (W := wn_pos beta N Hb).
  assert (HF : forall n, (S N <= n)%nat -> Rabs (delta_of gf pot beta n) * wn beta n ^ 3 <= F). { intros n Hn. destruct (H n Hn) as (m & Hm & Q). eapply Rle_trans; [exact Q|]. apply lmax_ge. apply in_map_iff. exists m. split; [reflexivity|]. apply in_seq. lia. }
  assert (F0 : 0 <= F). { eapply Rle_trans; [|apply (HF (S N)); lia]. apply Rmult_le_pos; [apply Rabs_pos|apply pow_le, Rlt_le, wn_pos, Hb]. }
  replace (F * (1 / 2 * PI / wn beta N ^ 2) / PI ^ 2) with (2 / beta * (F * (beta / (4 * PI)) * / wn beta N ^ 2)) by (field; lra).
  apply (tail_bound _ (fun n => F * (beta / (4 * PI)) * / wn beta (n - 1) ^ 2) beta _ (S N) X Hb) in L.
  - cbn [Nat.sub] in L. rewrite Nat.sub_0_r in L. exact L.
  - intros n Hn. destruct n as [|n]; [lia|]. cbn [Nat.sub]. rewrite Nat.sub_0_r, <- Rmult_minus_distr_l. apply tele3; [exact Hb|]. apply HF, Hn.
  - intros n. apply Rmult_le_pos; [apply Rmult_le_pos; [exact F0|apply Rlt_le, Rdiv_lt_0_compat; lra]|apply Rlt_le, Rinv_0_lt_compat, pow_lt, wn_pos, Hb].
Qed.

(** ** total density *)
Lemma green_total (pots : list R) beta n : 0 < beta -> lsum (K := RF) (map (fun pot => cinv_re (Cplus (RtoC pot) (iw beta n))) pots) = fst (green_z (iw beta n) (map Ropp pots) (map (fun _ => 1) pots)).
Proof.
  intros Hb. induction pots as [|p l IH]; [reflexivity|]. refine (eq_trans (f_equal (Rplus (cinv_re (RtoC p + iw beta n)%C)) IH) _). rewrite cinv_green by exact Hb. cbn [map green_z fst snd Cplus RtoC]. ring.
Qed.
Lemma occ_total (pots : list R) beta : lsum (K := RF) (map (fun pot => fermi_fct (- pot) beta) pots) = occupation (map Ropp pots) (map (fun _ => 1) pots) beta.
Proof.
  induction pots as [|p l IH]; [reflexivity|]. refine (eq_trans (f_equal (Rplus (fermi_fct (- p) beta)) IH) _). cbn [map occupation]. rewrite fermi_def. unfold Rdiv. rewrite Rmult_1_l. reflexivity.
Qed.
Lemma lsum_ones {A} (l : list A) : lsum (K := RF) (map (fun _ => 1) l) = INR (List.length l).
Proof. induction l as [|a l IH]; [reflexivity|]. refine (eq_trans (f_equal (Rplus 1) IH) _). cbn [List.length]. rewrite S_INR. apply Rplus_comm. Qed.
Lemma density_total_x gf pots beta r N : 0 < beta -> (0 < N)%nat -> exists o, density_total (map gf (seq 0 N)) pots beta r = Ok o /\
  dens_x o = 2 * nsum (K := RF) N (fun n => fst (gf n) - fst (green_z (iw beta n) (map Ropp pots) (map (fun _ => 1) pots))) / beta + occupation (map Ropp pots) (map (fun _ => 1) pots) beta.
Proof.
  intros Hb HN. unfold density_total. destruct (Req_EM_T beta 0); [lra|]. cbv zeta. rewrite map_length, seq_length, iw_grid_iw, map_map, occ_total.
  rewrite (map_ext _ (fun n => fst (green_z (iw beta n) (map Ropp pots) (map (fun _ => 1) pots)))) by (intros k; now apply green_total). apply density_from_x; [lra|exact HN].
Qed.

(** ** matrix potential *)
Section Mat.
  Variable eighO : mat CF -> result (list CF * mat CF).
  Variable close0 : CF -> bool.
  Variable A : mat CF.
  Hypothesis HS : nr A = nc A.
  Hypothesis HE : forall ev, eighO A = Ok ev -> eigh_spec CF Cconj A ev.
  Notation n := (nr A).
  Definition w_of (v : mat CF) (i : nat) : list R := map (fun k => Cmod (me v i k) ^ 2) (seq 0 n).
  Definition p_of (e : list CF) : list R := map (fun k => - fst (nth k e (RtoC 0))) (seq 0 n).

  Lemma nsum_fst N (f : nat -> C) : fst (nsum (K := CF) N f) = nsum (K := RF) N (fun k => fst (f k)).
  Proof. induction N as [|N IH]; [reflexivity|]. cbn [nsum]. rewrite <- IH. reflexivity. Qed.
  Lemma green_seq z (P W : nat -> R) N : green_z z (map P (seq 0 N)) (map W (seq 0 N)) = nsum (K := CF) N (fun k => RtoC (W k) / (z - RtoC (P k)))%C.
  Proof.
    transitivity (lsum (K := CF) (map (fun k => RtoC (W k) / (z - RtoC (P k)))%C (seq 0 N))); [|apply (lsum_map_seq (K := CF))].
    induction (seq 0 N) as [|k l IH]; [reflexivity|]. cbn [map green_z lsum]. rewrite IH. reflexivity.
  Qed.
  Lemma occ_seq beta (P W : nat -> R) N : occupation (map P (seq 0 N)) (map W (seq 0 N)) beta = nsum (K := RF) N (fun k => W k / (exp (beta * P k) + 1)).
  Proof.
    transitivity (lsum (K := RF) (map (fun k => W k / (exp (beta * P k) + 1)) (seq 0 N))); [|apply (lsum_map_seq (K := RF))].
    induction (seq 0 N) as [|k l IH]; [reflexivity|]. cbn [map occupation lsum]. rewrite IH. reflexivity.
  Qed.
  Lemma cmod2 (z : C) : Cmult (Cconj z) z = RtoC (Cmod z ^ 2).
  Proof.
    unfold Cmod. replace (sqrt (fst z ^ 2 + snd z ^ 2) ^ 2) with (fst z ^ 2 + snd z ^ 2) by (symmetry; apply pow2_sqrt; nra). apply C_ext; cbn; ring.
  Qed.
  Lemma conj_real (x : C) : Cconj x = x -> x = RtoC (fst x).
  Proof. intros E. apply (f_equal snd) in E. cbn in E. apply C_ext; cbn; [reflexivity|lra]. Qed.

  Lemma diag_ok e v (g : C -> C) : eigh_spec CF Cconj A (e, v) -> diag_of (Dec v e (ctr (K := CF) Cconj v)) (map g e)
    = Ok (map (fun i => nsum (K := CF) n (fun k => RtoC (Cmod (me v i k) ^ 2) * g (RtoC (fst (nth k e (RtoC 0)))))%C) (seq 0 n)).
  Proof.
    intros (((V1 & V2) & Le & HA) & HR & HU). unfold diag_of, reconstruct. change (prefix (lower "diag") "diag") with true. cbv iota. cbn [rv rv_inv eig ctr nr nc]. assert (Le' : @List.length C e = nr A) by exact Le. rewrite map_length, V1, V2, Le', Nat.eqb_refl. cbn [andb bind]. f_equal.
    unfold recon_diag. cbn [rv rv_inv eig ctr nr nc me]. rewrite V1, V2. apply map_ext. intros i. apply (nsum_ext CF). intros k Hk. change (@Fmul CF) with Cmult. rewrite cmod2. f_equal.
    rewrite (nth_indep _ _ (g (RtoC 0))) by (rewrite map_length; exact (eq_ind_r (fun m => (k < m)%nat) Hk Le')). rewrite map_nth. f_equal. apply conj_real, HR, nth_In. rewrite Le. exact Hk.
  Qed.
  Lemma w_sum e v i : eigh_spec CF Cconj A (e, v) -> (i < n)%nat -> lsum (K := RF) (w_of v i) = 1.
  Proof.
    intros (((V1 & V2) & Le & HA) & HR & HU) Hi. unfold w_of. rewrite lsum_seq.
    assert (M : minv CF n (fun a b => Cconj (me v b a)) (me v)) by (intros a b Ha Hb; apply HU; assumption). 
    assert (M' := minv_comm _ _ _ _ M).
    specialize (M' i i Hi Hi). cbv beta in M'. apply (f_equal fst) in M'. rewrite nsum_fst in M'. unfold kron in M'. rewrite Nat.eqb_refl in M'. cbn [fst] in M'. refine (eq_trans _ M').
    apply nsum_ext_R. intros k. change (@Fmul CF) with Cmult. rewrite Cmult_comm, cmod2. reflexivity.
  Qed.
  Lemma mapR_ok {X Y} (f : X -> result Y) h l : (forall a, f a = Ok (h a)) -> mapR f l = Ok (map h l).
  Proof. intros H. induction l as [|a l IH]; [reflexivity|]. cbn [mapR map]. rewrite H. cbn [bind]. rewrite IH. reflexivity. Qed.
  Lemma dec_ok e v : allclose0 close0 (msub A (ctr (K := CF) Cconj A)) = true -> eighO A = Ok (e, v) -> decompose_her (K := CF) Cconj eighO close0 A true = Ok (Dec v e (ctr (K := CF) Cconj v)).
  Proof. intros H E. unfold decompose_her. rewrite H. cbn [andb negb]. rewrite E. reflexivity. Qed.
  Lemma density_matrix_x (gf : nat -> nat -> C) beta N e v : 0 < beta -> (0 < n)%nat -> allclose0 close0 (msub A (ctr (K := CF) Cconj A)) = true -> eighO A = Ok (e, v) ->
    density_matrix eighO close0 (map (fun i => map (gf i) (seq 0 N)) (seq 0 n)) A beta false
    = Ok (map (fun i => 2 * nsum (K := RF) N (fun k => fst (gf i k) - fst (green_z (iw beta k) (p_of e) (w_of v i))) / beta + occupation (p_of e) (w_of v i) beta) (seq 0 n)).
  Proof.
    intros Hb Hn HC HO. assert (EV := HE _ HO). unfold density_matrix. destruct (Req_EM_T beta 0) as [Z|_]; [lra|]. cbv zeta. rewrite (dec_ok e v HC HO). cbn [bind].
    assert (LN : List.length (hd [] (map (fun i => map (gf i) (seq 0 N)) (seq 0 n))) = N). { destruct (nr A) as [|m]; [lia|]. cbn [seq map hd]. rewrite map_length, seq_length. reflexivity. }
    rewrite LN. cbn [eig]. erewrite mapR_ok by (intros w; apply (diag_ok e v _ EV)). cbn [bind]. rewrite (diag_ok e v _ EV). cbn [bind]. f_equal. rewrite map_length, seq_length.
    apply map_ext_in. intros i Hi. apply in_seq in Hi. f_equal.
    - f_equal. f_equal. apply nsum_ext_lt. intros k Hk. f_equal.
      + rewrite (nth_map_seq (fun i => map (gf i) (seq 0 N))) by lia. rewrite nth_map_seq by exact Hk. reflexivity.
      + f_equal. rewrite iw_grid_iw, map_map, nth_map_seq by exact Hk. rewrite nth_map_seq by lia. unfold p_of, w_of. rewrite green_seq. apply (nsum_ext CF). intros j Hj. replace (iw beta k - RtoC (- fst (nth j e (RtoC 0))))%C with (iw beta k + RtoC (fst (nth j e (RtoC 0))))%C by (rewrite RtoC_opp; ring). match goal with |- ?a = ?b => change (@eq C a b) end. unfold Cdiv. ring.
    - rewrite nth_map_seq by lia. rewrite nsum_fst. unfold p_of, w_of. rewrite occ_seq. apply nsum_ext_R. intros j. rewrite fermi_def. change (fst (RtoC (fst (nth j e (RtoC 0))))) with (fst (nth j e (RtoC 0))). set (x := fst (nth j e (RtoC 0))). cbn [fst snd Cmult RtoC]. unfold Rdiv. ring.
  Qed.
  Lemma density_matrix_complex (gf : nat -> nat -> C) beta N e v : 0 < beta -> (0 < n)%nat -> allclose0 close0 (msub A (ctr (K := CF) Cconj A)) = true -> eighO A = Ok (e, v) ->
    density_matrix eighO close0 (map (fun i => map (gf i) (seq 0 N)) (seq 0 n)) A beta true = Err TypeError.
  Proof.
    intros Hb Hn HC HO. assert (EV := HE _ HO). unfold density_matrix. destruct (Req_EM_T beta 0) as [Z|_]; [lra|]. cbv zeta. rewrite (dec_ok e v HC HO). cbn [bind eig].
    erewrite mapR_ok by (intros w; apply (diag_ok e v _ EV)). cbn [bind]. rewrite (diag_ok e v _ EV). reflexivity.
  Qed.
  Lemma check_convergence_matrix_err (gf : nat -> nat -> C) beta N order e v : 0 < beta -> (0 < n)%nat -> N <> n -> allclose0 close0 (msub A (ctr (K := CF) Cconj A)) = true -> eighO A = Ok (e, v) ->
    check_convergence_matrix eighO close0 (map (fun i => map (gf i) (seq 0 N)) (seq 0 n)) A beta order = Err ValueError.
  Proof.
    intros Hb Hn HN HC HO. assert (EV := HE _ HO). unfold check_convergence_matrix. destruct (Req_EM_T beta 0) as [Z|_]; [lra|]. cbv zeta. rewrite (dec_ok e v HC HO). cbn [bind].
    assert (LN : List.length (hd [] (map (fun i => map (gf i) (seq 0 N)) (seq 0 n))) = N). { destruct (nr A) as [|m]; [lia|]. cbn [seq map hd]. rewrite map_length, seq_length. reflexivity. }
    rewrite LN. cbn [eig]. destruct EV as (((V1 & V2) & Le & HA) & _). destruct e as [|e0 e]; [cbn in Le; lia|]. cbn [mapR]. unfold diag_of at 1, reconstruct. change (prefix (lower "diag") "diag") with true. cbv iota. cbn [rv rv_inv eig ctr nr nc].
    rewrite map_length, V1, V2. unfold iw_grid. rewrite map_length, seq_length. destruct (Nat.eqb_spec N (nr A)); [contradiction|]. rewrite andb_false_r. reflexivity.
  Qed.
End Mat.
Lemma check_convergence_eq gf pot beta order N : 0 < beta -> check_convergence (map gf (seq 0 N)) pot beta order = Ok (map (fun n => wn beta n ^ order * delta_of gf pot beta n) (seq 0 N)).
Proof.
  intros Hb. unfold check_convergence. destruct (Req_EM_T beta 0) as [Z|_]; [lra|]. cbv zeta. rewrite map_length, seq_length, iw_grid_iw, combine_map, map_map. f_equal. apply map_ext. intros n. cbn [fst snd]. rewrite snd_iw by lra. reflexivity.
Qed.

(** ** two poles, the tail in the middle *)
Definition dlt (w : R) : R := 3 / ((w ^ 2 + 1) * (w ^ 2 + 4)).
Lemma delta_example s n : s = 1 \/ s = -1 -> delta_of (fun n => green_z (iw 1 n) [0; 2 * s] [1/2; 1/2]) (- s) 1 n = s * dlt (wn 1 n).
Proof.
  intros Hs. unfold delta_of, dlt. assert (E : iw 1 n = (0, wn 1 n)) by (apply C_ext; [unfold iw; cbn; field|apply snd_iw; lra]). rewrite E. assert (W := wn_pos 1 n ltac:(lra)). set (w := wn 1 n) in *. clearbody w. clear E.
  assert (Q : 0 < w ^ 2) by nra. destruct Hs as [-> | ->]; cbn; field; repeat split; nra.
Qed.
