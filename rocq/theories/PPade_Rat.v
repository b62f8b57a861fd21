(** * Numerator and denominator of a sum of poles *)
From Coq Require Import List Arith Lia Bool Field Permutation.
From Verif Require Import Base FSum Herm_Model Herm_Spec Herm_Proofs Herm_Gauss Pade_Spec PadeKind_Proofs Linalg_Model Linalg_Proofs Mat Cauchy PPade_Lin PPade_Rank.
Import ListNotations.
Local Open Scope fld_scope.

Section R.
Variable K : Fld.
Add Field KFrr : (Fth K).

Lemma map_nth_seq' (l : list K) : map (fun j => nth j l 0) (seq 0 (length l)) = l.
Proof. apply (list_ext _ _ 0); [now rewrite map_length, seq_length|]. rewrite map_length, seq_length. intros i Hi. now rewrite nth_map_seq. Qed.
Lemma nth_padd p q i : nth i (padd K p q) 0 = nth i p 0 + nth i q 0.
Proof.
  revert q i. induction p as [|a p IH]; intros q i; [cbn [padd]; destruct i; cbn [nth]; ring|].
  destruct q as [|c q]; [cbn [padd]; destruct i; cbn [nth]; ring|]. destruct i; cbn [padd nth]; [reflexivity|apply IH].
Qed.
Lemma nth_pscale c p i : nth i (pscale K c p) 0 = c * nth i p 0.
Proof. unfold pscale. revert i. induction p as [|a p IH]; intros [|i]; cbn [map nth]; try ring; apply IH. Qed.
Lemma prodl_lead l : nth (length l) (prodl K l) 0 = 1.
Proof.
  induction l as [|a l IH]; [reflexivity|]. cbn [prodl fold_right length]. fold (prodl K l). unfold plin. rewrite nth_padd, nth_pscale. cbn [nth]. rewrite IH.
  rewrite nth_overflow by (rewrite prodl_length; lia). ring.
Qed.
Lemma ev_peval n (l : list K) x : (length l <= n)%nat -> ev K n (fun j => nth j l 0) x = peval l x.
Proof. intros H. rewrite peval_nsum. unfold ev. apply nsum_extend; [exact H|]. intros i Hi. rewrite nth_overflow by lia. ring. Qed.

Section PR.
Variable pr : list (K * K).
Let k := length pr.
Definition pp (j : nat) : K := nth j (map fst pr) 0.
Definition rr (j : nat) : K := nth j (map snd pr) 0.
Definition qc (j : nat) : K := nth j (prodl K (map fst pr)) 0.
Definition bc (c : K) (j : nat) : K := c * qc j + nsum k (fun l => rr l * nth j (prodl K (others K k l pp)) 0).
Lemma map_pp : map pp (seq 0 k) = map fst pr.
Proof. unfold pp, k. rewrite <- (map_length fst pr). apply map_nth_seq'. Qed.
Lemma qc_ev x : ev K (S k) qc x = prodsub K (map fst pr) x.
Proof. unfold qc. rewrite ev_peval, prodl_eval; [reflexivity|]. rewrite prodl_length, map_length. unfold k. lia. Qed.
Lemma qc_lead : qc k = 1.
Proof. unfold qc, k. rewrite <- (map_length fst pr). apply prodl_lead. Qed.
Definition numer (c x : K) : K := c * prodsub K (map fst pr) x + nsum k (fun l => rr l * prodsub K (others K k l pp) x).
Lemma bc_ev c n0 x : n0 = k \/ (S n0 = k /\ c = 0) -> ev K (S n0) (bc c) x = numer c x.
Proof.
  intros H. unfold bc, numer. rewrite (ev_add K), ev_scal. f_equal.
  - destruct H as [->|(_ & ->)]; [now rewrite qc_ev|ring].
  - unfold ev. rewrite (nsum_ext K (S n0) _ (fun j => nsum k (fun l => rr l * (nth j (prodl K (others K k l pp)) 0 * fpow x j)))).
    2:{ intros j Hj. rewrite <- nsum_mul_r. apply nsum_ext. intros; ring. }
    rewrite nsum_swap. apply nsum_ext. intros l Hl. rewrite nsum_mul_l. f_equal. fold (ev K (S n0) (fun j => nth j (prodl K (others K k l pp)) 0) x).
    rewrite ev_peval, prodl_eval; [reflexivity|]. rewrite prodl_length, others_length by exact Hl. lia.
Qed.
Lemma bc_lead c n0 : (n0 = k -> bc c n0 = c) /\ (S n0 = k -> c = 0 -> bc c n0 = nsum k rr).
Proof.
  split.
  - intros ->. unfold bc. rewrite qc_lead. rewrite nsum_0'; [ring|]. intros l Hl. rewrite nth_overflow; [ring|]. rewrite prodl_length, others_length by exact Hl. lia.
  - intros H ->. unfold bc. transitivity (nsum k (fun l => rr l * nth n0 (prodl K (others K k l pp)) 0)); [ring|]. apply nsum_ext. intros l Hl.
    replace n0 with (length (others K k l pp)) by (rewrite others_length by exact Hl; lia). rewrite prodl_lead. ring.
Qed.
Lemma Q_others x l : (l < k)%nat -> prodsub K (map fst pr) x = (x - pp l) * prodsub K (others K k l pp) x.
Proof. intros Hl. rewrite <- map_pp. unfold others. apply prodsub_filter; [apply seq_NoDup|apply in_seq; lia]. Qed.
Lemma pp_distinct : NoDup (map fst pr) -> distinct K k pp.
Proof. intros H i j Hi Hj E. apply (NoDup_nth (map fst pr) 0); [exact H|rewrite map_length; exact Hi|rewrite map_length; exact Hj|exact E]. Qed.
Lemma numer_pole c j : NoDup (map fst pr) -> (forall a, In a pr -> snd a <> 0) -> (j < k)%nat -> numer c (pp j) <> 0.
Proof.
  intros HD Hr Hj. assert (D := pp_distinct HD). unfold numer. rewrite (Q_others (pp j) j Hj). rewrite (nsum_single K k j).
  - replace (c * ((pp j - pp j) * prodsub K (others K k j pp) (pp j)) + rr j * prodsub K (others K k j pp) (pp j)) with (rr j * prodsub K (others K k j pp) (pp j)) by ring.
    intros E. destruct (fmul_eq0 K _ _ E) as [F|F].
    + unfold rr in F. rewrite (nth_map_in _ _ _ _ (0, 0)) in F by exact Hj. apply (Hr (nth j pr (0, 0))); [now apply nth_In|exact F].
    + apply prodsub_eq0 in F. exact (others_notin K k j pp D Hj F).
  - exact Hj.
  - intros l Hl N. replace (prodsub K (others K k l pp) (pp j)) with (0 : K); [ring|]. symmetry. apply prodsub_eq0. apply others_in; [exact Hj|congruence].
Qed.
Lemma polesum_nsum c x : c + lsum (map (fun a => snd a / (x - fst a)) pr) = c + nsum k (fun l => rr l / (x - pp l)).
Proof.
  f_equal. rewrite lsum_nth, map_length. apply nsum_ext. intros l Hl. rewrite (nth_map_in _ _ _ _ (0, 0)) by exact Hl. unfold rr, pp. rewrite !(nth_map_in _ _ _ _ (0, 0)) by exact Hl. reflexivity.
Qed.
Lemma numer_f c x : ~ In x (map fst pr) -> (c + lsum (map (fun a => snd a / (x - fst a)) pr)) * prodsub K (map fst pr) x = numer c x.
Proof.
  intros Hx. rewrite polesum_nsum. unfold numer.
  transitivity (c * prodsub K (map fst pr) x + nsum k (fun l => rr l / (x - pp l)) * prodsub K (map fst pr) x); [ring|]. f_equal. rewrite <- nsum_mul_r. apply nsum_ext. intros l Hl.
  rewrite (Q_others x l Hl). field. intros E. apply Hx. rewrite (fsub_eq0 K x (pp l)) in E. rewrite E. unfold pp. apply nth_In. rewrite map_length. exact Hl.
Qed.
End PR.

(** ** lists with the same product *)
Lemma same_roots_perm (l l' : list K) : NoDup l -> length l' = length l -> (forall x, prodsub K l' x = prodsub K l x) -> Permutation l' l.
Proof.
  intros HD HL H. assert (I : forall x, In x l' <-> In x l) by (intros x; rewrite <- !(prodsub_eq0 K), H; reflexivity).
  apply NoDup_Permutation; [|exact HD|exact I]. apply (NoDup_incl_NoDup HD); [lia|]. intros x. apply I.
Qed.
Lemma lsum_perm {A} (g : A -> K) l l' : Permutation l l' -> lsum (map g l) = lsum (map g l').
Proof. induction 1; cbn [map]; rewrite ?lsum_cons; [reflexivity|now rewrite IHPermutation|ring|congruence]. Qed.
(** Pi (x - i p) = i^k Pi (x/i - p) *)
Lemma prodsub_scale (i : K) l x : i <> 0 -> prodsub K (map (fun a => i * a) l) x = fpow i (length l) * prodsub K l (x / i).
Proof.
  intros Hi. induction l as [|a l IH]; [cbn; ring|]. change ((x - i * a) * prodsub K (map (fun a => i * a) l) x = i * fpow i (length l) * ((x / i - a) * prodsub K l (x / i))). rewrite IH. field. exact Hi.
Qed.
End R.
