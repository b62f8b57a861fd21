(** * A concrete null vector by elimination.

    Not a model of gftool code: it shows that the contract [nullvec_ok] assumed of the QR null vector
    is satisfiable and makes the (Hermite-)Padé models executable. *)
From Coq Require Import List Arith ZArith Lia Bool Field.
From Verif Require Import Base FSum Herm_Model Herm_Spec Herm_Proofs.
Import ListNotations.
Local Open Scope fld_scope.

Section G.
Context {K : Fld}.
Add Field KFg : (Fth K).

Fixpoint pick (A : list (list K)) : option (list K * list (list K)) :=
  match A with
  | [] => None
  | row :: A' => if Feq_dec (hd 0 row) 0
                 then match pick A' with Some (r, rest) => Some (r, row :: rest) | None => None end
                 else Some (row, A')
  end.
Definition elim (r row : list K) : list K :=
  map (fun p => fst p - hd 0 row / hd 0 r * snd p) (combine (tl row) (tl r)).
Fixpoint gauss (ncol : nat) (A : list (list K)) : list K :=
  match ncol with
  | O => []
  | S c => match pick A with
           | None => 1 :: repeat 0 c
           | Some (r, rest) => let v := gauss c (map (elim r) rest) in (- (dot (tl r) v) / hd 0 r) :: v
           end
  end.
Definition gauss_nullvec (A : list (list K)) : list K := gauss (S (length A)) A.

Lemma pick_None A : pick A = None -> forall row, In row A -> hd 0 row = 0.
Proof.
  induction A as [|x A IH]; cbn; [tauto|]. destruct (Feq_dec (hd 0 x) 0) as [E|E]; [|discriminate].
  destruct (pick A) as [[r rest]|]; [discriminate|]. intros _ row [<-|H]; auto.
Qed.
Lemma pick_Some A r rest : pick A = Some (r, rest) ->
  hd 0 r <> 0 /\ length A = S (length rest) /\ forall row, In row A <-> row = r \/ In row rest.
Proof.
  revert r rest; induction A as [|x A IH]; cbn; [discriminate|]; intros r rest.
  destruct (Feq_dec (hd 0 x) 0) as [E|E].
  - destruct (pick A) as [[r' rest']|]; [|discriminate]. intros [= <- <-].
    destruct (IH _ _ eq_refl) as (H1 & H2 & H3). split; [exact H1|]. split; [cbn; lia|].
    intros row. cbn. rewrite H3. intuition auto.
  - intros [= <- <-]. split; [exact E|]. split; [reflexivity|]. intros row. intuition auto.
Qed.

Lemma dot_cons (a b : K) u v : dot (a :: u) (b :: v) = a * b + dot u v.
Proof. unfold dot. cbn. reflexivity. Qed.
Lemma dot_zeros (u : list K) n : dot u (repeat 0 n) = 0.
Proof. revert n; induction u as [|a u IH]; intros [|n]; try reflexivity. cbn [repeat]. rewrite dot_cons, IH. ring. Qed.
Lemma dot_elim_aux (t s v : list K) (c : K) : length t = length v -> length s = length v ->
  dot (map (fun p => fst p - c * snd p) (combine t s)) v = dot t v - c * dot s v.
Proof.
  revert s v; induction t as [|a t IH]; intros [|b s] [|d v]; try discriminate; intros H1 H2.
  - unfold dot; cbn. ring.
  - cbn [combine map fst snd]. rewrite !dot_cons, IH by (injection H1; injection H2; auto). ring.
Qed.

Lemma gauss_ok ncol : forall A, (length A < ncol)%nat -> (forall row, In row A -> length row = ncol) ->
  length (gauss ncol A) = ncol /\ (forall row, In row A -> dot row (gauss ncol A) = 0) /\ nonzero (gauss ncol A).
Proof.
  induction ncol as [|c IH]; intros A HA Hr; [lia|]. cbn [gauss].
  destruct (pick A) as [[r rest]|] eqn:EP.
  - destruct (pick_Some _ _ _ EP) as (H1 & H2 & H3).
    assert (Hlr : length r = S c) by (apply Hr, H3; now left).
    assert (Hrest : forall row, In row rest -> length row = S c) by (intros; apply Hr, H3; now right).
    destruct (IH (map (elim r) rest)) as (I1 & I2 & I3).
    { rewrite map_length. lia. }
    { intros row Hin. apply in_map_iff in Hin. destruct Hin as (row' & <- & Hin). unfold elim.
      rewrite map_length, combine_length. specialize (Hrest _ Hin).
      destruct row', r; cbn in *; try discriminate. lia. }
    set (v := gauss c (map (elim r) rest)) in *. split; [cbn; lia|]. split.
    + intros row Hin. apply H3 in Hin. destruct Hin as [->|Hin].
      * destruct r as [|a t]; [discriminate|]. cbn [hd tl] in *. rewrite dot_cons. field. exact H1.
      * assert (E := I2 (elim r row) (in_map _ _ _ Hin)). specialize (Hrest _ Hin).
        destruct r as [|a t]; [discriminate|]. destruct row as [|b u]; [discriminate|].
        unfold elim in E. cbn [hd tl] in *. rewrite dot_elim_aux in E by (cbn in *; lia).
        rewrite dot_cons. transitivity (dot u v - b / a * dot t v); [field; exact H1|exact E].
    + destruct I3 as (x & Hin & Hx). exists x. split; [now right|exact Hx].
  - split; [cbn; now rewrite repeat_length|]. split.
    + intros row Hin. assert (E := pick_None _ EP _ Hin). specialize (Hr _ Hin).
      destruct row as [|a u]; [discriminate|]. cbn in E. subst a. rewrite dot_cons, dot_zeros. ring.
    + exists 1. split; [now left|apply F1_neq_0].
Qed.

Theorem gauss_nullvec_ok : nullvec_ok gauss_nullvec.
Proof.
  intros A n HA Hr Hn. unfold gauss_nullvec. rewrite HA. apply gauss_ok; [lia|exact Hr].
Qed.

(** Solving A x = b (n rows of n columns) through the null vector of (A | -b). *)
Definition gauss_solve (A : list (list K)) (b : list K) : result (list K) :=
  let M := map (fun p => fst p ++ [- snd p]) (combine A b) in
  let v := gauss_nullvec M in
  let n := length b in
  let x := map (fun c => c / nth n v 0) (firstn n v) in
  if list_eq_dec Feq_dec (matvec A x) b then if (length x =? length b)%nat then Ok x else Err LinAlgError
  else Err LinAlgError.
Theorem gauss_solve_ok : solve_ok gauss_solve.
Proof.
  intros A b x. unfold gauss_solve. destruct (list_eq_dec _ _ _) as [E|?]; [|discriminate].
  destruct (Nat.eqb_spec (length (map (fun c => c / nth (length b) (gauss_nullvec (map (fun p => fst p ++ [- snd p]) (combine A b))) 0) (firstn (length b) (gauss_nullvec (map (fun p => fst p ++ [- snd p]) (combine A b)))))) (length b)) as [El|?]; [|discriminate].
  intros [= <-]. auto.
Qed.

(** Solution of a consistent system of any shape; each row is (rhs :: coefficients). *)
Fixpoint pick2 (A : list (K * list K)) : option ((K * list K) * list (K * list K)) :=
  match A with
  | [] => None
  | row :: A' => if Feq_dec (hd 0 (snd row)) 0
                 then match pick2 A' with Some (r, rest) => Some (r, row :: rest) | None => None end
                 else Some (row, A')
  end.
Definition elim2 (r row : K * list K) : K * list K :=
  (fst row - hd 0 (snd row) / hd 0 (snd r) * fst r,
   map (fun p => fst p - hd 0 (snd row) / hd 0 (snd r) * snd p) (combine (tl (snd row)) (tl (snd r)))).
Fixpoint gsolve (ncol : nat) (A : list (K * list K)) : list K :=
  match ncol with
  | O => []
  | S c => match pick2 A with
           | None => 0 :: gsolve c (map (fun row => (fst row, tl (snd row))) A)
           | Some (r, rest) => let v := gsolve c (map (elim2 r) rest) in
                               ((fst r - dot (tl (snd r)) v) / hd 0 (snd r)) :: v
           end
  end.
Lemma pick2_None A : pick2 A = None -> forall row, In row A -> hd 0 (snd row) = 0.
Proof.
  induction A as [|x A IH]; cbn; [tauto|]. destruct (Feq_dec (hd 0 (snd x)) 0) as [E|E]; [|discriminate].
  destruct (pick2 A) as [[r rest]|]; [discriminate|]. intros _ row [<-|H]; auto.
Qed.
Lemma pick2_Some A r rest : pick2 A = Some (r, rest) ->
  hd 0 (snd r) <> 0 /\ forall row, In row A <-> row = r \/ In row rest.
Proof.
  revert r rest; induction A as [|x A IH]; cbn; [discriminate|]; intros r rest.
  destruct (Feq_dec (hd 0 (snd x)) 0) as [E|E].
  - destruct (pick2 A) as [[r' rest']|]; [|discriminate]. intros [= <- <-].
    destruct (IH _ _ eq_refl) as (H1 & H3). split; [exact H1|].
    intros row. cbn. rewrite H3. intuition auto.
  - intros [= <- <-]. split; [exact E|]. intros row. intuition auto.
Qed.
Lemma gsolve_length ncol : forall A, length (gsolve ncol A) = ncol.
Proof.
  induction ncol as [|c IH]; intros A; [reflexivity|]. cbn [gsolve].
  destruct (pick2 A) as [[r rest]|]; cbn [length]; now rewrite IH.
Qed.
Lemma gsolve_ok ncol : forall A y, length y = ncol -> (forall row, In row A -> length (snd row) = ncol) ->
  (forall row, In row A -> dot (snd row) y = fst row) ->
  forall row, In row A -> dot (snd row) (gsolve ncol A) = fst row.
Proof.
  induction ncol as [|c IH]; intros A y Hy Hr Hs row Hin.
  - rewrite <- (Hs row Hin). destruct y; [|discriminate]. reflexivity.
  - destruct y as [|y0 y]; [discriminate|]. injection Hy as Hy. cbn [gsolve].
    destruct (pick2 A) as [[r rest]|] eqn:EP.
    + destruct (pick2_Some _ _ _ EP) as (H1 & H3).
      assert (Hrl : length (snd r) = S c) by (apply Hr, H3; now left).
      assert (Hrest : forall row, In row rest -> length (snd row) = S c) by (intros; apply Hr, H3; now right).
      assert (Hsr : dot (snd r) (y0 :: y) = fst r) by (apply Hs, H3; now left).
      assert (Hsrest : forall row, In row rest -> dot (snd row) (y0 :: y) = fst row) by (intros; apply Hs, H3; now right).
      assert (I := IH (map (elim2 r) rest) y Hy).
      assert (I1 : forall row, In row (map (elim2 r) rest) -> length (snd row) = c).
      { intros row1 Hin1. apply in_map_iff in Hin1. destruct Hin1 as (row' & <- & Hin1). unfold elim2. cbn [snd].
        rewrite map_length, combine_length. specialize (Hrest _ Hin1).
        destruct (snd row'), (snd r); cbn in *; try discriminate. lia. }
      assert (Hel : forall (v : list K) row, length v = c -> In row rest ->
          dot (snd (elim2 r row)) v = dot (tl (snd row)) v - hd 0 (snd row) / hd 0 (snd r) * dot (tl (snd r)) v).
      { intros v row1 Hv Hin1. unfold elim2. cbn [snd]. specialize (Hrest _ Hin1).
        apply dot_elim_aux; [destruct (snd row1); cbn in *; lia|destruct (snd r); cbn in *; lia]. }
      assert (Hsplit : forall (u : list K) (a : K) v, length u = S c -> dot u (a :: v) = hd 0 u * a + dot (tl u) v).
      { intros u a v Hu. destruct u; [discriminate|]. apply dot_cons. }
      assert (I2 : forall row, In row (map (elim2 r) rest) -> dot (snd row) y = fst row).
      { intros row1 Hin1. apply in_map_iff in Hin1. destruct Hin1 as (row' & <- & Hin1).
        rewrite Hel by assumption. unfold elim2. cbn [fst]. rewrite <- (Hsrest _ Hin1), <- Hsr.
        rewrite !Hsplit by auto. field. exact H1. }
      specialize (I I1 I2). set (v := gsolve c (map (elim2 r) rest)) in *.
      assert (Hv : length v = c) by apply gsolve_length.
      apply H3 in Hin. destruct Hin as [->|Hin].
      * rewrite Hsplit by exact Hrl. field. exact H1.
      * assert (E := I _ (in_map (elim2 r) _ _ Hin)). rewrite Hel in E by assumption. unfold elim2 in E. cbn [fst] in E.
        rewrite Hsplit by auto.
        transitivity (dot (tl (snd row)) v - hd 0 (snd row) / hd 0 (snd r) * dot (tl (snd r)) v
                      + hd 0 (snd row) / hd 0 (snd r) * fst r); [field; exact H1|]. rewrite E. ring.
    + assert (Hz := pick2_None _ EP).
      assert (Hsplit : forall (u : list K) (a : K) v, length u = S c -> dot u (a :: v) = hd 0 u * a + dot (tl u) v).
      { intros u a v Hu. destruct u; [discriminate|]. apply dot_cons. }
      rewrite Hsplit by auto. rewrite (Hz _ Hin).
      assert (I := IH (map (fun row => (fst row, tl (snd row))) A) y Hy).
      assert (E : dot (snd ((fun row : K * list K => (fst row, tl (snd row))) row)) (gsolve c (map (fun row => (fst row, tl (snd row))) A)) = fst row).
      { change (fst row) with (fst ((fun row : K * list K => (fst row, tl (snd row))) row)).
        apply (I); [| |apply (in_map (fun row : K * list K => (fst row, tl (snd row)))), Hin].
        - intros row1 Hin1. apply in_map_iff in Hin1. destruct Hin1 as (row' & <- & Hin1). cbn [snd].
          specialize (Hr _ Hin1). destruct (snd row'); cbn in *; lia.
        - intros row1 Hin1. apply in_map_iff in Hin1. destruct Hin1 as (row' & <- & Hin1). cbn [fst snd].
          rewrite <- (Hs _ Hin1). rewrite Hsplit by auto. rewrite (Hz _ Hin1). ring. }
      cbn [snd] in E. rewrite E. ring.
Qed.
Definition gauss_lstsq (A : list (list K)) (b : list K) : list K := gsolve (length (hd [] A)) (combine b A).
Theorem gauss_lstsq_ok : lstsq_ok gauss_lstsq.
Proof.
  intros A b n HA Hb Hr. unfold gauss_lstsq.
  assert (Hn : length (hd [] A) = n) by (destruct A; [congruence|apply Hr; now left]). rewrite Hn.
  split; [apply gsolve_length|]. intros y Hy E.
  assert (G : forall row, In row (combine b A) -> dot (snd row) (gsolve n (combine b A)) = fst row).
  { apply (gsolve_ok n (combine b A) y Hy).
    - intros [r row] Hin. apply in_combine_r in Hin. cbn. auto.
    - intros row Hin. destruct (In_nth _ _ (0, []) Hin) as (i & Hi & <-). rewrite combine_length in Hi.
      rewrite combine_nth by assumption. cbn [fst snd]. rewrite <- E. unfold matvec.
      rewrite (nth_map_in _ _ _ _ []) by lia. reflexivity. }
  set (x := gsolve n (combine b A)) in *. apply (list_ext _ _ 0); [unfold matvec; rewrite map_length; lia|].
  intros i Hi. unfold matvec in *. rewrite map_length in Hi. rewrite (nth_map_in _ _ _ _ []) by lia.
  specialize (G (nth i (combine b A) (0, []))). rewrite combine_nth in G by assumption. cbn [fst snd] in G.
  apply G. rewrite <- combine_nth by assumption. apply nth_In. rewrite combine_length. lia.
Qed.
End G.
