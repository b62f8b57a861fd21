(** * Proofs about masked_coefficients *)
From Coq Require Import Reals List Lia Lra Field.
From Coquelicot Require Import Coquelicot.
From Verif Require Import Base CBase Lattice_Model Bethe_Proofs Pade_Model Pade_Spec Pade_Proofs Masked_Model Masked_Spec.
Import ListNotations.
Local Open Scope C_scope.

(** ** Truncation of the continued fraction at a vanishing coefficient *)
Section Trunc.
Context (K : Fld).
Add Field KFm : (Fth K).
Lemma cf_frac_zero (z : K) : forall b1 b2 zs, (length b1 <= length zs)%nat -> b1 <> [] ->
  exists d', cf_frac z (b1 ++ @F0 K :: b2) zs = (Fmul d' (fst (cf_frac z b1 (firstn (length b1 - 1) zs))), Fmul d' (snd (cf_frac z b1 (firstn (length b1 - 1) zs)))).
Proof.
  induction b1 as [|a b1 IH]; intros b2 zs Hl Hn; [easy|]. clear Hn.
  destruct zs as [|z0 zs]; [cbn in Hl; lia|]. destruct b1 as [|a' b1].
  - cbn [app cf_frac length Nat.sub firstn fst snd].
    destruct zs as [|z1 zs].
    + exists (@F1 K). f_equal; ring.
    + destruct (cf_frac z b2 zs) as [n d]. exists (Fadd d (Fmul (Fsub z z1) n)). f_equal; ring.
  - specialize (IH b2 zs ltac:(cbn in *; lia) ltac:(discriminate)). destruct IH as [d' E].
    change ((a :: a' :: b1) ++ @F0 K :: b2) with (a :: ((a' :: b1) ++ @F0 K :: b2)).
    replace (length (a :: a' :: b1) - 1)%nat with (S (length (a' :: b1) - 1)) by (cbn; lia).
    change (firstn (S (length (a' :: b1) - 1)) (z0 :: zs)) with (z0 :: firstn (length (a' :: b1) - 1) zs).
    exists d'. cbn [cf_frac]. rewrite E. 
    change (match firstn (length (a' :: b1) - 1) zs with [] => (a', F1) | z1 :: zs' => let '(n, d) := cf_frac z b1 zs' in (Fmul a' d, Fadd d (Fmul (Fsub z z1) n)) end)
      with (cf_frac z (a' :: b1) (firstn (length (a' :: b1) - 1) zs)).
    destruct (cf_frac z (a' :: b1) (firstn (length (a' :: b1) - 1) zs)) as [n d].
    cbn [fst snd]. f_equal; ring.
Qed.

Theorem truncates (z : K) (zin b : list K) m l i v :
  (1 <= m)%nat -> nth_error b m = Some (@F0 K) -> (m <= i + 1)%nat ->
  calc_iterator z zin (map Some b) = Ok l -> nth_error l i = Some (Some v) ->
  let '(n, d) := cf_frac z (firstn m b) (firstn (m - 1) zin) in d <> @F0 K /\ v = Fdiv n d.
Proof.
  intros Hm Hb Hi Hl Hv.
  destruct (calc_iterator_yield K _ _ _ _ _ _ Hl Hv) as (b' & E1 & L' & Lz & E2).
  rewrite firstn_map in E1. apply map_Some_inj in E1. subst b'. rewrite firstn_length in L'.
  assert (Lb : (i + 2 <= length b)%nat) by lia. clear L'.
  destruct (nth_error_split _ _ Hb) as (b1 & b2 & Eb & Lb1).
  assert (Hb1 : b1 <> []) by (intros ->; cbn in Lb1; lia).
  assert (F1' : firstn m b = b1). { rewrite Eb, <- Lb1, firstn_app, Nat.sub_diag, firstn_all. cbn. apply app_nil_r. }
  assert (F2' : firstn (i + 2) b = b1 ++ @F0 K :: firstn (i + 1 - m) b2).
  { rewrite Eb, firstn_app, firstn_all2 by lia. f_equal. replace (i + 2 - length b1)%nat with (S (i + 1 - m)) by lia. reflexivity. }
  rewrite F1'. rewrite F2' in E2.
  destruct (cf_frac_zero z b1 (firstn (i + 1 - m) b2) (firstn (i + 1) zin)) as [d' E].
  { rewrite firstn_length. lia. }
  { exact Hb1. }
  rewrite E in E2. rewrite firstn_firstn, Lb1 in E2. replace (Nat.min (m - 1) (i + 1)) with (m - 1)%nat in E2 by lia.
  destruct (cf_frac z b1 (firstn (m - 1) zin)) as [n d]. cbn [fst snd] in E2. destruct E2 as [N ->].
  assert (Nd : d <> @F0 K) by (intros ->; apply N; ring).
  assert (Nd' : d' <> @F0 K) by (intros ->; apply N; ring).
  split; [exact Nd|]. field. split; assumption.
Qed.

End Trunc.

(** ** Elementary facts *)
Lemma cutoff_pos : (0 < cutoff)%R.
Proof. unfold cutoff. lra. Qed.
Lemma cutoff_lt_1 : (cutoff < 1)%R.
Proof. unfold cutoff. lra. Qed.
Lemma comparable_spec (last x : C) :
  comparable_mag last (Some x) = true <-> (cutoff * Cmod last < Cmod x < Cmod last / cutoff)%R.
Proof.
  cbn. destruct (Rlt_dec (Cmod x) (Cmod last / cutoff)) as [A|A]; [destruct (Rlt_dec (Cmod last * cutoff) (Cmod x)) as [B|B]|].
  - split; [intros _|reflexivity]. rewrite (Rmult_comm cutoff). now split.
  - split; [discriminate|]. intros [H _]. rewrite (Rmult_comm cutoff) in H. contradiction.
  - split; [discriminate|]. intros [_ H]. contradiction.
Qed.
Lemma signi_spec (last x : C) : signi_diff last (Some x) = true <-> (cutoff < Cmod (last - x)%C)%R.
Proof. cbn. destruct (Rlt_dec cutoff (Cmod (last - x))); split; auto; discriminate. Qed.
Lemma above_neq (last x : C) : (cutoff * Cmod last < Cmod x)%R -> x <> 0.
Proof. intros H ->. rewrite Cmod_0 in H. pose proof cutoff_pos. pose proof (Cmod_ge_0 last). nra. Qed.
Lemma Csub_neq (x y : C) : x <> y -> x - y <> 0.
Proof. intros H E. apply H. replace x with ((x - y) + y) by ring. rewrite E. ring. Qed.

Lemma regular_ok (zl last z x : C) : x <> 0 -> z <> zl -> regular zl last z x = Ok ((last / x - 1) / (z - zl)).
Proof. intros Hx Hz. unfold regular. rewrite cdiv_ok by assumption. cbn. apply cdiv_ok. now apply Csub_neq. Qed.
Lemma cdiv_inv (x y v : C) : cdiv x y = Ok v -> y <> 0 /\ v = x / y.
Proof. unfold cdiv. destruct (Ceq_dec y 0) as [|N]; [discriminate|]. intros [= <-]. auto. Qed.
Lemma regular_inv (zl last z x v : C) : regular zl last z x = Ok v -> x <> 0 /\ z - zl <> 0 /\ v = (last / x - 1) / (z - zl).
Proof.
  unfold regular. destruct (cdiv last x) as [q|e] eqn:E; [|discriminate]. cbn. intros H.
  apply cdiv_inv in E. apply cdiv_inv in H. destruct E as [Hx ->], H as [Hz ->]. auto.
Qed.

Lemma update1_ok zl last z e : z <> zl -> exists v, update1 zl last z e = Ok v.
Proof.
  intros Hz. unfold update1. destruct (comparable_mag last e) eqn:Ec.
  - destruct e as [x|]; [|eexists; reflexivity]. apply comparable_spec in Ec. rewrite regular_ok; [eexists; reflexivity| |assumption].
    eapply above_neq. apply Ec.
  - destruct (tiny_quotient last e); [|eexists; reflexivity]. rewrite cdiv_ok by now apply Csub_neq. eexists; reflexivity.
Qed.
Lemma update_ok zl last : forall zs row, ~ In zl zs -> exists r, update zl last zs row = Ok r.
Proof.
  induction zs as [|z zs IH]; intros row Hn; [eexists; reflexivity|].
  destruct row as [|e row]; [eexists; reflexivity|].
  cbn [update]. destruct (update1_ok zl last z e) as [v Ev]. { intros ->. apply Hn. now left. }
  destruct (IH row) as [r Er]. { intros H. apply Hn. now right. }
  rewrite Ev, Er. cbn. eexists. reflexivity.
Qed.
Lemma update_length zl last : forall zs row r, length zs = length row -> update zl last zs row = Ok r -> length r = length zs.
Proof.
  induction zs as [|z zs IH]; intros [|e row] r Hl H; try discriminate Hl.
  - injection H as <-. reflexivity.
  - cbn [update] in H. destruct (update1 zl last z e) as [v|]; [|discriminate]. cbn in H.
    destruct (update zl last zs row) as [r'|] eqn:E; [|discriminate]. injection H as <-. cbn. f_equal. apply (IH row); [now injection Hl|assumption].
Qed.

Lemma masked_loop_ok : forall zs zl last row, length zs = length row -> NoDup (zl :: zs) ->
  exists cs, masked_loop zl last zs row = Ok cs /\ length cs = length zs.
Proof.
  induction zs as [|z zs IH]; intros zl last [|e row] Hl Hd; try discriminate Hl.
  - exists []. split; reflexivity.
  - injection Hl as Hl. inversion Hd as [|? ? Hn Hd']; subst.
    cbn [masked_loop]. destruct (andb (signi_diff last e) (comparable_mag last e)) eqn:Ec.
    + apply andb_prop in Ec. destruct e as [x|]; [|destruct Ec; discriminate]. destruct Ec as [_ Ec]. apply comparable_spec in Ec.
      rewrite regular_ok; [|eapply above_neq; apply Ec|intros ->; apply Hn; now left]. cbn [bind].
      destruct (update_ok zl last zs row) as [r Er]. { intros H. apply Hn. now right. }
      rewrite Er. cbn [bind].
      destruct (IH z ((last / x - 1) / (z - zl)) r) as (cs & E & L); [symmetry; now apply (update_length zl last _ row)|assumption|].
      rewrite E. cbn. eexists. split; [reflexivity|]. cbn. now rewrite L.
    + destruct (IH zl last row Hl) as (cs & E & L).
      { inversion Hd' as [|? ? Hz Hd'']; subst. constructor; [intros H; apply Hn; now right|assumption]. }
      rewrite E. cbn. eexists. split; [reflexivity|]. cbn. now rewrite L.
Qed.

(** ** Outcome of the call *)
Lemma outcome_ok z f f0 : length z = length f -> NoDup z -> hd_error f = Some f0 -> (cutoff < Cmod f0)%R ->
  exists a, masked_coefficients z f = Ok a /\ length a = length z /\ hd_error a = Some f0.
Proof.
  intros Hl Hd Hf Hc. destruct f as [|g f]; [discriminate|]. injection Hf as ->. destruct z as [|z0 z]; [discriminate|].
  unfold masked_coefficients. rewrite Hl, Nat.eqb_refl. cbn [negb]. destruct (Rlt_dec cutoff (Cmod f0)); [|contradiction].
  destruct (masked_loop_ok z z0 f0 (map Some f)) as (cs & E & L). { rewrite map_length. now injection Hl. } { exact Hd. }
  rewrite E. cbn. eexists. split; [reflexivity|]. cbn in Hl |- *. rewrite L. split; [exact Hl|reflexivity].
Qed.
Lemma outcome_assert z f : length z = length f -> NoDup z ->
  (masked_coefficients z f = Err AssertionError <-> exists f0, hd_error f = Some f0 /\ (Cmod f0 <= cutoff)%R).
Proof.
  intros Hl Hd. split.
  - intros H. destruct f as [|f0 f]; [destruct z; discriminate|]. exists f0. split; [reflexivity|].
    apply Rnot_lt_le. intros Hc. destruct (outcome_ok z (f0 :: f) f0 Hl Hd eq_refl Hc) as (a & E & _). congruence.
  - intros (f0 & Hf & Hc). destruct f as [|g f]; [discriminate|]. injection Hf as ->. destruct z as [|z0 z]; [discriminate|].
    unfold masked_coefficients. rewrite Hl, Nat.eqb_refl. cbn [negb]. destruct (Rlt_dec cutoff (Cmod f0)); [lra|reflexivity].
Qed.

(** ** The kept points *)
Lemma selected_neq0 (zl last z x : C) : x <> 0 -> z - zl <> 0 -> (cutoff < Cmod (last - x)%C)%R -> (last / x - 1) / (z - zl) <> 0.
Proof.
  intros Hx Hz Hc. apply Cdiv_neq0; [|assumption]. intros E.
  assert (E' : last - x = 0). { replace (last - x) with ((last / x - 1) * x) by (field; assumption). rewrite E. ring. }
  rewrite E', Cmod_0 in Hc. pose proof cutoff_pos. lra.
Qed.

Lemma update_kept zl last : forall cs zs row r fk, length zs = length row ->
  update zl last zs row = Ok r -> kept cs row = map Some fk ->
  (forall x, In x fk -> (cutoff * Cmod last < Cmod x < Cmod last / cutoff)%R) ->
  kept cs r = map Some (inv_diff zl last (kept cs zs) fk).
Proof.
  induction cs as [|c cs IH]; intros zs row r fk Hl Hu Hk Ht.
  - reflexivity.
  - destruct zs as [|z zs], row as [|e row]; try discriminate Hl.
    + injection Hu as <-. reflexivity.
    + injection Hl as Hl. cbn [update] in Hu. destruct (update1 zl last z e) as [v|] eqn:Ev; [|discriminate]. cbn in Hu.
      destruct (update zl last zs row) as [r'|] eqn:Er; [|discriminate]. injection Hu as <-.
      cbn [kept] in Hk |- *. destruct (Ceq_dec c 0) as [|N].
      * now apply (IH zs row).
      * destruct fk as [|x fk]; [discriminate|]. injection Hk as He Hk.
        assert (Hx : (cutoff * Cmod last < Cmod x < Cmod last / cutoff)%R) by (apply Ht; now left).
        subst e. cbn [inv_diff map]. f_equal.
        -- unfold update1 in Ev. rewrite (proj2 (comparable_spec last x) Hx) in Ev.
           destruct (regular zl last z x) as [w|] eqn:Ew; [|discriminate]. injection Ev as <-. apply regular_inv in Ew.
           destruct Ew as (_ & _ & ->). reflexivity.
        -- apply (IH zs row); auto. intros y Hy. apply Ht. now right.
Qed.

Lemma cmap_inv_diff (z0 f0 : C) : forall zs fs, (forall x : C, In x fs -> x <> RtoC 0) -> (forall w, In w zs -> w <> z0) ->
  cmap CF (Some f0) z0 zs (map Some fs) = map Some (inv_diff z0 f0 zs fs).
Proof.
  induction zs as [|z zs IH]; intros [|f fs] Hf Hz; try reflexivity.
  unfold cmap in *. cbn [map combine inv_diff fst snd]. f_equal.
  - unfold odiv, osub. cbn.
    destruct (Ceq_dec f 0) as [E|_]; [exfalso; apply (Hf f (or_introl eq_refl) E)|].
    destruct (Ceq_dec (z - z0) 0) as [E|_]; [exfalso; apply (Csub_neq z z0 (Hz z (or_introl eq_refl)) E)|]. reflexivity.
  - apply IH; intros; [apply Hf|apply Hz]; now right.
Qed.

Lemma tame_neq c (z0 f0 : C) zs fs : (0 < c)%R -> tame c (z0 :: zs) (f0 :: fs) -> forall x : C, In x fs -> x <> RtoC 0.
Proof.
  intros Hc (H & _) x Hx ->. destruct (H _ Hx) as [H1 _]. rewrite Cmod_0 in H1. pose proof (Cmod_ge_0 f0). nra.
Qed.

Lemma masked_loop_kept : forall zs zl last row cs fk, length zs = length row ->
  masked_loop zl last zs row = Ok cs -> kept cs row = map Some fk -> tame cutoff (zl :: kept cs zs) (last :: fk) ->
  thiele CF (zl :: kept cs zs) (map Some (last :: fk)) = map Some (last :: kept cs cs).
Proof.
  induction zs as [|z zs IH]; intros zl last [|e row] cs fk Hl Hm Hk Ht; try discriminate Hl.
  - injection Hm as <-. destruct fk; [reflexivity|discriminate].
  - injection Hl as Hl. cbn [masked_loop] in Hm.
    destruct (andb (signi_diff last e) (comparable_mag last e)) eqn:Ec.
    + apply andb_prop in Ec. destruct Ec as [Es Ec]. destruct e as [x|]; [|discriminate].
      apply signi_spec in Es. apply comparable_spec in Ec.
      destruct (regular zl last z x) as [a|] eqn:Ea; [|discriminate]. cbn [bind] in Hm.
      destruct (update zl last zs row) as [r|] eqn:Er; [|discriminate]. cbn [bind] in Hm.
      destruct (masked_loop z a zs r) as [cs'|] eqn:Em; [|discriminate]. injection Hm as <-.
      apply regular_inv in Ea. destruct Ea as (Hx & Hz & ->).
      assert (Na : (last / x - 1) / (z - zl) <> 0) by now apply selected_neq0.
      cbn [kept] in *. destruct (Ceq_dec ((last / x - 1) / (z - zl)) 0) as [|_]; [contradiction|].
      destruct fk as [|x' fk]; [discriminate|]. injection Hk as <- Hk.
      pose proof (tame_neq _ _ _ _ _ cutoff_pos Ht) as Hne.
      destruct Ht as (H1 & H2 & H3).
      change (map Some (last :: x :: fk)) with (Some last :: map Some (x :: fk)).
      cbn [thiele]. change (map Some (last :: (last / x - 1) / (z - zl) :: kept cs' cs')) with (Some last :: map Some ((last / x - 1) / (z - zl) :: kept cs' cs')).
      f_equal. rewrite cmap_inv_diff by assumption. cbn [inv_diff].
      apply (IH z ((last / x - 1) / (z - zl)) r).
      * symmetry. now apply (update_length zl last _ row).
      * exact Em.
      * apply (update_kept zl last cs' zs row); auto. intros y Hy. apply H1. now right.
      * exact H3.
    + destruct (masked_loop zl last zs row) as [cs'|] eqn:Em; [|discriminate]. injection Hm as <-.
      cbn [kept] in *. destruct (Ceq_dec 0 0) as [_|N]; [|easy]. now apply (IH zl last row).
Qed.

Theorem kept_coefficients z f a :
  masked_coefficients z f = Ok a -> tame cutoff (kept a z) (kept a f) ->
  coefficients (K := CF) (kept a z) (kept a f) = Ok (map Some (kept a a)).
Proof.
  unfold masked_coefficients. destruct (Nat.eqb_spec (length z) (length f)) as [Hl|]; [|discriminate]. cbn [negb].
  destruct z as [|z0 z], f as [|f0 f]; try discriminate. destruct (Rlt_dec cutoff (Cmod f0)) as [Hc|]; [|discriminate].
  destruct (masked_loop z0 f0 z (map Some f)) as [cs|] eqn:E; [|discriminate]. intros [= <-].
  assert (N0 : f0 <> 0). { intros ->. rewrite Cmod_0 in Hc. pose proof cutoff_pos. lra. }
  cbn [kept]. destruct (Ceq_dec f0 0) as [|_]; [contradiction|]. intros Ht.
  injection Hl as Hl.
  assert (KL : forall (cs z f : list C), length z = length f -> length (kept cs z) = length (kept cs f)).
  { clear. induction cs as [|c cs IH]; intros [|z zs] [|f fs] H; try reflexivity; try discriminate H.
    cbn [kept]. injection H as H. destruct (Ceq_dec c 0); [|cbn; f_equal]; now apply IH. }
  assert (KM : forall (cs f : list C), kept cs (map Some f) = map Some (kept cs f)).
  { clear. induction cs as [|c cs IH]; intros [|f fs]; try reflexivity.
    cbn [kept map]. destruct (Ceq_dec c 0); [|cbn; f_equal]; apply IH. }
  rewrite coefficients_thiele by (cbn; f_equal; now apply KL). f_equal.
  apply (masked_loop_kept z z0 f0 (map Some f)); [now rewrite map_length|exact E|apply KM|exact Ht].
Qed.

(** ** Nothing is eliminated from tame data *)
Lemma update_all zl last : forall zs fs, length zs = length fs -> (forall w, In w zs -> w <> zl) ->
  (forall x, In x fs -> (cutoff * Cmod last < Cmod x < Cmod last / cutoff)%R) ->
  update zl last zs (map Some fs) = Ok (map Some (inv_diff zl last zs fs)).
Proof.
  induction zs as [|z zs IH]; intros [|x fs] Hl Hz Hf; try discriminate Hl; [reflexivity|]. injection Hl as Hl.
  assert (Hx := Hf x (or_introl eq_refl)).
  cbn [update map inv_diff]. unfold update1. rewrite (proj2 (comparable_spec _ _) Hx).
  rewrite regular_ok; [|eapply above_neq; apply Hx|apply Hz; now left]. cbn [bind].
  rewrite IH; auto; intros; [apply Hz|apply Hf]; now right.
Qed.
Lemma inv_diff_length z0 f0 : forall zs fs, length zs = length fs -> length (inv_diff z0 f0 zs fs) = length zs.
Proof. induction zs as [|z zs IH]; intros [|f fs] H; try discriminate H; [reflexivity|]. cbn. f_equal. apply IH. now injection H. Qed.

Lemma masked_loop_all : forall zs zl last fs, length zs = length fs ->
  tame cutoff (zl :: zs) (last :: fs) -> distinct cutoff (zl :: zs) (last :: fs) ->
  exists cs, masked_loop zl last zs (map Some fs) = Ok cs /\
    thiele CF (zl :: zs) (map Some (last :: fs)) = map Some (last :: cs) /\ ~ In (RtoC 0) cs.
Proof.
  induction zs as [|z zs IH]; intros zl last [|x fs] Hl Ht Hd; try discriminate Hl.
  - exists []. repeat split. easy.
  - injection Hl as Hl. pose proof (tame_neq _ _ _ _ _ cutoff_pos Ht) as Hne.
    destruct Ht as (H1 & H2 & H3). destruct Hd as (D1 & D2). cbn [inv_diff] in *.
    assert (Hx := H1 x (or_introl eq_refl)).
    cbn [masked_loop map]. rewrite (proj2 (signi_spec _ _) D1), (proj2 (comparable_spec _ _) Hx). cbn [andb].
    rewrite regular_ok; [|apply Hne; now left|apply H2; now left]. cbn [bind].
    rewrite update_all; [|assumption| |]; [|intros; apply H2; now right|intros; apply H1; now right]. cbn [bind].
    destruct (IH z ((last / x - 1) / (z - zl)) (inv_diff zl last zs fs)) as (cs & E & T & N).
    { now rewrite inv_diff_length. } { exact H3. } { exact D2. }
    rewrite E. cbn [bind]. eexists. split; [reflexivity|]. split.
    + cbn [map thiele] in *. f_equal. 
      change (Some x :: map Some fs) with (map (@Some C) (x :: fs)). rewrite cmap_inv_diff by assumption. exact T.
    + intros [E0|H0]; [|contradiction].
      apply (selected_neq0 zl last z x); auto. { apply Hne. now left. } { apply Csub_neq. apply H2. now left. }
Qed.

Theorem nothing_eliminated z f f0 :
  length z = length f -> hd_error f = Some f0 -> (cutoff < Cmod f0)%R -> tame cutoff z f -> distinct cutoff z f ->
  exists a, masked_coefficients z f = Ok a /\ coefficients (K := CF) z f = Ok (map Some a) /\ ~ In (RtoC 0) a.
Proof.
  intros Hl Hf Hc Ht Hd. destruct f as [|g f]; [discriminate|]. injection Hf as ->. destruct z as [|z0 z]; [discriminate|].
  unfold masked_coefficients. rewrite Hl, Nat.eqb_refl. cbn [negb]. destruct (Rlt_dec cutoff (Cmod f0)); [|contradiction].
  pose proof Hl as Hl0. injection Hl0 as Hl'.
  destruct (masked_loop_all z z0 f0 f Hl' Ht Hd) as (cs & E & T & N). rewrite E. cbn [bind]. eexists. split; [reflexivity|].
  split; [rewrite coefficients_thiele by assumption; f_equal; exact T|].
  intros [E0|H0]; [|contradiction]. rewrite E0, Cmod_0 in Hc. pose proof cutoff_pos. lra.
Qed.

(** ** No returned coefficient is extreme *)
Lemma masked_loop_bound : forall zs zl last row cs d, length zs = length row -> (0 < d)%R ->
  (forall i j x y, nth_error (zl :: zs) i = Some x -> nth_error (zl :: zs) j = Some y -> i <> j -> (d <= Cmod (x - y)%C)%R) ->
  masked_loop zl last zs row = Ok cs -> forall c, In c cs -> (Cmod c <= (1 / cutoff + 1) / d)%R.
Proof.
  assert (B0 : forall d, (0 < d)%R -> (0 <= (1 / cutoff + 1) / d)%R).
  { intros d Hd. apply Rle_mult_inv_pos; [|assumption]. unfold cutoff. lra. }
  induction zs as [|z zs IH]; intros zl last [|e row] cs d Hl Hd Hs Hm c Hc; try discriminate Hl.
  - injection Hm as <-. destruct Hc.
  - injection Hl as Hl. cbn [masked_loop] in Hm.
    assert (Hs1 : forall i j x y, nth_error (z :: zs) i = Some x -> nth_error (z :: zs) j = Some y -> i <> j -> (d <= Cmod (x - y)%C)%R).
    { intros i j x y Hi Hj N. apply (Hs (S i) (S j)); [exact Hi|exact Hj|congruence]. }
    destruct (andb (signi_diff last e) (comparable_mag last e)) eqn:Ec.
    + apply andb_prop in Ec. destruct Ec as [_ Ec]. destruct e as [x|]; [|discriminate].
      apply comparable_spec in Ec.
      destruct (regular zl last z x) as [a|] eqn:Ea; [|discriminate]. cbn [bind] in Hm.
      destruct (update zl last zs row) as [r|] eqn:Er; [|discriminate]. cbn [bind] in Hm.
      destruct (masked_loop z a zs r) as [cs'|] eqn:Em; [|discriminate]. injection Hm as <-.
      destruct Hc as [<-|Hc].
      * apply regular_inv in Ea. destruct Ea as (Hx & Hz & ->).
        rewrite Cmod_div by assumption. apply Rle_trans with ((1 / cutoff + 1) / Cmod (z - zl)%C)%R.
        -- apply Rmult_le_compat_r. { left. apply Rinv_0_lt_compat. now apply Cmod_gt_0. }
           eapply Rle_trans; [apply Cmod_triangle|]. rewrite Cmod_opp, Cmod_1. apply Rplus_le_compat_r.
           rewrite Cmod_div by assumption. assert (Px : (0 < Cmod x)%R) by now apply Cmod_gt_0.
           apply (Rmult_le_reg_r (Cmod x)); [assumption|]. unfold Rdiv. rewrite Rmult_assoc, Rinv_l by lra. rewrite Rmult_1_r.
           destruct Ec as [Ec _]. unfold cutoff in *. lra.
        -- apply Rmult_le_compat_l. { unfold cutoff. lra. }
           apply Rinv_le_contravar; [assumption|]. apply (Hs 1%nat 0%nat); [reflexivity|reflexivity|congruence].
      * apply (IH z a r cs' d); auto. symmetry. now apply (update_length zl last _ row).
    + destruct (masked_loop zl last zs row) as [cs'|] eqn:Em; [|discriminate]. injection Hm as <-.
      destruct Hc as [<-|Hc]. { rewrite Cmod_0. now apply B0. }
      apply (IH zl last row cs' d); auto.
      intros [|i] [|j] u v Hi Hj N; try congruence.
      * apply (Hs 0%nat (S (S j))); [exact Hi|exact Hj|congruence].
      * apply (Hs (S (S i)) 0%nat); [exact Hi|exact Hj|congruence].
      * apply (Hs (S (S i)) (S (S j))); [exact Hi|exact Hj|congruence].
Qed.

Theorem bounded_coefficients z f a d i c : (0 < d)%R ->
  (forall i j x y, nth_error z i = Some x -> nth_error z j = Some y -> i <> j -> (d <= Cmod (x - y)%C)%R) ->
  masked_coefficients z f = Ok a -> nth_error a (S i) = Some c -> (Cmod c <= 10001 / d)%R.
Proof.
  intros Hd Hs. unfold masked_coefficients. destruct (Nat.eqb_spec (length z) (length f)) as [Hl|]; [|discriminate]. cbn [negb].
  destruct z as [|z0 z], f as [|f0 f]; try discriminate. destruct (Rlt_dec cutoff (Cmod f0)) as [Hc|]; [|discriminate].
  destruct (masked_loop z0 f0 z (map Some f)) as [cs|] eqn:E; [|discriminate]. intros [= <-] Hi. cbn in Hi.
  injection Hl as Hl.
  eapply Rle_trans. { apply (masked_loop_bound z z0 f0 (map Some f) cs d); auto. now rewrite map_length. now apply (nth_error_In _ i). }
  replace (1 / cutoff + 1)%R with 10001%R by (unfold cutoff; lra). apply Rle_refl.
Qed.
