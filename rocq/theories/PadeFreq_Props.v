(** * Properties of pade_frequencies: C69 *)
From Coq Require Import List Arith ZArith Bool Reals Lia Lra Sorted.
From Coquelicot Require Import Coquelicot.
From Verif Require Import Base FSum CBase Stat_Model Stat_Proofs Linalg_Model Linalg_Proofs Mat Matrix_Proofs Backend Pole_Model Pole_Spec Density_Model Density_Props PadeFreq_Tanh PadeFreq_Model PadeFreq_Eig PadeFreq_Proofs PadeFreq_Main PadeFreq_Dens.
Import ListNotations.
Local Open Scope R_scope.

(** Contracts: [geig_ok] columns of the second result of scipy.linalg.eig(a, b) with regular b satisfy a v = e b v; [inv_ok] np.linalg.inv returns the inverse. *)

(** [num] positive frequencies in ascending order on the imaginary axis and positive residues; none of the assertions fails,
    the only exceptions are those of the two library calls *)
Theorem C69_returns : forall geig invO, geig_ok geig -> inv_ok invO -> forall num beta, (1 <= num)%nat -> 0 < beta ->
  (exists zs rs, pade_frequencies geig invO num beta = Ok (map (fun z => (Ci * RtoC z)%C) zs, rs) /\ length zs = num /\ length rs = num /\
     StronglySorted Rlt zs /\ List.Forall (fun z => 0 < z) zs /\ List.Forall (fun r => 0 < r) rs) \/
  (exists x, pade_frequencies geig invO num beta = Err x /\ ((exists A B, geig A B = Err x) \/ exists v, invO v = Err x)).
Proof. exact pade_cases. Qed.
Print Assumptions C69_returns.

(** the poles iz_p, -iz_p with residues -r_p/beta reproduce the Fermi function; [odd_fact k] = 1 3 5 ... (2k-1) *)
Theorem C69_fermi : forall geig invO, geig_ok geig -> inv_ok invO -> forall num beta izp rp, (1 <= num)%nat -> 0 < beta ->
  pade_frequencies geig invO num beta = Ok (izp, rp) -> forall eps,
  let approx := 1 / 2 - nsum (K := RF) (length izp) (fun p => nth p rp 0 / beta * (2 * fst (/ (RtoC eps - nth p izp (RtoC 0)))%C)) in
  Rabs (approx - / (exp (beta * eps) + 1)) <= Rabs (beta * eps / 2) ^ (4 * num + 1) / (2 * odd_fact (2 * num) ^ 2 * (4 * INR num + 1)).
Proof. intros geig invO HG HI num beta izp rp Hn Hb E eps. cbv zeta. rewrite <- fermi_def. exact (pade_fermi geig invO HG HI num beta izp rp eps Hn Hb E). Qed.
Print Assumptions C69_fermi.

(** more frequencies: the approximation converges at every energy *)
Theorem C69_converges : forall geig invO, geig_ok geig -> inv_ok invO -> forall beta (izp : nat -> list C) (rp : nat -> list R), 0 < beta ->
  (forall num, (1 <= num)%nat -> pade_frequencies geig invO num beta = Ok (izp num, rp num)) -> forall eps,
  is_lim_seq (fun num => 1 / 2 - nsum (K := RF) (length (izp num)) (fun p => nth p (rp num) 0 / beta * (2 * fst (/ (RtoC eps - nth p (izp num) (RtoC 0)))%C))) (/ (exp (beta * eps) + 1)).
Proof.
  intros geig invO HG HI beta izp rp Hb E eps. rewrite <- fermi_def. set (y := beta * eps / 2). set (f := fermi_fct eps beta).
  apply is_lim_seq_incr_1. apply (is_lim_seq_le_le (fun n => f - fbound (S n) y) _ (fun n => f + fbound (S n) y)).
  - intros n. assert (B := pade_fermi geig invO HG HI (S n) beta (izp (S n)) (rp (S n)) eps ltac:(lia) Hb (E (S n) ltac:(lia))). unfold fermi_poles in B. fold f in B. fold y in B. apply Rabs_le_between in B. split; lra.
  - assert (L := proj1 (is_lim_seq_incr_1 (fun n => fbound n y) 0) (fbound_lim y)). assert (Q := is_lim_seq_minus' _ _ f 0 (is_lim_seq_const f) L). rewrite Rminus_0_r in Q. exact Q.
  - assert (L := proj1 (is_lim_seq_incr_1 (fun n => fbound n y) 0) (fbound_lim y)). assert (Q := is_lim_seq_plus' _ _ f 0 (is_lim_seq_const f) L). rewrite Rplus_0_r in Q. exact Q.
Qed.
Print Assumptions C69_converges.

(** "drop-in replacement": density_iw of a pole function with weight 1 from the Padé frequencies, its residues as weights and default options *)
Theorem C69_density : forall geig invO, geig_ok geig -> inv_ok invO -> forall qr tri lstsq allclose0 solve num beta izp rp (P W : list R),
  solve_spec RF solve -> (1 <= num)%nat -> 0 < beta -> pade_frequencies geig invO num beta = Ok (izp, rp) ->
  length P = length W -> lsum (K := RF) W = 1 ->
  exists n, density_iw lstsq (EC qr tri lstsq allclose0) solve izp (map (fun z => green_z z P W) izp) beta rp [1] 0 = Ok n /\
    Rabs (n - occupation P W beta)
    <= lsum (K := RF) (map (fun pr => Rabs (snd pr) * (Rabs (beta * fst pr / 2) ^ (4 * num + 1) / (2 * odd_fact (2 * num) ^ 2 * (4 * INR num + 1)))) (combine P W)).
Proof. exact pade_density1. Qed.
Print Assumptions C69_density.
(** any moments, the zeroth being the total weight: the poles of the tail add their own error *)
Theorem C69_density_moments : forall geig invO, geig_ok geig -> inv_ok invO -> forall qr tri lstsq allclose0 solve num beta izp rp (moms P W : list R),
  solve_spec RF solve -> (1 <= num)%nat -> 0 < beta -> pade_frequencies geig invO num beta = Ok (izp, rp) ->
  moms <> [] -> length P = length W -> lsum (K := RF) W = nth 0 moms 0 ->
  exists poles resid n, gf_from_moments (K := RF) Rabs (fun x => x) solve moms None = Ok (poles, resid) /\
    density_iw lstsq (EC qr tri lstsq allclose0) solve izp (map (fun z => green_z z P W) izp) beta rp moms 0 = Ok n /\
    let bound y := Rabs y ^ (4 * num + 1) / (2 * odd_fact (2 * num) ^ 2 * (4 * INR num + 1)) in
    Rabs (n - occupation P W beta)
    <= lsum (K := RF) (map (fun pr => Rabs (snd pr) * bound (beta * fst pr / 2)) (combine P W)) + lsum (K := RF) (map (fun pr => Rabs (snd pr) * bound (beta * fst pr / 2)) (combine poles resid)).
Proof. exact pade_density. Qed.
Print Assumptions C69_density_moments.

(** the result does not depend on the eigenvalue routine (scaling and order of the eigenvectors) *)
Theorem C69_unique : forall geig invO geig' invO' num beta r r', geig_ok geig -> inv_ok invO -> geig_ok geig' -> inv_ok invO' -> (1 <= num)%nat ->
  pade_frequencies geig invO num beta = Ok r -> pade_frequencies geig' invO' num beta = Ok r' -> r = r'.
Proof. exact pade_unique. Qed.
Print Assumptions C69_unique.
(** the temperature only scales the frequencies *)
Theorem C69_scaling : forall geig invO, geig_ok geig -> inv_ok invO -> forall num beta izp rp, (1 <= num)%nat -> 0 < beta ->
  pade_frequencies geig invO num 1 = Ok (izp, rp) -> pade_frequencies geig invO num beta = Ok (map (fun z => (z / RtoC beta)%C) izp, rp).
Proof.
  intros geig invO _ _ num beta izp rp _ Hb. unfold pade_frequencies. destruct (pade_frequencies0 geig invO num) as [[z r]|x]; [|discriminate]. cbn [bind fst snd].
  destruct (Req_EM_T 1 0) as [|_]; [lra|]. destruct (Req_EM_T beta 0) as [|_]; [lra|]. intros E. assert (E1 : map (fun z => (RtoC (1 / 1) * z)%C) z = izp) by now injection E. assert (E2 : r = rp) by now injection E. subst. f_equal. f_equal. rewrite map_map. apply map_ext. intros w. apply C_ext; cbn; field; lra.
Qed.
Print Assumptions C69_scaling.

(** a single frequency: 2 sqrt 3/beta with residue 3/2 *)
Theorem C69_one : forall geig invO beta izp rp, geig_ok geig -> inv_ok invO -> 0 < beta -> pade_frequencies geig invO 1 beta = Ok (izp, rp) ->
  izp = [(Ci * RtoC (2 * sqrt 3 / beta))%C] /\ rp = [3 / 2].
Proof. exact pade_one. Qed.
Print Assumptions C69_one.

(** the contracts are satisfiable, with success for every number of frequencies and temperature *)
Theorem C69_example : exists geig invO, geig_ok geig /\ inv_ok invO /\ forall num beta, (1 <= num)%nat -> 0 < beta -> exists r, pade_frequencies geig invO num beta = Ok r.
Proof. exact oracles_exist. Qed.
Print Assumptions C69_example.
(** two frequencies at energy 1/beta: error below 1e-8 *)
Example C69_example_num2 : Rabs (1 * 1 / 2) ^ (4 * 2 + 1) / (2 * odd_fact (2 * 2) ^ 2 * (4 * INR 2 + 1)) <= 1 / 100000000.
Proof. cbn [Nat.mul Nat.add odd_fact]. rewrite Rabs_right by lra. change (INR 0) with 0. change (INR 1) with 1. replace (INR 2) with 2 by (cbn; ring). replace (INR 3) with 3 by (cbn; ring). lra. Qed.
