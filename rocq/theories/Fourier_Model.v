(** * Model of gftool/fourier.py

    One-dimensional arrays (leading axes are broadcast element-wise); exact arithmetic.  numpy's fft functions are modelled by
    their documented defining sums. *)
From Coq Require Import List Arith ZArith Reals Bool String.
From Coquelicot Require Import Coquelicot.
From Verif Require Import Base CBase CExp Stat_Model Linalg_Model Pole_Model.
Import ListNotations.
Local Open Scope R_scope.

(** exp(2 pi i k / n) *)
Definition zeta (n : nat) (k : Z) : C := cexp (Cmult Ci (RtoC (2 * PI * IZR k / INR n))).

(** np.fft.hfft(a): n = 2*(a.size - 1) real values of the Hermitian spectrum a *)
Definition hfft (a : list C) : result (list R) :=
  let n := (2 * (List.length a - 1))%nat in
  if (n =? 0)%nat then Err ValueError
  else Ok (map (fun k => fst (nth 0 a (RtoC 0))
                         + nsum (K := RF) (n / 2 - 1) (fun m => 2 * fst (Cmult (nth (S m) a (RtoC 0)) (zeta n (- (Z.of_nat (S m) * Z.of_nat k)))))
                         + fst (Cmult (nth (n / 2) a (RtoC 0)) (zeta n (- (Z.of_nat (n / 2) * Z.of_nat k)))))
              (seq 0 n)).
(** np.fft.ihfft(x): x.size//2 + 1 values *)
Definition ihfft (x : list R) : result (list C) :=
  let n := List.length x in
  if (n =? 0)%nat then Err ValueError
  else Ok (map (fun m => Cdiv (nsum (K := CF) n (fun k => Cmult (RtoC (nth k x 0)) (zeta n (Z.of_nat m * Z.of_nat k)))) (RtoC (INR n)))
               (seq 0 (n / 2 + 1))).

(** slices l[1::2] and l[::2] *)
Definition odds {A} (d : A) (l : list A) : list A := map (fun i => nth (2 * i + 1) l d) (seq 0 (List.length l / 2)).
Definition evens {A} (d : A) (l : list A) : list A := map (fun i => nth (2 * i) l d) (seq 0 ((List.length l + 1) / 2)).

(** iw2tau_dft, fourier.py:193-196 *)
Definition gf_iwall (gf_iw : list C) : list C :=
  map (fun i => if Nat.odd i then nth (i / 2) gf_iw (RtoC 0) else (RtoC 0)) (seq 0 (2 * List.length gf_iw + 1)).
Definition iw2tau_dft (gf_iw : list C) (beta : R) : result (list R) :=
  if Req_EM_T beta 0 then Err ZeroDivisionError
  else
    do t <- hfft (map (Cmult (RtoC (1 / beta))) (gf_iwall gf_iw));
    Ok (firstn (List.length (gf_iwall gf_iw)) t).

(** iw2tau_dft_soft, fourier.py:279-283 *)
Definition soft_tail (n : nat) : list R := map (fun i => / 2 * (cos (PI * INR (S i) / INR n) + 1)) (seq 0 n).
Definition iw2tau_dft_soft (gf_iw : list C) (beta : R) : result (list R) :=
  do t <- iw2tau_dft (gf_iw ++ map (fun w => Cmult (RtoC w) (last gf_iw (RtoC 0))) (soft_tail (List.length gf_iw))) beta;
  Ok (evens 0 t).

(** tau2iv_dft, fourier.py:464-469 *)
Definition trapz_dx (y : list R) (dx : R) : R := nsum (K := RF) (List.length y - 1) (fun k => dx * (nth (S k) y 0 + nth k y 0) / 2).
Definition tau2iv_dft (gf_tau : list R) (beta : R) : result (list C) :=
  if (List.length gf_tau =? 1)%nat then Err ZeroDivisionError
  else
    let gf_mean := trapz_dx gf_tau (beta / INR (List.length gf_tau - 1)) in
    do d <- ihfft (map (fun g => g - gf_mean) (removelast gf_tau));
    Ok (RtoC gf_mean :: map (Cmult (RtoC beta)) (tl d)).

Definition diff (x : list R) : list R := map (fun k => nth (S k) x 0 - nth k x 0) (seq 0 (List.length x - 1)).
(** the Filon weights for phase increment d *)
Definition weight1 (d : C) : C := Cdiv (Cminus (cexp d) (RtoC 1)) d.
Definition weight2 (d : C) : C := Cdiv (Cminus (Cplus (Cminus (cexp d) (RtoC 1)) (RtoC 1)) (weight1 d)) d.

(** tau2iv_ft_lin, fourier.py:559-569 *)
Definition tau2iv_ft_lin (gf_tau : list R) (beta : R) : result (list C) :=
  let n_tau := List.length gf_tau in
  do g <- ihfft (removelast gf_tau);
  do dg <- ihfft (diff gf_tau);
  Ok (map (fun m =>
        let d := Cmult (Cdiv (Cmult (Cmult (RtoC 2) Ci) (RtoC PI)) (RtoC (INR (n_tau - 1)))) (RtoC (INR m)) in
        let w1 := if (m =? 0)%nat then RtoC 1 else weight1 d in
        let w2 := if (m =? 0)%nat then RtoC (/ 2) else weight2 d in
        Cmult (RtoC beta) (Cplus (Cmult w1 (nth m g (RtoC 0))) (Cmult w2 (nth m dg (RtoC 0)))))
      (seq 0 (List.length g))).

(** tau2iv, fourier.py:652-659 *)
Definition tau2iv (fourier : list R -> R -> result (list C)) (gf_tau : list R) (beta : R) : result (list C) :=
  match gf_tau with
  | [] => Err IndexError
  | g0 :: _ =>
      let n := List.length gf_tau in
      let g1 := last gf_tau 0 - g0 in
      do giv <- fourier (map (fun i => nth i gf_tau 0 - g1 / beta * linspace 0 beta n i) (seq 0 n)) beta;
      match giv with
      | [] => Err IndexError
      | _ => Ok (map (fun m => if (m =? 0)%nat then Cplus (nth m giv (RtoC 0)) (RtoC (/ 2 * g1 * beta))
                               else Cplus (nth m giv (RtoC 0)) (Cdiv (RtoC g1) (matsubara_frequencies_b (Z.of_nat m) beta)))
                     (seq 0 (List.length giv)))
      end
  end.

(** tau2iw_dft, fourier.py:733-735 *)
Definition full_range (gf_tau : list R) : list R := map Ropp (removelast gf_tau) ++ gf_tau.
Definition tau2iw_dft (gf_tau : list R) (beta : R) : result (list C) :=
  do d <- ihfft (removelast (full_range gf_tau));
  Ok (map (Cmult (RtoC (- beta))) (odds (RtoC 0) d)).

(** tau2iw_ft_lin, fourier.py:827-837 *)
Definition tau2iw_ft_lin (gf_tau : list R) (beta : R) : result (list C) :=
  let full := full_range gf_tau in
  let n_tau := (List.length full - 1)%nat in
  do g <- ihfft (removelast full);
  do dg <- ihfft (diff full);
  Ok (map (fun j =>
        let d := Cdiv (Cmult (Cmult (Cmult (RtoC 2) Ci) (RtoC PI)) (RtoC (INR (2 * j + 1)))) (RtoC (INR n_tau)) in
        Cmult (RtoC (- beta)) (Cplus (Cmult (weight1 d) (nth (2 * j + 1) g (RtoC 0))) (Cmult (weight2 d) (nth (2 * j + 1) dg (RtoC 0)))))
      (seq 0 (List.length g / 2))).

(** ** Real time to complex frequencies, for one frequency z *)
Definition tphase (z : C) (t : R) : C := cexp (Cmult (Cmult Ci z) (RtoC t)).

(** tt2z_trapz, fourier.py:1149-1154 *)
Definition tt2z_trapz (tt : list R) (gf_t : list C) (z : C) : result C :=
  let n := List.length tt in
  if (n <? 2)%nat then Err IndexError
  else if (List.length gf_t =? n)%nat then
    let g i := nth i gf_t (RtoC 0) in
    let t i := nth i tt 0 in
    let boundary := Cplus (Cmult (Cmult (tphase z (t 0%nat)) (g 0%nat)) (RtoC (t 1%nat - t 0%nat)))
                          (Cmult (Cmult (tphase z (t (n - 1)%nat)) (g (n - 1)%nat)) (RtoC (t (n - 1)%nat - t (n - 2)%nat))) in
    let inner := nsum (K := CF) (n - 2) (fun i => Cmult (tphase z (t (S i))) (Cmult (g (S i)) (RtoC (t (S (S i)) - t i)))) in
    Ok (Cmult (RtoC (/ 2)) (Cplus boundary inner))
  else Err ValueError.

(** _trapz_weight, fourier.py:1177-1182, and _simps_weight, 1210-1225 *)
Section Weights.
Context {K : Fld}.
Local Open Scope fld_scope.
Definition two : K := 1 + 1.
Definition trapz_weight (delta : K) (gf_t : list K) (endpoint : bool) : result (list K) :=
  let n := List.length gf_t in
  if (n =? 0)%nat then Err IndexError
  else Ok (map (fun i => delta * nth i gf_t 0 * (if (i =? 0)%nat then 1 / two else 1)
                         * (if (endpoint && (i =? n - 1)%nat)%bool then 1 / two else 1)) (seq 0 n)).
Definition simps_factor (n i : nat) (endpoint : bool) : K :=
  if endpoint then
    if Nat.odd n then
      if ((0 <? i) && (i <? n - 1))%nat then (if Nat.odd i then two * two else two) else 1
    else if (i =? n - 2)%nat then (two * two + 1) / two
    else if (i =? n - 1)%nat then (two + 1) / two
    else if (0 <? i)%nat then (if Nat.odd i then two * two else two) else 1
  else if (i =? 0)%nat then 1 else if Nat.odd i then two * two else two.
Definition simps_weight (delta : K) (gf_t : list K) (endpoint : bool) : result (list K) :=
  let n := List.length gf_t in
  if (endpoint && (n =? 0)%nat)%bool then Err IndexError
  else Ok (map (fun i => delta / (two + 1) * nth i gf_t 0 * simps_factor n i endpoint) (seq 0 n)).
End Weights.

(** tt2z_simps, fourier.py:1260-1263 *)
Definition tt2z_simps (tt : list R) (gf_t : list C) (z : C) : result C :=
  if (List.length tt <? 2)%nat then Err IndexError
  else
    do c <- simps_weight (K := CF) (RtoC (nth 1 tt 0 - nth 0 tt 0)) gf_t false;
    if (List.length gf_t =? List.length tt)%nat
    then Ok (nsum (K := CF) (List.length tt) (fun i => Cmult (tphase z (nth i tt 0)) (nth i c (RtoC 0))))
    else Err ValueError.

(** tt2z_lin, fourier.py:1320-1336; [close] is np.isclose *)
Section Lin.
Variable close : R -> R -> bool.
Definition equidistant (tt : list R) : bool := forallb (fun d => close d (nth 1 tt 0 - nth 0 tt 0)) (diff tt).
Definition trapz_x (tt : list R) (y : list C) : C :=
  nsum (K := CF) (List.length tt - 1) (fun i => Cdiv (Cmult (RtoC (nth (S i) tt 0 - nth i tt 0)) (Cplus (nth (S i) y (RtoC 0)) (nth i y (RtoC 0)))) (RtoC 2)).
Definition tt2z_lin (tt : list R) (gf_t : list C) (z : C) : result C :=
  let n := List.length tt in
  if (n <? 2)%nat then Err IndexError
  else if equidistant tt then
    if (List.length gf_t =? n)%nat then
      let delta := nth 1 tt 0 - nth 0 tt 0 in
      if Ceq_dec z (RtoC 0) then Ok (trapz_x tt gf_t)
      else
        let izdt := Cmult (Cmult Ci z) (RtoC delta) in
        if Ceq_dec izdt (RtoC 0) then Err NonFinite
        else
          let g := nsum (K := CF) (n - 1) (fun i => Cmult (tphase z (nth i tt 0)) (nth i gf_t (RtoC 0))) in
          let dg := nsum (K := CF) (n - 1) (fun i => Cmult (tphase z (nth i tt 0)) (Cminus (nth (S i) gf_t (RtoC 0)) (nth i gf_t (RtoC 0)))) in
          let w1 := Cdiv (Cminus (cexp izdt) (RtoC 1)) izdt in
          let w2 := Cdiv (Cminus (cexp izdt) w1) izdt in
          Ok (Cmult (RtoC delta) (Cplus (Cmult w1 g) (Cmult w2 dg)))
    else Err ValueError
  else Err ValueError.
End Lin.

(** tt2z, fourier.py:1631-1642, for one-dimensional arrays; a NaN is [None] *)
Definition ge0 (x : R) : bool := if Rle_dec 0 x then true else false.
Definition le0 (x : R) : bool := if Rle_dec x 0 then true else false.
Definition tt2z (laplace : list R -> list C -> list C -> result (list (ext CF))) (tt : list R) (gf_t z : list C)
  : result (list (ext CF)) :=
  let retarded := (forallb ge0 tt && forallb (fun w => ge0 (snd w)) z)%bool in
  let advanced := (forallb le0 tt && forallb (fun w => le0 (snd w)) z)%bool in
  if negb (retarded || advanced) then Err ValueError
  else if ((List.length z =? 0) || (List.length gf_t =? 0))%nat then Ok (map (fun _ => None) z)
  else laplace tt gf_t z.
