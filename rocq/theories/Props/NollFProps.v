(** Property C105: the Zernike modes in double precision. *)
From Coq Require Import ZArith Reals List Lia.
From Flocq Require Import Core BinarySingleNaN.
From Verif.Base Require Import Py F64 Arr.
From Verif.Model Require Import Noll NollF.
From Verif.Spec Require Import MathSpec ZernikeSpec NollFSpec RefuseSpec.
From Verif.Proofs Require Import ZernP NollFP NollFQ NollFR NollFEx NollFS.
Import ListNotations.
Local Open Scope R_scope.

(** C105. Which calls are refused, for indices up to 2^48: a radius that is zero or negative (nan is let through), grids of
    different shapes, an index below 1, no index at all. Every other call returns one map per index. *)
Theorem C105_refuses : forall fhypot fatan2 fcos fsin fgamma x y prad orders e, (forall j, In j orders -> (j <= 2 ^ 48)%Z) ->
  (xyzern_f fhypot fatan2 fcos fsin fgamma x y prad orders = Err e <->
   refused [(fle prad fzero = false, TypeError); (nr x = nr y /\ nc x = nc y, TypeError); (forall j, In j orders -> (0 < j)%Z, TypeError); (orders <> [], ValueError)] e).
Proof. exact xyzern_f_refused. Qed.
Print Assumptions C105_refuses.

(** C105. Up to radial order 22 the coefficient of every power of the radial polynomial, computed with rounded products and one
    rounded quotient, is exactly the integer of the textbook formula. *)
Theorem C105_coefficients : forall fgamma n m k, gamma_exact fgamma -> (0 <= m <= n)%Z -> (n <= 22)%Z -> Z.Even (n - m) -> (0 <= k <= (n - m) / 2)%Z ->
  is_finite (coef_f fgamma n m k) = true /\ fval (coef_f fgamma n m k) = radial_coef n m k.
Proof. intros g n m k Hg Hm Hn He Hk. destruct (coef_exact g n m k Hg Hm Hn He Hk) as (A & B & _). auto. Qed.
Print Assumptions C105_coefficients.

(** C105. Up to radial order 22, inside the pupil, every mode of the list has the value of the Noll polynomial to within
    (n + 1) 2^-48 sqrt(2 (n + 1)) times the sum of the magnitudes of its coefficients. Missing: larger orders, for which the
    next theorems show the claim to be false. *)
Theorem C105_accuracy_partial : forall fhypot fatan2 fcos fsin fgamma x y prad orders cube k j a n m r c rho th,
  hypot_ok fhypot -> atan2_ok fatan2 -> trig_ok fcos cos -> trig_ok fsin sin -> gamma_exact fgamma ->
  orders <> [] /\ (forall i, In i orders -> (1 <= i <= 2 ^ 48)%Z) ->
  xyzern_f fhypot fatan2 fcos fsin fgamma x y prad orders = Ok cube -> nth_error orders k = Some j -> nth_error cube k = Some a ->
  noll_index j n m -> (n <= 22)%Z -> is_finite prad = true -> bpow radix2 (-500) <= fval prad <= bpow radix2 500 ->
  in_arr x r c -> is_finite (at2 x r c) = true -> is_finite (at2 y r c) = true ->
  polar_of (fval (at2 x r c)) (fval (at2 y r c)) rho th -> rho <= fval prad ->
  nr a = nr x /\ nc a = nc x /\ is_finite (at2 a r c) = true /\
  Rabs (fval (at2 a r c) - noll_zernike j n m (rho / fval prad) th) <= IZR (n + 1) * bpow radix2 (-48) * sqrt (IZR (2 * (n + 1))) * coef_sum n m.
Proof. exact xyzern_accurate. Qed.
Print Assumptions C105_accuracy_partial.

(** C105. For the first 45 modes, which are those of radial order up to 8, the error is below 10^-10. *)
Theorem C105_first_45_modes : forall fhypot fatan2 fcos fsin fgamma x y prad orders cube k j a n m r c rho th,
  hypot_ok fhypot -> atan2_ok fatan2 -> trig_ok fcos cos -> trig_ok fsin sin -> gamma_exact fgamma ->
  orders <> [] /\ (forall i, In i orders -> (1 <= i <= 2 ^ 48)%Z) ->
  xyzern_f fhypot fatan2 fcos fsin fgamma x y prad orders = Ok cube -> nth_error orders k = Some j -> nth_error cube k = Some a ->
  noll_index j n m -> (j <= 45)%Z -> is_finite prad = true -> bpow radix2 (-500) <= fval prad <= bpow radix2 500 ->
  in_arr x r c -> is_finite (at2 x r c) = true -> is_finite (at2 y r c) = true ->
  polar_of (fval (at2 x r c)) (fval (at2 y r c)) rho th -> rho <= fval prad ->
  is_finite (at2 a r c) = true /\ Rabs (fval (at2 a r c) - noll_zernike j n m (rho / fval prad) th) <= / 10000000000.
Proof. exact xyzern_small. Qed.
Print Assumptions C105_first_45_modes.

(** C105. Mode 1276, of orders (50, 0), at the rim of the pupil: the value is off by more than 200, with library routines that are
    correctly rounded. *)
Theorem C105_high_order_refuted : exists fhypot fatan2 fcos fsin fgamma x y prad a,
  hypot_ok fhypot /\ atan2_ok fatan2 /\ trig_ok fcos cos /\ trig_ok fsin sin /\ gamma_exact fgamma /\ gamma_near fgamma /\
  noll_index 1276 50 0 /\ fval prad = 1 /\ polar_of (fval (at2 x 0 0)) (fval (at2 y 0 0)) 1 0 /\
  xyzern_f fhypot fatan2 fcos fsin fgamma x y prad [1276%Z] = Ok [a] /\ is_finite (at2 a 0 0) = true /\
  200 < fval (at2 a 0 0) - noll_zernike 1276 50 0 (1 / fval prad) 0.
Proof.
  destruct edge_wrong as (a & E & P & F & G). destruct trig_ref_ok as [Tc Ts].
  exists hypot_ref, atan2_ref, cos_ref, sin_ref, gamma_ref, edge_x, edge_y, (fofZ 1), a.
  exact (conj hypot_ref_ok (conj atan2_ref_ok (conj Tc (conj Ts (conj gamma_ref_exact (conj gamma_ref_near (conj edge_index
    (conj (proj1 (fofZ_spec 1 ltac:(lia))) (conj P (conj E (conj F G))))))))))).
Qed.
Print Assumptions C105_high_order_refuted.

(** C105. From radial order 171 on, which is index 14707, no pixel of the mode is a number: the factorials overflow. *)
Theorem C105_overflow : forall fhypot fatan2 fcos fsin fgamma x y prad orders cube k j a n m r c, gamma_near fgamma ->
  orders <> [] /\ (forall i, In i orders -> (1 <= i <= 2 ^ 48)%Z) ->
  xyzern_f fhypot fatan2 fcos fsin fgamma x y prad orders = Ok cube -> nth_error orders k = Some j -> nth_error cube k = Some a ->
  noll_index j n m -> (171 <= n)%Z -> is_finite (at2 a r c) = false.
Proof. exact xyzern_over. Qed.
Print Assumptions C105_overflow.

(** C105. One such index in the list given to gen_zernikes makes every pixel of the sum nan or infinite, even with coefficient 0. *)
Theorem C105_overflow_sum : forall fhypot fatan2 fcos fsin fgamma inds coefs xo yo nBeam nArray out j n m r c, gamma_near fgamma ->
  inds <> [] /\ (forall i, In i inds -> (1 <= i <= 2 ^ 48)%Z) ->
  gen_zernikes_f fhypot fatan2 fcos fsin fgamma inds coefs xo yo nBeam nArray = Ok out ->
  In j inds -> noll_index j n m -> (171 <= n)%Z -> is_finite (at2 out r c) = false.
Proof. exact gen_over. Qed.
Print Assumptions C105_overflow_sum.

(** Non-vacuity: defocus and primary spherical at the rim, with the reference routines. *)
Example C105_rim : exists a b, xyzern_f hypot_ref atan2_ref cos_ref sin_ref gamma_ref edge_x edge_y (fofZ 1) [4%Z; 11%Z] = Ok [a; b] /\
  Rabs (fval (at2 a 0 0) - sqrt 3) <= / 10000000000 /\ Rabs (fval (at2 b 0 0) - sqrt 5) <= / 10000000000.
Proof. exact rim_modes. Qed.
(** Index 14707 has orders (171, 1) and is accepted. *)
Example C105_index_14707 : noll_index 14707 171 1 /\
  exists a, xyzern_f hypot_ref atan2_ref cos_ref sin_ref gamma_ref edge_x edge_y (fofZ 1) [14707%Z] = Ok [a].
Proof.
  split; [split; [lia|]; split; [exists 85%Z; lia|]; right; split; [lia|]; left; reflexivity|].
  eexists. rewrite xyzern_f_eq; [reflexivity|split; [discriminate|intros j [<-|[]]; lia]|exact one_positive|reflexivity|reflexivity].
Qed.
