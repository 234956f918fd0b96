(** Settings for which the trial grid of the plate-scale search is analysed in doubles. *)
From Coq Require Import ZArith Reals.
From Flocq Require Import Core BinarySingleNaN.
From Verif.Base Require Import F64.

(** A guess between 2^-20 and 2^20, a relative half-width between 1/1024 and 99/100, and a whole number of trials up to
    1024. *)
Definition search_settings (g w n : f64) (N : Z) : Prop :=
  is_finite g = true /\ is_finite w = true /\ is_finite n = true /\
  (bpow radix2 (-20) <= fval g <= bpow radix2 20)%R /\ (/ 1024 <= fval w <= 99 / 100)%R /\
  fval n = IZR N /\ (1 <= N <= 1024)%Z.
