(** What gen_hlc_occulter asks of its sampling settings, and when a request is coarser than the design. *)
From Coq Require Import ZArith Bool Reals.
From Flocq Require Import Core BinarySingleNaN.
From Verif.Base Require Import F64.
Open Scope R_scope.

Definition positive_double (x : f64) : Prop := is_finite x = true /\ 0 < fval x.
(** The settings pass every check of the function, and the mask is asked for at most at a third of the resolution of the
    design: FN lam0 / dx pixels per lambda/D there, ppl or ppl lam0 / lam pixels here. *)
Definition coarse_request (FN lam0 dx ppl lam rOcc oversize : f64) : Prop :=
  positive_double FN /\ positive_double lam0 /\ positive_double dx /\ positive_double ppl /\ positive_double lam /\
  positive_double rOcc /\ positive_double oversize /\ 2 <= fval oversize /\
  3 * fval ppl <= fval FN * fval lam0 / fval dx /\
  3 * (fval ppl * (fval lam0 / fval lam)) <= fval FN * fval lam0 / fval dx.
(** The exact ratio of the two resolutions, times the padded size, is an integer up to one part in 2^52. *)
Definition nearly_integer (t : R) : Prop := exists M : Z, (1 <= M)%Z /\ Rabs (t - IZR M) <= bpow radix2 (-52) * IZR M.
(** Sampling values away from overflow and underflow. *)
Definition ordinary (x : f64) : Prop := is_finite x = true /\ bpow radix2 (-100) <= fval x <= bpow radix2 100.
