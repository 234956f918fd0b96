(** Least-squares quadratic surfaces. *)
From Coq Require Import ZArith Reals.
From Verif.Base Require Import Arr Vec.
From Verif.Spec Require Import FitsSpec.
Open Scope R_scope.

(** Squared misfit of the surface on the selected samples. *)
Definition surface_misfit (xs ys : vec R) (arr mask : arr R) (a b c d e f : R) : R :=
  masked_sum mask (fun i j => (quad2 a b c d e f (vat xs j) (vat ys i) - at2 arr i j) ^ 2).
Definition best_surface (xs ys : vec R) (arr mask : arr R) (a b c d e f : R) : Prop :=
  forall a' b' c' d' e' f', surface_misfit xs ys arr mask a b c d e f <= surface_misfit xs ys arr mask a' b' c' d' e' f'.
