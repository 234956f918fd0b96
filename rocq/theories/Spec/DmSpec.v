(** What a deformable-mirror surface is: a superposition of shifted influence functions. *)
From Coq Require Import ZArith Bool Reals.
From Flocq Require Import Core.
From Verif.Base Require Import Py Arr Vec Sums.
From Verif.Model Require Import Dm.
Open Scope Z_scope.

(** Sum over actuators of height times the influence function placed so that its centre pixel
    (N-1)/2 falls on the actuator. Design-grid pixel (i,j); actuator (a,b) is at pixel
    (a ppd + (N-1)/2, b ppd + (N-1)/2) of that grid. *)
Definition superposition (nact ppd : Z) (dmin inf : arr R) (i j : Z) : R :=
  let h := (nr inf - 1) / 2 in
  rsum2 (fun a b => at2 dmin a b *
    at0 inf (h + (i - (a * ppd + h))) (h + (j - (b * ppd + h))))%R nact nact.

(** scipy's resampling routines: the spline interpolates its samples and is linear in them; rotation and
    shift preserve the shape, are linear, and do nothing for angle 0 and displacement 0. *)
Definition interpolates (ops : scipy_ops) : Prop :=
  forall n ppd a k l, 0 < ppd -> nr a = n -> nc a = n -> 0 <= k < n -> 0 <= l < n ->
    sp_interp ops n ppd a ((IZR k - (IZR n - 1) / 2) / IZR ppd)%R ((IZR l - (IZR n - 1) / 2) / IZR ppd)%R
    = at2 a k l.
Definition shape_preserving (ops : scipy_ops) : Prop :=
  (forall a t, nr (sp_rotate ops a t) = nr a /\ nc (sp_rotate ops a t) = nc a) /\
  (forall a y x, nr (sp_shift ops a y x) = nr a /\ nc (sp_shift ops a y x) = nc a).
Definition linear_ops (ops : scipy_ops) : Prop :=
  (forall n ppd x y a b d Y X, lin_rel x y a b d -> nr d = n -> nc d = n ->
     sp_interp ops n ppd d Y X = (x * sp_interp ops n ppd a Y X + y * sp_interp ops n ppd b Y X)%R) /\
  (forall t, linear_op (fun a => sp_rotate ops a t)) /\
  (forall y x, linear_op (fun a => sp_shift ops a y x)).
Definition still (ops : scipy_ops) : Prop :=
  (forall a, aeq (sp_rotate ops a 0) a) /\ (forall a, aeq (sp_shift ops a 0 0) a).

(** One pixel per actuator: surface of command [x] for influence function [k] (centre n/2 per axis). *)
Definition dm_surface (k x : arr R) (r c : Z) : R :=
  rsum2 (fun a b => at2 x a b * at0 k (r - a + nr k / 2) (c - b + nc k / 2))%R (nr x) (nc x).
(** The point reflection of an influence function. *)
Definition reflected (k : arr R) : arr R :=
  Arr (nr k) (nc k) (fun p q => at2 k (nr k - 1 - p) (nc k - 1 - q)).
Definition point_symmetric (k : arr R) : Prop :=
  forall p q, in_arr k p q -> at2 k (nr k - 1 - p) (nc k - 1 - q) = at2 k p q.

(** Square linear systems and solvers. *)
Definition solves (n : Z) (A : Z -> Z -> R) (b x : Z -> R) : Prop :=
  forall i, 0 <= i < n -> rsum (fun k => A i k * x k)%R n = b i.
Definition nonsingular (n : Z) (A : Z -> Z -> R) : Prop :=
  forall b, (exists x, solves n A b x) /\
    forall x y, solves n A b x -> solves n A b y -> forall i, 0 <= i < n -> x i = y i.
Definition is_solver (f : spsolve_fun) : Prop :=
  forall n A b, nonsingular n A -> solves n A b (f n A b).
(** A spline on a symmetric grid commutes with point reflection. *)
Definition spline_symmetric (sp : spline2_fun) : Prop :=
  forall ppa k y x, point_symmetric k -> sp ppa k (- y)%R (- x)%R = sp ppa k y x.

(** The arguments dmhtoph documents as valid. *)
Definition dm_args (nrow ncol : Z) (dmin : arr R) (nact : Z) (inf : arr R) (ppd : Z) (cx cy : R) : Prop :=
  0 < nrow /\ 0 < ncol /\ 0 < nact /\ 0 < ppd /\ (0 < cx <= IZR ppd)%R /\ (0 < cy <= IZR ppd)%R /\
  nr dmin = nact /\ nc dmin = nact /\ nr inf = nc inf /\ nr inf < nact * ppd /\ nr inf mod 2 = 1 /\ 0 <= nr inf.

