(** Property C84: the modes computed by xyzern are orthonormal over the pupil disc. *)
From Coq Require Import ZArith Reals List.
From Coquelicot Require Import Coquelicot.
From Verif.Base Require Import Py Arr Sums.
From Verif.Model Require Import Math Noll.
From Verif.Spec Require Import DiskSpec.
From Verif.Proofs Require Import ZernOrthD.
Import ListNotations.
Open Scope R_scope.

(** C84. [Zf j x y] is the value xyzern gives for mode [j] at the point (x, y). Over the disc of the pupil
    radius two different modes integrate to 0 and each mode has mean square 1. *)
Theorem C84_orthonormal : forall (prad : R) (Zf : Z -> R -> R -> R), 0 < prad ->
  (forall j x y, (1 <= j)%Z ->
     exists a, xyzern (afull 1 1 x) (afull 1 1 y) prad [j] = Ok [a] /\ at2 a 0 0 = Zf j x y) ->
  forall j j', (1 <= j)%Z -> (1 <= j')%Z ->
  disk_integral prad (fun x y => Zf j x y * Zf j' x y) (if (j =? j')%Z then PI * prad ^ 2 else 0).
Proof. exact orthonormal. Qed.
Print Assumptions C84_orthonormal.
(** C84. The mean square over the pupil of a sum of modes is the sum of the squares of its coefficients:
    a coefficient is an rms, and the total rms is the root of the sum of squares. *)
Theorem C84_rms : forall (prad : R) (Zf : Z -> R -> R -> R), 0 < prad ->
  (forall j x y, (1 <= j)%Z ->
     exists a, xyzern (afull 1 1 x) (afull 1 1 y) prad [j] = Ok [a] /\ at2 a 0 0 = Zf j x y) ->
  forall (c : Z -> R) N,
  disk_mean prad (fun x y => rsum (fun k => c k * Zf (k + 1)%Z x y) N ^ 2) (rsum (fun k => c k ^ 2) N).
Proof. exact mean_square. Qed.
Print Assumptions C84_rms.
(** C84. Each coefficient is the mean over the pupil of the sum times its mode. *)
Theorem C84_coefficient : forall (prad : R) (Zf : Z -> R -> R -> R), 0 < prad ->
  (forall j x y, (1 <= j)%Z ->
     exists a, xyzern (afull 1 1 x) (afull 1 1 y) prad [j] = Ok [a] /\ at2 a 0 0 = Zf j x y) ->
  forall (c : Z -> R) N i, (0 <= i < N)%Z ->
  disk_mean prad (fun x y => rsum (fun k => c k * Zf (k + 1)%Z x y) N * Zf (i + 1)%Z x y) (c i).
Proof. exact projection. Qed.
Print Assumptions C84_coefficient.
(** C84. The mean over the pupil is the coefficient of mode 1 (piston). *)
Theorem C84_mean : forall (prad : R) (Zf : Z -> R -> R -> R), 0 < prad ->
  (forall j x y, (1 <= j)%Z ->
     exists a, xyzern (afull 1 1 x) (afull 1 1 y) prad [j] = Ok [a] /\ at2 a 0 0 = Zf j x y) ->
  forall (c : Z -> R) N, (1 <= N)%Z ->
  disk_mean prad (fun x y => rsum (fun k => c k * Zf (k + 1)%Z x y) N) (c 0%Z).
Proof. exact mean. Qed.
Print Assumptions C84_mean.
(** C84. Sums of modes equal inside the pupil have the same coefficients. *)
Theorem C84_determined : forall (prad : R) (Zf : Z -> R -> R -> R), 0 < prad ->
  (forall j x y, (1 <= j)%Z ->
     exists a, xyzern (afull 1 1 x) (afull 1 1 y) prad [j] = Ok [a] /\ at2 a 0 0 = Zf j x y) ->
  forall (c c' : Z -> R) N,
  (forall x y, x ^ 2 + y ^ 2 < prad ^ 2 ->
     rsum (fun k => c k * Zf (k + 1)%Z x y) N = rsum (fun k => c' k * Zf (k + 1)%Z x y) N) ->
  forall i, (0 <= i < N)%Z -> c i = c' i.
Proof. exact determined. Qed.
Print Assumptions C84_determined.
(** C84. A function has at most one integral over the disc. *)
Theorem C84_integral_unique : forall p f u v, 0 < p -> disk_integral p f u -> disk_integral p f v -> u = v.
Proof. exact disk_unique. Qed.
Print Assumptions C84_integral_unique.
(** The hypothesis holds for every radius. *)
Example C84_values : forall prad, 0 < prad -> exists Zf : Z -> R -> R -> R, forall j x y, (1 <= j)%Z ->
  exists a, xyzern (afull 1 1 x) (afull 1 1 y) prad [j] = Ok [a] /\ at2 a 0 0 = Zf j x y.
Proof. exact values_exist. Qed.
(** 3 rad of defocus and 4 rad of astigmatism: mean square 25. *)
Example C84_ex : forall (prad : R) (Zf : Z -> R -> R -> R), 0 < prad ->
  (forall j x y, (1 <= j)%Z ->
     exists a, xyzern (afull 1 1 x) (afull 1 1 y) prad [j] = Ok [a] /\ at2 a 0 0 = Zf j x y) ->
  disk_mean prad (fun x y => rsum (fun k => (if (k =? 3)%Z then 3 else if (k =? 4)%Z then 4 else 0) * Zf (k + 1)%Z x y) 5 ^ 2) 25.
Proof. exact rms_example. Qed.
