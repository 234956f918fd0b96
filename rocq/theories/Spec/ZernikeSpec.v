(** Noll's Zernike polynomials (Noll 1976), independently of the code. *)
From Coq Require Import ZArith Reals.
From Verif.Base Require Import Arr Sums.
From Verif.Spec Require Import MathSpec.
Open Scope Z_scope.

(** Noll index [j] belongs to radial order [n] and azimuthal order [m]. *)
Definition noll_index (j n m : Z) : Prop :=
  0 <= m <= n /\ Z.Even (n - m) /\
  ((m = 0 /\ j = n * (n + 1) / 2 + 1) \/
   (0 < m /\ (j = n * (n + 1) / 2 + m \/ j = n * (n + 1) / 2 + m + 1))).

Definition zfact (z : Z) : R := INR (fact (Z.to_nat z)).
Open Scope R_scope.
(** Coefficient of r^(n-2k) in the radial polynomial. *)
Definition radial_coef (n m k : Z) : R :=
  (-1) ^ Z.to_nat k * zfact (n - k) /
  (zfact k * zfact ((n + m) / 2 - k) * zfact ((n - m) / 2 - k)).
Definition radial (n m : Z) (r : R) : R :=
  rsum (fun k => radial_coef n m k * r ^ Z.to_nat (n - 2 * k)) ((n - m) / 2 + 1).
(** Noll mode [j] of orders (n, m) at polar coordinates (r, t): even indices are cosines, odd sines. *)
Definition noll_zernike (j n m : Z) (r t : R) : R :=
  if Z.eqb m 0 then sqrt (IZR n + 1) * radial n m r
  else if Z.even j then sqrt (2 * (IZR n + 1)) * radial n m r * cos (IZR m * t)
  else sqrt (2 * (IZR n + 1)) * radial n m r * sin (IZR m * t).

(** [Zf j x y] is the value of Noll mode [j] at the Cartesian point (x, y) for pupil radius [prad]. *)
Definition is_mode_fun (prad : R) (Zf : Z -> R -> R -> R) : Prop :=
  forall j n m x y rho th, noll_index j n m -> polar_of x y rho th ->
    Zf j x y = noll_zernike j n m (rho / prad) th.

(** Zernike modes on the pixel grid of a map, about the centre pixel shifted by (dx, dy). *)
Section Grid.
Variables (maxNoll : Z) (Zf : Z -> R -> R -> R) (dx dy : R) (wfe usable : arr R).
Definition mode_at (k r c : Z) : R :=
  Zf k (IZR (c - nc wfe / 2) - dx) (IZR (r - nr wfe / 2) - dy).
(** Combination of modes 1..maxNoll; [a k] is the coefficient of mode k+1. *)
Definition mode_comb (a : Z -> R) (r c : Z) : R := rsum (fun k => a k * mode_at (k + 1) r c) maxNoll.
Definition used (r c : Z) : Prop := in_arr usable r c /\ at2 usable r c <> 0.
Definition modes_independent : Prop :=
  forall a, (forall r c, used r c -> mode_comb a r c = 0) -> forall k, (0 <= k < maxNoll)%Z -> a k = 0.
(** Sum over the usable (non-zero) pixels. *)
Definition usable_sum (f : Z -> Z -> R) : R :=
  rsum2 (fun r c => if Req_EM_T (at2 usable r c) 0 then 0 else f r c) (nr usable) (nc usable).
End Grid.
