(** The Fourier integral that the matrix Fourier transform discretises. *)
From Coq Require Import ZArith Bool Reals.
From Coquelicot Require Import Complex.
From Verif.Base Require Import Arr Sums CSum.

(** Riemann sum, with sign [s], of field [e] sampled at [din] per unit, evaluated at pixel (u,v) of an
    h x w array sampled at [dout] per unit. Coordinates are 0 at pixel n/2 of each axis. *)
Definition fourier_sum (s : R) (e : arr C) (din dout : R) (h w u v : Z) : C :=
  (csum2 (fun i j => at2 e i j *
      cis (s * 2 * PI * (IZR (u - h / 2) / dout * (IZR (i - nr e / 2) / din) +
                         IZR (v - w / 2) / dout * (IZR (j - nc e / 2) / din)))) (nr e) (nc e)
   * RtoC (/ din ^ 2))%C.
(** [e] placed with its first pixel at (y0, x0) of an H x W array of zeros. *)
Definition embed (e : arr C) (H W y0 x0 : Z) : arr C :=
  Arr H W (fun i j => if in_arrb e (i - y0) (j - x0) then at2 e (i - y0)%Z (j - x0)%Z else RtoC 0).
