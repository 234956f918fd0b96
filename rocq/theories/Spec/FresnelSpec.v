(** Centred spectra and energies of complex fields. *)
From Coq Require Import ZArith Bool Reals.
From Coquelicot Require Import Complex.
From Verif.Base Require Import Arr Sums CSum.

(** Spectrum with both origins at pixel (nr/2, nc/2):
    sum_ij e_ij exp(-2 pi i ((i-i0)(k-k0)/nr + (j-j0)(l-l0)/nc)). *)
Definition spectrum (e : arr C) (k l : Z) : C :=
  csum2 (fun i j => at2 e i j * cis (- (2 * PI) *
      (IZR ((i - nr e / 2) * (k - nr e / 2)) / IZR (nr e) +
       IZR ((j - nc e / 2) * (l - nc e / 2)) / IZR (nc e))))%C (nr e) (nc e).
(** Total energy, the sum of |e|^2. *)
Definition energy (e : arr C) : R :=
  rsum2 (fun i j => fst (at2 e i j) ^ 2 + snd (at2 e i j) ^ 2)%R (nr e) (nc e).
(** The linear combination a e1 + b e2. *)
Definition lin_comb (a b : C) (e1 e2 : arr C) : arr C :=
  Arr (nr e1) (nc e1) (fun i j => a * at2 e1 i j + b * at2 e2 i j)%C.
(** exp(-i pi lam z R^2) at spatial frequency (k - n/2, l - n/2) * ppm / n cycles per metre. *)
Definition fresnel_transfer (lam z ppm : R) (n k l : Z) : C :=
  let fy := (IZR (k - n / 2) * ppm / IZR n)%R in
  let fx := (IZR (l - n / 2) * ppm / IZR n)%R in
  cis (- (PI * lam * z * (fx ^ 2 + fy ^ 2)))%R.
