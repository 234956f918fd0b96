(** Cross-correlations, their trigonometric interpolation, and image shifts, for the properties of psffit. *)
From Coq Require Import ZArith Bool List Reals.
From Coquelicot Require Import Complex.
From Verif.Base Require Import Py Arr Sums CSum.
Open Scope Z_scope.

(** The target [t] is [c] times the source [s] shifted circularly by [dy] rows down and [dx] columns right. *)
Definition circular_shift (s : arr R) (c : R) (dy dx : Z) (t : arr R) : Prop :=
  nr t = nr s /\ nc t = nc s /\
  forall i j, in_arr t i j -> at2 t i j = (c * at2 s ((i - dy) mod nr s) ((j - dx) mod nc s))%R.
(** The same with zeros moving in. *)
Definition zero_fill_shift (s : arr R) (c : R) (dy dx : Z) (t : arr R) : Prop :=
  nr t = nr s /\ nc t = nc s /\
  forall i j, in_arr t i j -> at2 t i j = (c * if in_arrb s (i - dy) (j - dx) then at2 s (i - dy) (j - dx) else 0)%R.
(** No flux leaves the frame when [s] is shifted. *)
Definition stays_in_frame (s : arr R) (dy dx : Z) : Prop :=
  forall i j, in_arr s i j -> ~ in_arr s (i + dy) (j + dx) -> at2 s i j = 0%R.

(** Discrete Fourier coefficient of a real image at integer frequencies (k, l). *)
Definition dft (s : arr R) (k l : Z) : C :=
  csum2 (fun i j => RtoC (at2 s i j) * cis (- 2 * PI * (IZR (i * k) / IZR (nr s) + IZR (j * l) / IZR (nc s))))%C (nr s) (nc s).
(** Representative of k modulo n in [-n/2, n/2). *)
Definition sfreq (n k : Z) : Z := (k + n / 2) mod n - n / 2.
(** Circular cross-correlation at whole-pixel lags. *)
Definition cross_corr (s t : arr R) (p q : Z) : R :=
  rsum2 (fun i j => at2 s ((i + p) mod nr s) ((j + q) mod nc s) * at2 t i j)%R (nr s) (nc s).
(** Its trigonometric interpolation (frequencies of smallest magnitude). *)
Definition trig_corr (s t : arr R) (y x : R) : C :=
  (csum2 (fun k l => dft s k l * Cconj (dft t k l) *
      cis (2 * PI * (IZR (sfreq (nr s) k) * y / IZR (nr s) + IZR (sfreq (nc s) l) * x / IZR (nc s))))
    (nr s) (nc s) / RtoC (IZR (nr s) * IZR (nc s)))%C.
(** The target is [c] times the source translated by the possibly fractional (dy, dx), in Fourier space. *)
Definition fourier_shift (s : arr R) (c dy dx : R) (t : arr R) : Prop :=
  nr t = nr s /\ nc t = nc s /\
  forall k l, in_arr s k l -> dft t k l = (RtoC c * dft s k l *
      cis (- (2 * PI * (IZR (sfreq (nr s) k) * dy / IZR (nr s) + IZR (sfreq (nc s) l) * dx / IZR (nc s)))))%C.
(** The source varies along both axes: two coefficients one row apart, and two one column apart, are not zero. *)
Definition varies (s : arr R) : Prop :=
  (exists k l, - (nr s / 2) <= k /\ k + 1 < nr s - nr s / 2 /\ dft s k l <> RtoC 0 /\ dft s (k + 1) l <> RtoC 0) /\
  (exists k l, - (nc s / 2) <= l /\ l + 1 < nc s - nc s / 2 /\ dft s k l <> RtoC 0 /\ dft s k (l + 1) <> RtoC 0).

(** (i, j) comes before (i', j') in row-major order. *)
Definition before (i j i' j' : Z) : Prop := i < i' \/ (i = i' /\ j < j').
(** (i, j) is the first place where [f] is largest on an n by m grid. *)
Definition first_max (f : Z -> Z -> R) (n m i j : Z) : Prop :=
  0 <= i < n /\ 0 <= j < m /\
  (forall i' j', 0 <= i' < n -> 0 <= j' < m -> (f i' j' <= f i j)%R) /\
  (forall i' j', 0 <= i' < n -> 0 <= j' < m -> before i' j' i j -> (f i' j' < f i j)%R).

(** Sum of squared residuals of the model c g over the pixels of t above a threshold. *)
Definition above (cut : R) (t : arr R) (i j : Z) : Prop := (cut < at2 t i j)%R.
Definition residual (cut : R) (t g : arr R) (c : R) : R :=
  rsum2 (fun i j => if Rlt_dec cut (at2 t i j) then ((at2 t i j - c * at2 g i j) ^ 2)%R else 0%R) (nr t) (nc t).
Definition is_max (a : arr R) (v : R) : Prop :=
  (exists i j, in_arr a i j /\ at2 a i j = v) /\ forall i j, in_arr a i j -> (at2 a i j <= v)%R.
(** Position p of the correlation, read as a signed lag in (-n/2, n/2]. *)
Definition lag (n p y : Z) : Prop := (exists k, y = p + n * k) /\ - n < 2 * y <= n.
