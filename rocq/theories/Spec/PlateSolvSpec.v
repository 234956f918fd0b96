(** Specification of the plate-scale search. *)
From Coq Require Import ZArith Bool List String Reals Permutation Sorted.
From Coquelicot Require Import Complex.
From Verif.Base Require Import Py Arr Sums CSum.
From Verif.Model Require Import Yaml.
From Verif.Spec Require Import FitsSpec MftSpec DarkHoleSpec.
Import ListNotations.
Open Scope string_scope.
Open Scope Z_scope.

(** The settings file gives relative half-width w, n trials, percentile p and step st of the fine grid. *)
Definition ps_params (consts : yval) (w n p st : R) : Prop :=
  has_real consts "ps_wid" w /\ has_real consts "n_trials" n /\ has_real consts "percentile_val" p /\
  has_real consts "interp_step_size" st.
(** The i-th trial scale around guess g, with relative half-width w and n trials. *)
Definition trial_scale (g w n : R) (i : Z) : R := (g * (1 - w) + 2 * g * w / n * IZR i)%R.
(** [T] is the guess image (scale g) brought to scale [pix] through the pupil plane. *)
Definition rescaled (guess : arr R) (g pix : R) (T : arr R) : Prop :=
  let P := IZR (Z.max (nr guess) (nc guess)) in
  exists F : arr C, nr F = nr guess /\ nc F = nc guess /\
    (forall u v, at2 F u v = fourier_sum 1 (amap RtoC guess) g P (nr guess) (nc guess) u v) /\
    nr T = nr guess /\ nc T = nc guess /\
    forall u v, at2 T u v = Re (fourier_sum (-1) F P pix (nr guess) (nc guess) u v).
(** [v] lies at p percent of the ascending list of the pixels, linearly interpolated. *)
Definition is_percentile (a : arr R) (p v : R) : Prop :=
  exists s k, Permutation (elements a) s /\ StronglySorted Rle s /\
    let pos := (p / 100 * (IZR (Z.of_nat (List.length s)) - 1))%R in
    let t := (pos - IZR k)%R in
    0 <= k /\ (0 <= t < 1)%R /\
    v = ((1 - t) * nth (Z.to_nat k) s 0 + t * nth (Z.to_nat (k + 1)) s 0)%R.
(** [r] is the standard deviation of the n by m values f. *)
Definition spread (f : Z -> Z -> R) (n m : Z) (r : R) : Prop :=
  let N := (IZR n * IZR m)%R in
  exists mean, (N * mean = rsum2 f n m)%R /\ (0 <= r)%R /\ (N * r ^ 2 = rsum2 (fun i j => (f i j - mean) ^ 2) n m)%R.
(** Residual of one trial: bring the trial image to the percentile of the recorded one, subtract, divide by the
    brightest pixel of the guess image. None stands for NaN. *)
Definition residual (img guess : arr R) (g p pix : R) (r : option R) : Prop :=
  exists T mv tv gm, rescaled guess g pix T /\ is_percentile img p mv /\ is_percentile T p tv /\ is_max guess gm /\
    match r with
    | None => tv = 0%R \/ gm = 0%R
    | Some r => tv <> 0%R /\ gm <> 0%R /\ spread (fun i j => (at2 T i j * (mv / tv) - at2 img i j) / gm)%R (nr img) (nc img) r
    end.
(** Fine grid: lo, lo + st, ... below hi. *)
Definition on_grid (lo hi st x : R) : Prop := exists k, 0 <= k /\ x = (lo + IZR k * st)%R /\ (x < hi)%R.
Definition least_of (l : list R) (m : R) : Prop := In m l /\ forall x, In x l -> (m <= x)%R.
Definition most_of (l : list R) (m : R) : Prop := In m l /\ forall x, In x l -> (x <= m)%R.

(** What is used of the cubic spline. *)
Definition passes_knots (spline : list R -> list R -> R -> R) : Prop :=
  forall xs ys i, NoDup xs -> List.length ys = List.length xs -> (4 <= List.length xs)%nat -> (i < List.length xs)%nat ->
    spline xs ys (nth i xs 0%R) = nth i ys 0%R.
Definition homogeneous (spline : list R -> list R -> R -> R) : Prop :=
  forall k xs ys x, spline xs (map (Rmult k) ys) x = (k * spline xs ys x)%R.
