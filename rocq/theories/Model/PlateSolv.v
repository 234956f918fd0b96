(** Model of coralign/platesolv/platesolv.py. *)
From Coq Require Import ZArith Bool List String Reals.
From Flocq Require Import Core.Raux.
From Coquelicot Require Import Complex.
From Verif.Base Require Import Py Arr Vec Sums CSum F64.
From Verif.Model Require Import Fits Fresnel Mft Yaml GainMap PsfFit.
Import ListNotations.
Open Scope string_scope.
Open Scope Z_scope.

Definition ps_error : exn := Custom "PlateSolvException".
(** A YAML value used in arithmetic with floats. *)
Definition number (v : yval) : res R :=
  match v with
  | YInt z => Ok (IZR z)
  | YReal r => Ok r
  | YBool b => Ok (if b then 1%R else 0%R)
  | _ => Err TypeError
  end.
(** numpy.arange(a, b, s) in exact arithmetic; [zero] is what a zero step raises. *)
Definition arange (zero : exn) (a b s : R) : res (list R) :=
  if Req_EM_T s 0 then Err zero else Ok (map (fun i => a + IZR i * s)%R (zrange (Zceil ((b - a) / s)))).
(** numpy.percentile of a non-empty array, linear interpolation. *)
Definition percentile (l : list R) (p : R) : res R :=
  check Rleb 0 p && Rleb p 100 else ValueError;
  let s := npsort l in
  let v := (p / 100 * (IZR (len l) - 1))%R in
  let k := Zfloor v in
  Ok (nthR s k + (nthR s (Z.min (k + 1) (len l - 1)) - nthR s k) * (v - IZR k))%R.
Definition mean2 (a : arr R) : R := (rsum2 (at2 a) (nr a) (nc a) / (IZR (nr a) * IZR (nc a)))%R.
(** numpy.std *)
Definition std (a : arr R) : R := sqrt (mean2 (amap (fun v => (v - mean2 a) ^ 2)%R a)).
Definition rmin_list (l : list R) (d : R) : R := fold_right Rmin d l.

(** platesolv.py:124-143, one trial. None is NaN: the percentile of the trial image or the maximum of the guess is
    zero, every pixel of the residual image is infinite or NaN, and so is its standard deviation. *)
Definition trial_residual (img guess : arr R) (imft : arr C) (pp : R) (pv : yval) (pix : R) : res (option R) :=
  do t <- do_mft imft [nr guess; nc guess] pix pp;                          (* 127 *)
  let trial := amap Re t in
  do p <- number pv;
  do mv <- percentile (elements img) p;                                     (* 132 *)
  do tv <- percentile (elements trial) p;                                   (* 133 *)
  let g := amax guess in
  Ok (if Req_EM_T tv 0 then None else if Req_EM_T g 0 then None
      else Some (std (amap2 (fun x y => (x * (mv / tv) - y) / g)%R trial img))).     (* 133-142 *)
Fixpoint residuals (f : R -> res (option R)) (l : list R) : res (list (option R)) :=
  match l with
  | [] => Ok []
  | x :: l' => do r <- f x; do rs <- residuals f l'; Ok (r :: rs)
  end.
(** All values, unless one of them is NaN. *)
Fixpoint all_finite (l : list (option R)) : option (list R) :=
  match l with
  | [] => Some []
  | Some v :: l' => match all_finite l' with Some r => Some (v :: r) | None => None end
  | None :: _ => None
  end.
(** scipy.interpolate.interp1d(x, y, kind='cubic')(x0) within the range of x, for finite y. One NaN in y makes every
    value NaN (scipy says so in a comment), and then no value equals the minimum. *)
Definition spline_fun := list R -> list R -> R -> R.

(** platesolv.py:20-154. Images are real; [consts] is what loadyaml returned. *)
Definition platesolv (spline : spline_fun) (img guess : arr R) (pixper : R) (consts : yval)
  : res (list R * list R * list (option R)) :=
  check pos_real pixper else ps_error;                                      (* 78 *)
  check same_shape img guess else ps_error;                                 (* 81 *)
  do b1 <- has_key consts "ps_wid"; check b1 else ps_error;                 (* 91-98 *)
  do b2 <- has_key consts "n_trials"; check b2 else ps_error;
  do b3 <- has_key consts "percentile_val"; check b3 else ps_error;
  do b4 <- has_key consts "interp_step_size"; check b4 else ps_error;
  do w_ <- item consts "ps_wid"; do w <- number w_;                         (* 102 *)
  let wid := (pixper * w)%R in
  do n_ <- item consts "n_trials"; do n <- number n_;                       (* 105 *)
  check negb (if Req_EM_T n 0 then true else false) else ZeroDivisionError; (* 110 *)
  do pix <- arange ZeroDivisionError (pixper - wid) (pixper + wid) (wid / (n / 2));   (* 108-110 *)
  let pp := IZR (Z.max (nr guess) (nc guess)) in                            (* 114 *)
  do imft <- do_imft (amap RtoC guess) [nr guess; nc guess] pixper pp;      (* 117 *)
  do pv <- item consts "percentile_val";
  do rs <- residuals (trial_residual img guess imft pp pv) pix;             (* 124-143 *)
  match pix with
  | [] => Err ValueError                                                    (* 146: amin of an empty array *)
  | x0 :: _ =>
      do st_ <- item consts "interp_step_size"; do st <- number st_;
      do grid <- arange ValueError (rmin_list pix x0) (rmax_list pix x0) st;   (* 146 *)
      check 4 <=? len pix else ValueError;                                  (* 148 *)
      match grid with
      | [] => Err ValueError                                                (* 152: amin of an empty array *)
      | g0 :: _ =>
          match all_finite rs with
          | None => Ok ([], pix, rs)
          | Some ys =>
              let f := spline pix ys in
              let m := rmin_list (map f grid) (f g0) in                     (* 152 *)
              Ok (filter (fun x => if Req_EM_T (f x) m then true else false) grid, pix, rs)
          end
      end
  end.

(** platesolv.py:102-110 in binary64: numpy.arange takes ceil((stop - start) / step) values, writes start and
    start + step, and fills the rest with start + i * delta, delta being the difference of the first two. *)
Definition trials_f64 (g w n : f64) : list f64 :=
  let wid := fmul g w in                                                    (* 102 *)
  let start := fsub g wid in                                                (* 108 *)
  let stop := fadd g wid in                                                 (* 109 *)
  let step := fdiv wid (fdiv n (fofZ 2)) in                                 (* 110 *)
  let delta := fsub (fadd start step) start in
  map (fun i => if i =? 0 then start else if i =? 1 then fadd start step else fadd start (fmul (fofZ i) delta))
      (zrange (Zceil (fval (fdiv (fsub stop start) step)))).
