(** Model of coralign/psffit/psffit.py for images with bad pixels: [None] is nan, real or complex. Arithmetic on the other
    values is exact, as in PsfFit.v; infinities are not modelled. An operation with a nan operand gives nan. A complex number
    with a nan part is nan: numpy.abs of it is nan. *)
From Coq Require Import ZArith Bool List String Reals.
From Flocq Require Import Core.
From Coquelicot Require Import Complex.
From Verif.Base Require Import Py Arr Sums CSum Fft.
From Verif.Model Require Import Yaml PsfFit.
Import ListNotations.
Open Scope Z_scope.

Definition omap {A B} (f : A -> B) (x : option A) : option B := match x with Some v => Some (f v) | None => None end.
Definition omap2 {A B D} (f : A -> B -> D) (x : option A) (y : option B) : option D :=
  match x, y with Some v, Some w => Some (f v w) | _, _ => None end.
Definition isnan {A} (x : option A) : bool := match x with None => true | Some _ => false end.
(** numpy.isnan(a).any() *)
Definition has_nan {A} (a : arr (option A)) : bool := existsb isnan (elements a).
(** The values of an array without nan. *)
Definition known {A} (d : A) (a : arr (option A)) : arr A := amap (fun x => match x with Some v => v | None => d end) a.
(** A linear transform whose every output depends on every input (fftn, ifftn, the matrix products of lines 72-76): one nan
    in, all outputs nan; the shape and the exceptions do not depend on the values. *)
Definition mixes (f : arr C -> res (arr C)) (a : arr (option C)) : res (arr (option C)) :=
  do r <- f (known (RtoC 0) a);
  Ok (if has_nan a then amap (fun _ => None) r else amap Some r).

(** numpy.argmax: the first nan if there is one (numpy treats nan as largest), else the first maximum. *)
Definition argmax2_n (a : arr (option R)) : res (Z * Z) :=
  match filter (fun p => isnan (at2 a (fst p) (snd p))) (indices (nr a) (nc a)) with
  | p :: _ => Ok p
  | [] => argmax2 (known 0%R a)
  end.

(** psffit.py:125-172. *)
Definition peak_shift_n (src tgt : arr (option R)) (u pad : R) : res (R * R) :=
  do src_freq <- mixes fft2 (amap (omap RtoC) src);                             (* 126 *)
  do target_freq <- mixes fft2 (amap (omap RtoC) tgt);                          (* 127 *)
  let image_product := amap2 (omap2 (fun a b => a * Cconj b)%C) src_freq target_freq in (* 130 *)
  do cc <- mixes ifft2 image_product;                                           (* 131 *)
  do mx <- argmax2_n (amap (omap Cmod) cc);                                     (* 134 *)
  let sy := IZR (wrap_shift (nr src) (fst mx)) in                               (* 136-141 *)
  let sx := IZR (wrap_shift (nc src) (snd mx)) in
  if Req_EM_T u 1 then Ok (sy, sx) else                                         (* 145 *)
  let region := Zceil (u * pad) in                                              (* 151 *)
  check 0 <? region else ValueError;                                            (* 169 *)
  let sy := (IZR (ZnearestE (sy * u)) / u)%R in                                 (* 148 *)
  let sx := (IZR (ZnearestE (sx * u)) / u)%R in
  let dftshift := region / 2 in                                                 (* 155 *)
  let normalization := (IZR (nr src * nc src) * u ^ 2)%R in                     (* 157 *)
  do up <- mixes (fun im => compute_upsampled_dft im region u (IZR dftshift - sy * u) (IZR dftshift - sx * u))
             (amap (omap Cconj) image_product);                                 (* 160-164 *)
  let cc := amap (omap (fun z => Cconj z / RtoC normalization)%C) up in         (* 164-166 *)
  do mx <- argmax2_n (amap (omap Cmod) cc);                                     (* 169 *)
  Ok (sy + IZR (fst mx - dftshift) / u, sx + IZR (snd mx - dftshift) / u)%R.    (* 171-172 *)

(** psffit.py:177-188. numpy.amax of an array with a nan is nan; comparisons with nan are false; the products over an empty
    selection are 0.0, and 0/0 is nan. *)
Definition odot (l l' : list (option R)) : option R :=
  fold_right (omap2 Rplus) (Some 0%R) (map (fun p => omap2 Rmult (fst p) (snd p)) (List.combine l l')).
Definition amplitude_ratio_n (tgt guess : arr (option R)) (thresh : R) : option R :=
  let cut := if has_nan tgt then None else Some (thresh * amax (known 0 tgt))%R in          (* 179 *)
  let gt v := match v, cut with Some x, Some c => if Rlt_dec c x then true else false | _, _ => false end in
  let threshmap := amap gt tgt in                                               (* 178 *)
  let tvec := select threshmap tgt in                                           (* 186 *)
  let gvec := select threshmap guess in                                         (* 187 *)
  match odot gvec tvec, odot gvec gvec with
  | Some a, Some b => if Req_EM_T b 0 then None else Some (a / b)%R             (* 188 *)
  | _, _ => None
  end.

(** psffit.py:80-194. [shift] is scipy.ndimage.shift(image, (dy, dx)). *)
Definition psffit_n (shift : arr (option R) -> R -> R -> arr (option R)) (src tgt : arr (option R)) (config : yval)
    : res ((R * R) * option R) :=
  do cfg <- read_config config;                                                 (* 119, 122 *)
  check same_shape src tgt else ValueError;                                     (* 264 *)
  do sh <- peak_shift_n src tgt (upsample_factor cfg) (pad_factor cfg);
  let guess := shift src (- fst sh)%R (- snd sh)%R in                           (* 175 *)
  Ok ((- fst sh, - snd sh)%R, amplitude_ratio_n tgt guess (amp_thresh cfg)).    (* 192-194 *)
