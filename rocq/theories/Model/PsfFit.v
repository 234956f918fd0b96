(** Model of coralign/psffit/psffit.py for 2-D real images. Arithmetic is exact; scipy.ndimage.shift is a
    parameter. Images are numpy arrays: a list passes the type checks (237, 240) and fails at .shape (264). *)
From Coq Require Import ZArith Bool List String Reals.
From Flocq Require Import Core.
From Coquelicot Require Import Complex.
From Verif.Base Require Import Py Arr Sums CSum Fft.
From Verif.Model Require Import Yaml.
Import ListNotations.
Open Scope string_scope.
Open Scope Z_scope.

(** numpy.fft.fftfreq(n, d)[k] = freq_index n k / (n d). *)
Definition freq_index (n k : Z) : Z := if k <? (n - 1) / 2 + 1 then k else k - n.
Definition fftfreq (n : Z) (d : R) (k : Z) : R := (IZR (freq_index n k) * (1 / (IZR n * d)))%R.

(** numpy.unravel_index(numpy.argmax(a), a.shape): first maximum in row-major order; argmax of an empty array
    raises ValueError. *)
Definition arg_step (f : Z * Z -> R) (b q : Z * Z) : Z * Z := if Rlt_dec (f b) (f q) then q else b.
Definition argmax2 (a : arr R) : res (Z * Z) :=
  match indices (nr a) (nc a) with
  | [] => Err ValueError
  | p :: l => Ok (fold_left (arg_step (fun q => at2 a (fst q) (snd q))) l p)
  end.

(** psffit.py:73-75: the kernel matrix of one axis. *)
Definition ups_kernel (n_items : Z) (upsample_factor ax_offset : R) (a k : Z) : C :=
  cis (- 2 * PI * ((IZR a - ax_offset) * fftfreq n_items upsample_factor k)).
(** psffit.py:72-76: the loop over the axes, last one first; tensordot(kernel, image, (1, -1)) contracts the last
    axis and puts the new one first. *)
Definition tensordot (kernel : Z -> Z -> C) (ups_size : Z) (im : arr C) : arr C :=
  Arr (Z.max 0 ups_size) (nr im) (fun a r => csum (fun k => kernel a k * at2 im r k)%C (nc im)).
(** psffit.py:26-77, 197-232 with the region size as one integer (expanded in 60-61) and one offset per axis.
    Types are those the checks accept. A zero upsample_factor divides by zero (fftfreq). *)
Definition compute_upsampled_dft (image_dft : arr C) (region : Z) (upsample_factor off_y off_x : R) : res (arr C) :=
  check (if Req_EM_T upsample_factor 0 then false else true) else ZeroDivisionError;
  check nonempty image_dft else ZeroDivisionError;                     (* 74: fftfreq(0, d) *)
  let im1 := tensordot (ups_kernel (nc image_dft) upsample_factor off_x) region image_dft in
  Ok (tensordot (ups_kernel (nr image_dft) upsample_factor off_y) region im1).

Record psf_config := { upsample_factor : R; pad_factor : R; amp_thresh : R }.
(** isinstance(v, (float, int)): booleans are ints. *)
Definition number (v : yval) : option R :=
  match v with
  | YReal r => Some r
  | YInt z => Some (IZR z)
  | YBool b => Some (if b then 1 else 0)%R
  | _ => None
  end.
(** [k in v] for a parsed YAML value: a key of a dictionary, an element of a list or a part of a string. *)
Definition has_key (v : yval) (k : string) : res bool :=
  match v with
  | YDict d => Ok (match assoc k d with Some _ => true | None => false end)
  | YList l => Ok (existsb (fun x => match x with YStr s => String.eqb s k | _ => false end) l)
  | YStr s => Ok (match String.index 0 k s with Some _ => true | None => false end)
  | _ => Err TypeError
  end.
(** psffit.py:242-261 and 122-123, 152, 179 on the loaded YAML value. *)
Definition need_number (v : yval) (k : string) : res R :=
  do x <- item v k;
  match number x with Some r => Ok r | None => Err TypeError end.
Definition read_config (v : yval) : res psf_config :=
  do b <- has_key v "upsample_factor"; check b else ValueError;                 (* 246-247 *)
  do b <- has_key v "pad_factor"; check b else ValueError;                      (* 248-249 *)
  do b <- has_key v "amp_thresh"; check b else ValueError;                      (* 250-251 *)
  do u <- need_number v "upsample_factor";                                      (* 253-254 *)
  do p <- need_number v "pad_factor";                                           (* 256-257 *)
  do t <- need_number v "amp_thresh";                                           (* 259-260 *)
  Ok {| upsample_factor := u; pad_factor := p; amp_thresh := t |}.

(** psffit.py:136-141 for one axis: indices above fix(n/2) are negative shifts. *)
Definition wrap_shift (n p : Z) : Z := if n / 2 <? p then p - n else p.

Definition rmax_list (l : list R) (d : R) : R := fold_right Rmax d l.
(** numpy.amax of a non-empty array. *)
Definition amax (a : arr R) : R := rmax_list (elements a) (at2 a 0 0).
Definition dot (l l' : list R) : R := fold_right Rplus 0%R (map (fun p => fst p * snd p)%R (List.combine l l')).

(** psffit.py:125-172: the shift of the peak of the cross-correlation (before the sign change in 192). *)
Definition peak_shift (src tgt : arr R) (u pad : R) : res (R * R) :=
  do src_freq <- fft2 (amap RtoC src);                                          (* 126 *)
  do target_freq <- fft2 (amap RtoC tgt);                                       (* 127 *)
  let image_product := amap2 (fun a b => a * Cconj b)%C src_freq target_freq in (* 130 *)
  do cc <- ifft2 image_product;                                                 (* 131 *)
  do mx <- argmax2 (amap Cmod cc);                                              (* 134 *)
  let sy := IZR (wrap_shift (nr src) (fst mx)) in                               (* 136-141 *)
  let sx := IZR (wrap_shift (nc src) (snd mx)) in
  if Req_EM_T u 1 then Ok (sy, sx) else                                         (* 145 *)
  let region := Zceil (u * pad) in                                              (* 151 *)
  check 0 <? region else ValueError;            (* 169: argmax of an empty array; covers u = 0 in 148 and 161 *)
  let sy := (IZR (ZnearestE (sy * u)) / u)%R in                                 (* 148 *)
  let sx := (IZR (ZnearestE (sx * u)) / u)%R in
  let dftshift := region / 2 in                                                 (* 155 *)
  let normalization := (IZR (nr src * nc src) * u ^ 2)%R in                     (* 157 *)
  do up <- compute_upsampled_dft (amap Cconj image_product) region u
             (IZR dftshift - sy * u) (IZR dftshift - sx * u);                   (* 160-164 *)
  let cc := amap (fun z => Cconj z / RtoC normalization)%C up in                (* 164-166 *)
  do mx <- argmax2 (amap Cmod cc);                                              (* 169 *)
  Ok (sy + IZR (fst mx - dftshift) / u, sx + IZR (snd mx - dftshift) / u)%R.    (* 171-172 *)

(** psffit.py:177-188. None is NaN: 0/0 when the guess vanishes on the pixels used. *)
Definition amplitude_ratio (tgt guess : arr R) (thresh : R) : option R :=
  let cut := (thresh * amax tgt)%R in                                           (* 179 *)
  let threshmap := amap (fun v => if Rlt_dec cut v then true else false) tgt in
  let tvec := select threshmap tgt in                                           (* 186 *)
  let gvec := select threshmap guess in                                         (* 187 *)
  if Req_EM_T (dot gvec gvec) 0 then None else Some (dot gvec tvec / dot gvec gvec)%R.   (* 188 *)

(** psffit.py:80-194. [shift] is scipy.ndimage.shift(image, (dy, dx)). *)
Definition psffit (shift : arr R -> R -> R -> arr R) (src tgt : arr R) (config : yval) : res ((R * R) * option R) :=
  do cfg <- read_config config;                                                 (* 119, 122 *)
  check same_shape src tgt else ValueError;                                     (* 264 *)
  do sh <- peak_shift src tgt (upsample_factor cfg) (pad_factor cfg);
  let guess := shift src (- fst sh)%R (- snd sh)%R in                           (* 175 *)
  Ok ((- fst sh, - snd sh)%R, amplitude_ratio tgt guess (amp_thresh cfg)).      (* 192-194 *)
