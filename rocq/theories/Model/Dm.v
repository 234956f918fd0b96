(** Model of coralign/util/dmhtoph.py, fit_surf_to_dm.py and dmshapes.py. *)
From Coq Require Import ZArith Bool List Reals String.
From Flocq Require Import Core.
From Verif.Base Require Import Py Arr Vec Sums.
From Verif.Model Require Import PadCrop Fresnel Noll.
Import ListNotations.
Open Scope Z_scope.

(** ** dmhtoph.py *)

(** dmhtoph.py:171-199. Division by a zero gain (numpy: inf or nan) is not modelled: Coq's x/0 appears. *)
Definition dmh_to_volts (gainmap dmh : arr R) (lam : R) : res (arr R) :=
  check pos_real lam else TypeError;                                        (* 194 *)
  check same_shape dmh gainmap else TypeError;                              (* 195 *)
  Ok (amap2 (fun h g => h * lam / (2 * PI) / g)%R dmh gainmap).             (* 199 *)
(** dmhtoph.py:202-230 *)
Definition volts_to_dmh (gainmap volts : arr R) (lam : R) : res (arr R) :=
  check pos_real lam else TypeError;                                        (* 225 *)
  check same_shape volts gainmap else TypeError;                            (* 226 *)
  Ok (amap2 (fun v g => v / lam * (2 * PI) * g)%R volts gainmap).           (* 230 *)

(** dmhtoph.py:123-124: the sparse poke array. *)
Definition poke_array (nact ppact_d : Z) (dmin : arr R) : res (arr R) :=
  let n := (nact - 1) * ppact_d + 1 in
  set_strided (afull n n 0%R) 0 ppact_d 0 ppact_d dmin.

(** scipy.signal.convolve(a, k, mode='full') *)
Definition convolve_full (a k : arr R) : arr R :=
  Arr (nr a + nr k - 1) (nc a + nc k - 1)
      (fun i j => rsum2 (fun p q => at2 k p q * at0 a (i - p) (j - q))%R (nr k) (nc k)).

(** scipy routines used by dmhtoph. [sp_interp n ppd a] is the interpolating spline of the n x n samples
    [a] at the coordinates of line 131 (row coordinate first); [sp_rotate a t] is
    scipy.ndimage.rotate(a, t, reshape=False); [sp_shift a dy dx] is scipy.ndimage.shift(a, [dy, dx]). *)
Record scipy_ops := ScipyOps {
  sp_interp : Z -> Z -> arr R -> R -> R -> R;
  sp_rotate : arr R -> R -> arr R;
  sp_shift : arr R -> R -> R -> arr R }.

(** dmhtoph.py:131: coordinate of sample k. *)
Definition node (npix ppact_d k : Z) : R := ((IZR k - (IZR npix - 1) / 2) / IZR ppact_d)%R.
Definition fliplr {A} (a : arr A) : arr A := Arr (nr a) (nc a) (fun i j => at2 a i (nc a - 1 - j)).
(** dmhtoph.py:136-141 *)
Definition nxyres (nact N ppact_d : Z) (cx cy : R) : Z :=
  let n := Zceil (sqrt 2 * (IZR nact + IZR N / IZR ppact_d) * Rmax cx cy)%R in
  if n mod 2 =? 0 then n + 1 else n.
(** dmhtoph.py:145-158 *)
Definition resampled (ops : scipy_ops) (npix ppact_d nx : Z) (cx cy : R) (carr0 : arr R) : arr R :=
  let lo := node npix ppact_d 0 in
  let hi := node npix ppact_d (npix - 1) in
  Arr nx nx (fun r c =>
    let X := (IZR (c - nx / 2) / cx)%R in
    let Y := (IZR (r - nx / 2) / cy)%R in
    if Rle_dec lo X then if Rle_dec X hi then if Rle_dec lo Y then if Rle_dec Y hi
    then sp_interp ops npix ppact_d carr0 Y X else 0%R else 0%R else 0%R else 0%R).

(** dmhtoph.py:14-167. The cubic spline needs at least 4 samples per axis (fitpack raises otherwise). *)
Definition dmhtoph (ops : scipy_ops) (nrow ncol : Z) (dmin : arr R) (nact : Z) (inf_func : arr R)
    (ppact_d : Z) (ppact_cx ppact_cy dx dy thact : R) (flipx : bool) : res (arr R) :=
  check 0 <? nrow else TypeError;                                           (* 95 *)
  check 0 <? ncol else TypeError;
  check 0 <? nact else TypeError;
  check 0 <? ppact_d else TypeError;
  check pos_real ppact_cx else TypeError;
  check pos_real ppact_cy else TypeError;
  check (nr inf_func <? nact * ppact_d) && (nc inf_func <? nact * ppact_d) else TypeError;   (* 110 *)
  check (nr dmin =? nact) && (nc dmin =? nact) else TypeError;              (* 112 *)
  check (if Rlt_dec (IZR ppact_d) ppact_cx then false else
         if Rlt_dec (IZR ppact_d) ppact_cy then false else true) else TypeError;   (* 114 *)
  check nr inf_func =? nc inf_func else TypeError;                          (* 117 *)
  check nr inf_func mod 2 =? 1 else TypeError;                              (* 119 *)
  do arr0 <- poke_array nact ppact_d dmin;                                  (* 123-124 *)
  let carr0 := convolve_full arr0 inf_func in                               (* 126 *)
  let npix := nr carr0 in                                                   (* 127 *)
  check 4 <=? npix else Custom "fitpack";                                   (* 132 *)
  let nx := nxyres nact (nr inf_func) ppact_d ppact_cx ppact_cy in
  let s0 := resampled ops npix ppact_d nx ppact_cx ppact_cy carr0 in
  let s0 := if flipx then fliplr s0 else s0 in                              (* 161-162 *)
  let surface := sp_shift ops (sp_rotate ops s0 (- thact)) dy dx in         (* 164-165 *)
  pad_crop surface [nrow; ncol] 0%R.                                        (* 167 *)

(** ** fit_surf_to_dm.py *)

(** scipy.ndimage.convolve(a, k, mode='constant', cval=0): the centre of an axis of length s is s//2. *)
Definition convolve_same (a k : arr R) : arr R :=
  Arr (nr a) (nc a) (fun i j =>
    rsum2 (fun p q => at2 k p q * at0 a (i - p + nr k / 2) (j - q + nc k / 2))%R (nr k) (nc k)).

(** [spline2 n m din a] is RectBivariateSpline on the centred grids of lines 138-139. *)
Definition spline2_fun := R -> arr R -> R -> R -> R.
(** fit_surf_to_dm.py:143-144 *)
Definition resampled_size (n0 : Z) (ppa_in ppa_out : R) : Z :=
  2 * Zfloor (/ 2 * IZR n0 * ppa_out / ppa_in)%R + 1.
(** fit_surf_to_dm.py:108-153 *)
Definition resample_inf_func (spline2 : spline2_fun) (inf_func : arr R) (ppa_in ppa_out : R) : res (arr R) :=
  check pos_real ppa_in else TypeError;                                     (* 132 *)
  check pos_real ppa_out else TypeError;                                    (* 133 *)
  if Req_EM_T ppa_in ppa_out then Ok inf_func else                          (* 135, 151 *)
  check (4 <=? nr inf_func) && (4 <=? nc inf_func) else Custom "fitpack";   (* 148 *)
  let nr1 := resampled_size (nr inf_func) ppa_in ppa_out in                 (* 143 *)
  let nc1 := resampled_size (nc inf_func) ppa_in ppa_out in                 (* 144 *)
  Ok (Arr nr1 nc1 (fun i j =>                                               (* 146-149 *)
    spline2 ppa_in inf_func ((IZR i - (IZR nr1 - 1) / 2) / ppa_out)%R
                            ((IZR j - (IZR nc1 - 1) / 2) / ppa_out)%R)).

(** A square matrix over flattened actuator indices. *)
Record smat := Smat { sdim : Z; sat : Z -> Z -> R }.
Definition unit_poke (nrow ncol j : Z) : arr R :=
  Arr nrow ncol (fun r c => if r * ncol + c =? j then 1%R else 0%R).        (* ravel()[j] = 1 *)
(** fit_surf_to_dm.py:48-105: row j is the raveled response to poking actuator j. *)
Definition build_prefilter (spline2 : spline2_fun) (nrow ncol : Z) (inf_func : arr R) (ppa_in : R) : res smat :=
  check 0 <? nrow else TypeError;                                           (* 82 *)
  check 0 <? ncol else TypeError;                                           (* 83 *)
  check pos_real ppa_in else TypeError;                                     (* 85 *)
  do k <- resample_inf_func spline2 inf_func ppa_in 1;                      (* 92-93 *)
  Ok (Smat (nrow * ncol) (fun j p =>
    at2 (convolve_same (unit_poke nrow ncol j) k) (p / ncol) (p mod ncol))).   (* 97-103 *)

(** scipy.sparse.linalg.spsolve(A, b) *)
Definition spsolve_fun := Z -> (Z -> Z -> R) -> (Z -> R) -> Z -> R.
(** fit_surf_to_dm.py:12-45 *)
Definition fit_surf_to_dm (spsolve : spsolve_fun) (surf : arr R) (act_effect : smat) : res (arr R) :=
  check sdim act_effect =? nr surf * nc surf else TypeError;                (* 40 *)
  let x := spsolve (sdim act_effect) (sat act_effect)
             (fun p => at2 surf (p / nc surf) (p mod nc surf)) in           (* 44 *)
  Ok (Arr (nr surf) (nc surf) (fun r c => x (r * nc surf + c)%Z)).          (* 45 *)

(** ** dmshapes.py *)

(** numpy.sinc *)
Definition np_sinc (x : R) : R := if Req_EM_T x 0 then 1%R else (sin (PI * x) / (PI * x))%R.

(** dmshapes.py:10-97 *)
Definition probe (nact : Z) (dact xcenter ycenter clock height ximin ximax etamin etamax phase : R)
    : res (arr R) :=
  check 0 <? nact else TypeError;                                           (* 62 *)
  check pos_real dact else TypeError;                                       (* 63 *)
  check pos_real height else TypeError;                                     (* 67 *)
  check (if Rle_dec ximax ximin then false else true) else ValueError;      (* 73 *)
  check (if Rle_dec etamax etamin then false else true) else ValueError;    (* 75 *)
  let rclock := (clock * PI / 180)%R in                                     (* 81 *)
  let wx := (dact / (ximax - ximin))%R in                                   (* 87 *)
  let wy := (dact / (etamax - etamin))%R in                                 (* 88 *)
  let fx := ((ximin + ximax) / 2)%R in                                      (* 89 *)
  let fy := ((etamin + etamax) / 2)%R in                                    (* 90 *)
  Ok (Arr nact nact (fun r c =>
    let xx0 := (IZR c - (IZR nact - 1) / 2 - xcenter)%R in                  (* 79 *)
    let yy0 := (IZR r - (IZR nact - 1) / 2 - ycenter)%R in                  (* 80 *)
    let xx := (xx0 * cos rclock - yy0 * sin rclock)%R in                    (* 82 *)
    let yy := (xx0 * sin rclock + yy0 * cos rclock)%R in                    (* 83 *)
    let ddm := (height * np_sinc (xx / wx) * np_sinc (yy / wy))%R in        (* 92 *)
    let ddm := (ddm / (wx * wy))%R in                                       (* 94 *)
    (ddm * (2 * sin (2 * PI * (xx * fx + yy * fy) / dact + phase * PI / 180)))%R)).   (* 96 *)

(** dmshapes.py:100-137 *)
Definition sine (nact : Z) (dact amplitude phase freqx freqy : R) : res (arr R) :=
  check 0 <? nact else TypeError;                                           (* 123 *)
  check pos_real dact else TypeError;                                       (* 124 *)
  check pos_real amplitude else TypeError;                                  (* 125 *)
  Ok (Arr nact nact (fun r c =>
    let xx := (IZR c - (IZR nact - 1) / 2)%R in                             (* 131 *)
    let yy := (IZR r - (IZR nact - 1) / 2)%R in                             (* 132 *)
    let sphase := (2 * PI * (xx * freqx + yy * freqy) / dact)%R in          (* 135 *)
    (amplitude * sin (sphase + phase * PI / 180))%R)).                      (* 136 *)

(** dmshapes.py:140-217 *)
Definition grid (nact xspace yspace xoffset yoffset : Z) (pokesize : R) : res (arr R) :=
  check 0 <? nact else TypeError;                                           (* 198 *)
  check 0 <? xspace else TypeError;
  check 0 <? yspace else TypeError;
  check 0 <=? xoffset else TypeError;
  check 0 <=? yoffset else TypeError;
  check negb (xspace <=? xoffset) else ValueError;                          (* 205 *)
  check negb (yspace <=? yoffset) else ValueError;                          (* 207 *)
  check negb (nact <? xspace) else ValueError;                              (* 209 *)
  check negb (nact <? yspace) else ValueError;                              (* 211 *)
  Ok (upd_strided (afull nact nact 0%R) yoffset yspace xoffset xspace (fun v => v + pokesize)%R).   (* 215-216 *)

(** dmshapes.py:220-253 *)
Definition dm_zernike (nact : Z) (dact zernsize : R) (order : Z) : res (arr R) :=
  check 0 <? nact else TypeError;                                           (* 244 *)
  check pos_real dact else TypeError;                                       (* 245 *)
  check 0 <? order else TypeError;                                          (* 247 *)
  let xx := Arr nact nact (fun _ c => IZR c - (IZR nact - 1) / 2)%R in      (* 250 *)
  let yy := Arr nact nact (fun r _ => IZR r - (IZR nact - 1) / 2)%R in
  do cube <- xyzern xx yy (dact / 2)%R [order];                             (* 252 *)
  match cube with z :: _ => Ok (amap (fun v => zernsize * v)%R z) | [] => Err IndexError end.   (* 253 *)
