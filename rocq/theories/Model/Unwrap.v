(** Model of coralign/util/unwrap.py. Arguments have the types the checks accept; phase and amplitude are real and
    finite, masks and structuring elements boolean. *)
From Coq Require Import ZArith Bool List Reals String.
From Verif.Base Require Import Py Arr.
From Verif.Model Require Import Fits.
Import ListNotations.
Open Scope Z_scope.

(** skimage.restoration.unwrap_phase(numpy.ma.array(phase, mask=out)): phase and out. *)
Definition unwrap_fun := arr R -> arr bool -> arr R.
(** skimage.morphology.remove_small_objects(mask, min_size). *)
Definition small_fun := arr bool -> Z -> arr bool.
(** NearestNDInterpolator over the pixels of a mask: the value at pixel (i, j). *)
Definition nearest_fun := arr bool -> arr R -> Z -> Z -> R.

(** unwrap.py:59-82 and 184-207 *)
Definition check_inputs (phase amplitude : arr R) (nbin min_size : Z) (bMask : option (arr bool)) : res unit :=
  check same_shape phase amplitude else TypeError;                          (* 61, 186 *)
  check negb (existsb (fun v => Rltb v 0) (elements amplitude)) else TypeError;   (* 68, 193 *)
  check 0 <? nbin else TypeError;                                           (* 71, 196 *)
  check negb (nbin <? 3) else ValueError;                                   (* 72, 197 *)
  check 0 <? min_size else TypeError;                                       (* 75, 200 *)
  match bMask with
  | Some m => guard (same_shape m phase) TypeError                          (* 79-82, 204-207 *)
  | None => Ok tt
  end.
(** unwrap.py:84-96 and 213-222 *)
Definition choose_mask (small : small_fun) (phase amplitude : arr R) (nbin min_size : Z) (use_mask : bool)
    (bMask : option (arr bool)) : res (arr bool) :=
  match bMask with
  | Some m => Ok m
  | None =>
      if (use_mask : bool) then
        do t <- ampthresh amplitude nbin;                                   (* 88, 213 *)
        Ok (small t min_size)                                               (* 92, 217 *)
      else Ok (afull (nr phase) (nc phase) true)                            (* 96, 221 *)
  end.
(** unwrap.py:16-118. 113-115: assigning to masked elements unmasks them. *)
Definition unwrap (up : unwrap_fun) (small : small_fun) (phase amplitude : arr R) (nbin : Z) (fill_value : R)
    (min_size : Z) (use_mask : bool) (bMask : option (arr bool)) : res (arr R * arr bool) :=
  do _ <- check_inputs phase amplitude nbin min_size bMask;
  do m <- choose_mask small phase amplitude nbin min_size use_mask bMask;
  let p := up phase (amap negb m) in                                        (* 103-108 *)
  Ok (Arr (nr p) (nc p) (fun i j => if at2 m i j then at2 p i j else fill_value), m).   (* 112-118 *)

(** scipy.ndimage.binary_erosion(mask, structure): the centre of the structure is at shape // 2, pixels outside the
    mask array count as False (border_value=0); an empty structure raises RuntimeError. *)
Definition binary_erosion (m selem : arr bool) : res (arr bool) :=
  check (0 <? nr selem) && (0 <? nc selem) else Custom "RuntimeError";
  Ok (Arr (nr m) (nc m) (fun i j =>
    forallb (fun p => let k := i + fst p - nr selem / 2 in let l := j + snd p - nc selem / 2 in
                      negb (at2 selem (fst p) (snd p)) || (in_arrb m k l && at2 m k l))
      (indices (nr selem) (nc selem)))).
(** unwrap.py:120-126 *)
Definition selem_default : arr bool := of_rows false
  [[false; false; true; false; false];
   [false; true; true; true; false];
   [true; true; true; true; true];
   [false; true; true; true; false];
   [false; false; true; false; false]].

(** unwrap.py:128-248. 235: NearestNDInterpolator refuses an empty list of points with ValueError. 242: the inner
    call has nbin=21, fill_value=0, min_size=64. *)
Definition unwrap_segments (up : unwrap_fun) (small : small_fun) (nearest : nearest_fun) (phase amplitude : arr R)
    (nbin : Z) (fill_value : R) (min_size : Z) (use_mask : bool) (bMask : option (arr bool)) (selem : option (arr bool))
  : res (arr R * arr bool) :=
  do _ <- check_inputs phase amplitude nbin min_size bMask;
  do m <- choose_mask small phase amplitude nbin min_size use_mask bMask;
  do e <- match selem with Some s => binary_erosion m s | None => Ok m end;   (* 224-228 *)
  check existsb (fun b => b) (elements e) else ValueError;                  (* 235 *)
  let filled := Arr (nr phase) (nc phase) (fun i j => if at2 e i j then at2 phase i j else nearest e phase i j) in   (* 238-240 *)
  do r <- unwrap up small filled amplitude 21 0 64 false None;              (* 243 *)
  let p := fst r in
  Ok (Arr (nr p) (nc p) (fun i j => if at2 e i j then at2 p i j else fill_value), e).   (* 246-248 *)

(** bMask as given by the caller: check.twoD_array (unwrap.py:205) accepts boolean, integer and real arrays. *)
Inductive mask_arg := MBool (m : arr bool) | MInt (m : arr Z) | MFloat (m : arr R).
Definition mask_truth (k : mask_arg) : arr bool :=
  match k with
  | MBool m => m
  | MInt m => amap (fun v => negb (v =? 0)) m
  | MFloat m => amap (fun v => if Req_EM_T v 0 then false else true) m
  end.
(** unwrap.py:128-248 for any such mask. With a structure, binary_erosion (225) takes the truth values and returns a
    boolean array. Without one (228) the copy keeps its type and indexes X, Y and phase (235): integers select rows,
    so IndexError outside [-ny, ny), and otherwise the points handed to NearestNDInterpolator are not two-dimensional,
    which it refuses with ValueError; a real array cannot be an index, IndexError. *)
Definition unwrap_segments_any (up : unwrap_fun) (small : small_fun) (nearest : nearest_fun) (phase amplitude : arr R)
    (nbin : Z) (fill_value : R) (min_size : Z) (use_mask : bool) (bMask : option mask_arg) (selem : option (arr bool))
  : res (arr R * arr bool) :=
  match bMask, selem with
  | Some (MInt m), None =>
      do _ <- check_inputs phase amplitude nbin min_size (Some (mask_truth (MInt m)));
      check forallb (fun v => (- nr phase <=? v) && (v <? nr phase)) (elements m) else IndexError;
      Err ValueError
  | Some (MFloat m), None =>
      do _ <- check_inputs phase amplitude nbin min_size (Some (mask_truth (MFloat m)));
      Err IndexError
  | _, _ => unwrap_segments up small nearest phase amplitude nbin fill_value min_size use_mask (option_map mask_truth bMask) selem
  end.
