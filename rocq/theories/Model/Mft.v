(** Model of coralign/util/mft.py. *)
From Coq Require Import ZArith Bool List Reals.
From Coquelicot Require Import Complex.
From Verif.Base Require Import Py Arr Vec Sums CSum.
From Verif.Model Require Import Fresnel.
Import ListNotations.
Open Scope Z_scope.

(** np.dot of two matrices. *)
Definition mdot (a b : arr C) : res (arr C) :=
  check nc a =? nr b else ValueError;
  Ok (Arr (nr a) (nc b) (fun i j => csum (fun k => at2 a i k * at2 b k j)%C (nc a))).
(** np.exp(s*2j*pi*np.outer(x, y)) *)
Definition exp_outer (s : R) (x y : vec R) : arr C :=
  Arr (vlen x) (vlen y) (fun i j => cis (s * 2 * PI * (vat x i * vat y j))).
Definition ascale (c : R) (a : arr C) : arr C := amap (fun v => v * RtoC c)%C a.

(** mft.py:204-221 *)
Definition interval (width : R) (npts : Z) : res (vec R * R) :=
  check pos_real width else TypeError;                                      (* 216 *)
  check 0 <? npts else TypeError;                                           (* 217 *)
  let dx := (width / IZR npts)%R in                                         (* 219 *)
  Ok (Vec npts (fun k => IZR (- (npts / 2) + k) * dx)%R, dx).               (* 220: arange has npts entries *)

(** A 2-element shape of positive integers (mft.py:40-49 and likewise below). *)
Definition shape2 (lo : Z) (l : list Z) : res (Z * Z) :=
  match l with
  | [a; b] => check lo <=? a else TypeError; check lo <=? b else TypeError; Ok (a, b)
  | _ => Err TypeError
  end.

(** mft.py:10-64 *)
Definition do_mft (e : arr C) (outshape : list Z) (pixperlod pixperpupil : R) : res (arr C) :=
  check pos_real pixperlod else TypeError;                                  (* 37 *)
  check pos_real pixperpupil else TypeError;                                (* 38 *)
  do sh <- shape2 1 outshape;                                               (* 40-49 *)
  do rowd <- interval (IZR (nr e) / pixperpupil) (nr e);                    (* 52 *)
  do cold <- interval (IZR (nc e) / pixperpupil) (nc e);                    (* 53 *)
  do rowpp <- interval (IZR (fst sh) / pixperlod) (fst sh);                 (* 56 *)
  do colpp <- interval (IZR (snd sh) / pixperlod) (snd sh);                 (* 57 *)
  let rowmult := exp_outer (-1) (fst rowpp) (fst rowd) in                   (* 60 *)
  let colmult := exp_outer (-1) (fst cold) (fst colpp) in                   (* 61 *)
  do t <- mdot rowmult e;                                                   (* 63 *)
  do t <- mdot t colmult;
  Ok (ascale (snd cold) (ascale (snd rowd) t)).

(** mft.py:67-144 *)
Definition do_offcenter_mft (e : arr C) (outshape : list Z) (pixperlod pixperpupil : R)
    (pupilShape yxLowerLeft : list Z) : res (arr C) :=
  check pos_real pixperlod else TypeError;                                  (* 98 *)
  check pos_real pixperpupil else TypeError;                                (* 99 *)
  do sh <- shape2 1 outshape;                                               (* 101-108 *)
  do ps <- shape2 1 pupilShape;                                             (* 110-117 *)
  do ll <- shape2 0 yxLowerLeft;                                            (* 119-126 *)
  do rowd <- interval (IZR (fst ps) / pixperpupil) (fst ps);                (* 129 *)
  do cold <- interval (IZR (snd ps) / pixperpupil) (snd ps);                (* 130 *)
  let rowcrop := get_vslice (fst rowd) (Slice (fst ll) (fst ll + nr e)) in  (* 133 *)
  let colcrop := get_vslice (fst cold) (Slice (snd ll) (snd ll + nc e)) in  (* 134 *)
  do rowpp <- interval (IZR (fst sh) / pixperlod) (fst sh);                 (* 137 *)
  do colpp <- interval (IZR (snd sh) / pixperlod) (snd sh);                 (* 138 *)
  let rowmult := exp_outer (-1) (fst rowpp) rowcrop in                      (* 141 *)
  let colmult := exp_outer (-1) colcrop (fst colpp) in                      (* 142 *)
  do t <- mdot rowmult e;                                                   (* 144 *)
  do t <- mdot t colmult;
  Ok (ascale (snd cold) (ascale (snd rowd) t)).

(** mft.py:147-200 *)
Definition do_imft (e : arr C) (outshape : list Z) (pixperlod pixperpupil : R) : res (arr C) :=
  check pos_real pixperlod else TypeError;                                  (* 174 *)
  check pos_real pixperpupil else TypeError;                                (* 175 *)
  do sh <- shape2 1 outshape;                                               (* 177-186 *)
  do rowd <- interval (IZR (nr e) / pixperlod) (nr e);                      (* 190 *)
  do cold <- interval (IZR (nc e) / pixperlod) (nc e);                      (* 191 *)
  do rowpp <- interval (IZR (fst sh) / pixperpupil) (fst sh);               (* 192 *)
  do colpp <- interval (IZR (snd sh) / pixperpupil) (snd sh);               (* 193 *)
  let rowmult := exp_outer 1 (fst rowpp) (fst rowd) in                      (* 196 *)
  let colmult := exp_outer 1 (fst cold) (fst colpp) in                      (* 197 *)
  do t <- mdot rowmult e;                                                   (* 199 *)
  do t <- mdot t colmult;
  Ok (ascale (snd cold) (ascale (snd rowd) t)).
