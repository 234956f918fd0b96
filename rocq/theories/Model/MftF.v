(** Model of coralign/util/mft.py over IEEE doubles, operation by operation. numpy.exp of a complex array and numpy.dot are the
    arguments [fcexp] (one entry) and [fdot]. Fields are complex; a real field is one with imaginary parts 0, to which numpy.dot
    converts it. The model over exact numbers is Mft.v. *)
From Coq Require Import ZArith Bool List.
From Flocq Require Import Core BinarySingleNaN.
From Verif.Base Require Import Py F64 Arr Vec.
From Verif.Model Require Import Mft ShapesG.
Import ListNotations.
Open Scope Z_scope.

(** A complex number in double precision: real and imaginary part. *)
Definition c128 : Type := (f64 * f64)%type.
(** Product of complex doubles, as Python and numpy compute it. *)
Definition cmul (a b : c128) : c128 :=
  (fsub (fmul (fst a) (fst b)) (fmul (snd a) (snd b)), fadd (fmul (fst a) (snd b)) (fmul (snd a) (fst b))).
(** A double used where a complex double is needed. *)
Definition cofF (x : f64) : c128 := (x, fzero).
(** s*2.*np.pi*1j with s*2. written as one literal (mft.py:60, 61, 141, 142, 196, 197). *)
Definition twopi_i (s2 : Z) : c128 := cmul (cofF (fmul (fofZ s2) fpi)) (fzero, fofZ 1).

(** mft.py:204-221. A nan width passes the check of line 216. *)
Definition interval_f (width : f64) (npts : Z) : res (vec f64 * f64) :=
  check negb (fle width fzero) else TypeError;                              (* 216 *)
  check 0 <? npts else TypeError;                                           (* 217 *)
  let dx := fdiv width (fofZ npts) in                                       (* 219 *)
  Ok (Vec npts (fun k => fmul (fofZ (- (npts / 2) + k)) dx), dx).           (* 220 *)

Section Lib.
Variables (fcexp : c128 -> c128) (fdot : arr c128 -> arr c128 -> arr c128).
(** np.dot of two matrices: unequal inner sizes raise ValueError. *)
Definition mdot_f (a b : arr c128) : res (arr c128) := check nc a =? nr b else ValueError; Ok (fdot a b).
(** np.exp(s2*np.pi*1j*np.outer(x, y)): the real product is converted to complex first. *)
Definition exp_outer_f (s2 : Z) (x y : vec f64) : arr c128 :=
  Arr (vlen x) (vlen y) (fun i j => fcexp (cmul (twopi_i s2) (cofF (fmul (vat x i) (vat y j))))).
(** An array of complex doubles times a double. *)
Definition ascale_f (c : f64) (a : arr c128) : arr c128 := amap (fun v => cmul v (cofF c)) a.

(** mft.py:10-64 *)
Definition do_mft_f (e : arr c128) (outshape : list Z) (pixperlod pixperpupil : f64) : res (arr c128) :=
  check negb (fle pixperlod fzero) else TypeError;                          (* 37 *)
  check negb (fle pixperpupil fzero) else TypeError;                        (* 38 *)
  do sh <- shape2 1 outshape;                                               (* 40-49 *)
  do rowd <- interval_f (fdiv (fofZ (nr e)) pixperpupil) (nr e);            (* 52 *)
  do cold <- interval_f (fdiv (fofZ (nc e)) pixperpupil) (nc e);            (* 53 *)
  do rowpp <- interval_f (fdiv (fofZ (fst sh)) pixperlod) (fst sh);         (* 56 *)
  do colpp <- interval_f (fdiv (fofZ (snd sh)) pixperlod) (snd sh);         (* 57 *)
  let rowmult := exp_outer_f (-2) (fst rowpp) (fst rowd) in                 (* 60 *)
  let colmult := exp_outer_f (-2) (fst cold) (fst colpp) in                 (* 61 *)
  do t <- mdot_f rowmult e;                                                 (* 63 *)
  do t <- mdot_f t colmult;
  Ok (ascale_f (snd cold) (ascale_f (snd rowd) t)).

(** mft.py:67-144 *)
Definition do_offcenter_mft_f (e : arr c128) (outshape : list Z) (pixperlod pixperpupil : f64)
    (pupilShape yxLowerLeft : list Z) : res (arr c128) :=
  check negb (fle pixperlod fzero) else TypeError;                          (* 98 *)
  check negb (fle pixperpupil fzero) else TypeError;                        (* 99 *)
  do sh <- shape2 1 outshape;                                               (* 101-108 *)
  do ps <- shape2 1 pupilShape;                                             (* 110-117 *)
  do ll <- shape2 0 yxLowerLeft;                                            (* 119-126 *)
  do rowd <- interval_f (fdiv (fofZ (fst ps)) pixperpupil) (fst ps);        (* 129 *)
  do cold <- interval_f (fdiv (fofZ (snd ps)) pixperpupil) (snd ps);        (* 130 *)
  let rowcrop := get_vslice (fst rowd) (Slice (fst ll) (fst ll + nr e)) in  (* 133 *)
  let colcrop := get_vslice (fst cold) (Slice (snd ll) (snd ll + nc e)) in  (* 134 *)
  do rowpp <- interval_f (fdiv (fofZ (fst sh)) pixperlod) (fst sh);         (* 137 *)
  do colpp <- interval_f (fdiv (fofZ (snd sh)) pixperlod) (snd sh);         (* 138 *)
  let rowmult := exp_outer_f (-2) (fst rowpp) rowcrop in                    (* 141 *)
  let colmult := exp_outer_f (-2) colcrop (fst colpp) in                    (* 142 *)
  do t <- mdot_f rowmult e;                                                 (* 144 *)
  do t <- mdot_f t colmult;
  Ok (ascale_f (snd cold) (ascale_f (snd rowd) t)).

(** mft.py:147-200. Line 188 converts pixperlod to float, which it is. *)
Definition do_imft_f (e : arr c128) (outshape : list Z) (pixperlod pixperpupil : f64) : res (arr c128) :=
  check negb (fle pixperlod fzero) else TypeError;                          (* 174 *)
  check negb (fle pixperpupil fzero) else TypeError;                        (* 175 *)
  do sh <- shape2 1 outshape;                                               (* 177-186 *)
  do rowd <- interval_f (fdiv (fofZ (nr e)) pixperlod) (nr e);              (* 190 *)
  do cold <- interval_f (fdiv (fofZ (nc e)) pixperlod) (nc e);              (* 191 *)
  do rowpp <- interval_f (fdiv (fofZ (fst sh)) pixperpupil) (fst sh);       (* 192 *)
  do colpp <- interval_f (fdiv (fofZ (snd sh)) pixperpupil) (snd sh);       (* 193 *)
  let rowmult := exp_outer_f 2 (fst rowpp) (fst rowd) in                    (* 196 *)
  let colmult := exp_outer_f 2 (fst cold) (fst colpp) in                    (* 197 *)
  do t <- mdot_f rowmult e;                                                 (* 199 *)
  do t <- mdot_f t colmult;
  Ok (ascale_f (snd cold) (ascale_f (snd rowd) t)).
End Lib.
