(** Model of the sampling computation of coralign/maskgen/maskgen.py:gen_hlc_occulter in binary64. *)
From Coq Require Import ZArith Bool String.
From Flocq Require Import Core BinarySingleNaN.
From Verif.Base Require Import Py F64.
From Verif.Model Require Import Math.
Open Scope Z_scope.

Definition ffloor (f : f64) : f64 := Bnearbyint mode_DN f.   (* numpy.floor *)
(** maskgen.py:254-257 and the checks of mag in maskgen.py:51-53. nPadMiddle/nPadEnd is a division of Python
    integers, which rounds the exact quotient; that is the division of doubles for integers up to 2^53. *)
Definition magnification_f (pplStart pplEnd : f64) (nPadEnd : Z) : res f64 :=
  check negb (feq pplEnd fzero) else ZeroDivisionError;
  do nPadMiddle <- int_of_float (ffloor (fmul (fdiv pplStart pplEnd) (fofZ nPadEnd)));     (* 255 *)
  check negb (nPadEnd =? 0) else ZeroDivisionError;
  let pplMiddle := fmul (fdiv (fofZ nPadMiddle) (fofZ nPadEnd)) pplEnd in                  (* 256 *)
  check negb (feq pplStart fzero) else ZeroDivisionError;
  let mag := fdiv pplMiddle pplStart in                                                    (* 257 *)
  check negb (fle mag fzero) else TypeError;                                               (* 51 *)
  check negb (flt (fofZ 1) mag) else TypeError;                                            (* 52 *)
  Ok mag.
(** maskgen.py:249-257. *)
Definition hlc_magnification_f (FN lam0 dx ppl lam rOccLamD minOversize : f64) (scaleWithWavelength : bool) : res f64 :=
  let pplStart := fdiv (fmul FN lam0) dx in                                                (* 249 *)
  let pplEnd := if scaleWithWavelength then fmul (fdiv lam0 lam) ppl else ppl in           (* 250-253 *)
  do nPadEnd <- int_of_float (fceil (fmul (fmul (fmul (fofZ 2) rOccLamD) pplEnd) minOversize));   (* 254 *)
  magnification_f pplStart pplEnd nPadEnd.
