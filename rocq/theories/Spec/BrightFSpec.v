(** Terms used to state what the image measurements do in double precision. *)
From Coq Require Import ZArith Bool Reals List Permutation.
From Flocq Require Import Core BinarySingleNaN.
From Verif.Base Require Import Arr Sums F64.
Import ListNotations.
Open Scope R_scope.

(** [s] is a sum of the numbers of the list, added two by two in some order and with some bracketing, each addition rounded. *)
Inductive added_up : list f64 -> f64 -> Prop :=
| add_none : added_up [] fzero
| add_one x : added_up [x] x
| add_two l m s t : added_up l s -> added_up m t -> added_up (l ++ m) (fadd s t)
| add_order l m s : Permutation l m -> added_up l s -> added_up m s.
(** A summation routine: it adds the numbers up in some way, which may differ from list to list. *)
Definition sums_up (np_sum : list f64 -> f64) : Prop := forall l, added_up l (np_sum l).

(** An image of finite non-negative pixels, at most 2^40 of them, not all dark, whose sum is far from the overflow threshold. *)
Definition photograph (a : arr f64) : Prop :=
  (0 < nr a)%Z /\ (0 < nc a)%Z /\ (nr a * nc a <= 2 ^ 40)%Z /\
  (forall i j, in_arr a i j -> is_finite (at2 a i j) = true /\ 0 <= fval (at2 a i j)) /\
  0 < rsum2 (fun i j => fval (at2 a i j)) (nr a) (nc a) < bpow radix2 1000.
(** The double [x] is finite and within [d] of [v]. *)
Definition near (x : f64) (v d : R) : Prop := is_finite x = true /\ Rabs (fval x - v) <= d.
(** The values of an image. *)
Definition values (a : arr f64) : arr R := amap fval a.
(** Positive infinity: the value of a saturated pixel. *)
Definition finf : f64 := B754_infinity false.
