(** What the argument checkers are documented to accept, stated on Python values directly. *)
From Coq Require Import ZArith Reals List String.
From Flocq Require Import BinarySingleNaN.
From Verif.Base Require Import Py F64.
From Verif.Model Require Import Check.
Import ListNotations.
Open Scope Z_scope.

(** The mathematical value of a real Python number. *)
Inductive ext := Fin (r : R) | PosInf | NegInf | NaN.
Definition float_value (f : f64) : ext :=
  match f with
  | B754_nan => NaN
  | B754_infinity false => PosInf
  | B754_infinity true => NegInf
  | _ => Fin (B2R f)
  end.
(** [number v x]: [v] is a real number (int, bool, float, numpy real scalar) of value [x]. *)
Inductive number : pyval -> ext -> Prop :=
| number_bool b : number (VBool b) (Fin (if b then 1 else 0)%R)
| number_int z : number (VInt z) (Fin (IZR z))
| number_npint z : number (VNpInt z) (Fin (IZR z))
| number_float f : number (VFloat f) (float_value f).
(** [integer v z]: [v] is an int, bool or numpy integer of value [z]. *)
Inductive integer : pyval -> Z -> Prop :=
| integer_bool b : integer (VBool b) (if b then 1 else 0)
| integer_int z : integer (VInt z) z
| integer_npint z : integer (VNpInt z) z.

Definition positive (x : ext) : Prop :=
  match x with Fin r => (0 < r)%R | PosInf => True | _ => False end.
Definition nonnegative (x : ext) : Prop :=
  match x with Fin r => (0 <= r)%R | PosInf => True | _ => False end.

(** A checker [f] decides [P]: it returns its argument when [P] holds, and raises the caller's
    exception class when it does not (for a str name and an exception class). *)
Definition decides (f : pyval -> pyval -> pyval -> res pyval) (P : pyval -> Prop) : Prop :=
  forall v s e,
    (P v -> f v (VStr s) (VClass (ExcClass e)) = Ok v) /\
    (~ P v -> f v (VStr s) (VClass (ExcClass e)) = Err e).

(** The shape numpy gives to an array, a scalar or a regular nested sequence. *)
Inductive shaped : pyval -> list Z -> Prop :=
| shaped_arr k sh : shaped (VArr k sh) sh
| shaped_scalar v : (forall l, v <> VSeq l) -> (forall k sh, v <> VArr k sh) -> shaped v []
| shaped_nil : shaped (VSeq []) [0]
| shaped_seq l sh : l <> [] -> (forall x, In x l -> shaped x sh) ->
    shaped (VSeq l) (Z.of_nat (List.length l) :: sh).

(** Kinds of the scalars found in a value (an empty sequence counts as float). *)
Inductive leaf : pyval -> kind -> Prop :=
| leaf_bool b : leaf (VBool b) KBool
| leaf_npbool b : leaf (VNpBool b) KBool
| leaf_int z : leaf (VInt z) KInt
| leaf_npint z : leaf (VNpInt z) KInt
| leaf_float f : leaf (VFloat f) KFloat
| leaf_complex a b : leaf (VComplex a b) KComplex
| leaf_str s : leaf (VStr s) KStr
| leaf_bytes s : leaf (VBytes s) KStr
| leaf_none : leaf VNone KObject
| leaf_dict l : leaf (VDict l) KObject
| leaf_class c : leaf (VClass c) KObject
| leaf_other : leaf VOther KObject
| leaf_arr k sh : leaf (VArr k sh) k
| leaf_nil : leaf (VSeq []) KFloat
| leaf_seq l x k : In x l -> leaf x k -> leaf (VSeq l) k.

(** numpy's kind for the value: the highest leaf in the promotion order. *)
Definition has_kind (v : pyval) (k : kind) : Prop :=
  leaf v k /\ forall k', leaf v k' -> kind_rank k' <= kind_rank k.
