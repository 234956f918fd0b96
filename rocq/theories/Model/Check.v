(** Model of coralign/util/check.py over a universe of dynamic Python values. *)
From Coq Require Import ZArith Bool List String.
From Flocq Require Import BinarySingleNaN.
From Verif.Base Require Import Py F64.
Import ListNotations.
Open Scope Z_scope.

(** numpy dtype kinds, in the order in which numpy promotes mixed contents. *)
Inductive kind := KBool | KInt | KFloat | KComplex | KStr | KObject.

(** Python class objects: exception classes, or any other class. *)
Inductive pyclass := ExcClass (e : exn) | OtherClass.

(** Python values. [VFloat] covers float and numpy.floating, [VComplex] complex and
    numpy.complexfloating, [VSeq] list and tuple, [VArr] numpy.ndarray (only kind and shape are
    kept), [VOther] any object that is neither number, string, sequence, dict nor array. *)
Inductive pyval :=
| VNone
| VBool (b : bool)
| VInt (z : Z)
| VNpInt (z : Z)
| VNpBool (b : bool)
| VFloat (f : f64)
| VComplex (re im : f64)
| VStr (s : string)
| VBytes (s : string)
| VSeq (l : list pyval)
| VDict (l : list (pyval * pyval))
| VArr (k : kind) (shape : list Z)
| VClass (c : pyclass)
| VOther.

(** ** isinstance tests *)
(** check.py:12 [string_types = (str, bytes)] *)
Definition is_string (v : pyval) : bool :=
  match v with VStr _ | VBytes _ => true | _ => false end.
(** check.py:15 [int_types = (int, np.integer)]; bool is a subclass of int. *)
Definition is_int_types (v : pyval) : bool :=
  match v with VBool _ | VInt _ | VNpInt _ => true | _ => false end.
(** [isinstance(var, numbers.Number)]: numpy.bool_ is not registered as a Number. *)
Definition is_number (v : pyval) : bool :=
  match v with VBool _ | VInt _ | VNpInt _ | VFloat _ | VComplex _ _ => true | _ => false end.
Definition is_bool (v : pyval) : bool := match v with VBool _ => true | _ => false end.
Definition is_dict (v : pyval) : bool := match v with VDict _ => true | _ => false end.

(** ** numpy conversion [np.array(var, copy=False)]: kind and shape.
    Ragged nested sequences raise ValueError (numpy >= 1.24, < 2). Simplified: integers outside
    the int64 range keep kind KInt. *)
Definition kind_rank (k : kind) : Z :=
  match k with KBool => 0 | KInt => 1 | KFloat => 2 | KComplex => 3 | KStr => 4 | KObject => 5 end.
Definition promote (a b : kind) : kind := if kind_rank a <? kind_rank b then b else a.
Fixpoint shape_eqb (a b : list Z) : bool :=
  match a, b with
  | [], [] => true
  | x :: a', y :: b' => (x =? y) && shape_eqb a' b'
  | _, _ => false
  end.
Fixpoint np_array (v : pyval) : res (kind * list Z) :=
  match v with
  | VBool _ | VNpBool _ => Ok (KBool, [])
  | VInt _ | VNpInt _ => Ok (KInt, [])
  | VFloat _ => Ok (KFloat, [])
  | VComplex _ _ => Ok (KComplex, [])
  | VStr _ | VBytes _ => Ok (KStr, [])
  | VArr k sh => Ok (k, sh)
  | VNone | VDict _ | VClass _ | VOther => Ok (KObject, [])
  | VSeq l =>
      (fix go (l : list pyval) : res (kind * list Z) :=
         match l with
         | [] => Ok (KFloat, [0])
         | [x] => match np_array x with
                  | Ok (k, sh) => Ok (k, 1 :: sh)
                  | Err e => Err e
                  end
         | x :: l' =>
             match np_array x, go l' with
             | Ok (k, sh), Ok (k', n :: sh') =>
                 if shape_eqb sh sh' then Ok (promote k k', n + 1 :: sh) else Err ValueError
             | Ok _, Ok (_, []) => Err ValueError   (* unreachable: [go] returns rank >= 1 *)
             | Err e, _ => Err e
             | _, Err e => Err e
             end
         end) l
  end.

Definition is_complex_kind (k : kind) : bool := match k with KComplex => true | _ => false end.
(** [np.iscomplexobj] / [np.isrealobj] of a scalar. *)
Definition iscomplexobj (v : pyval) : bool := match v with VComplex _ _ => true | _ => false end.
Definition isrealobj (v : pyval) : bool := negb (iscomplexobj v).

(** ** Comparison with 0 of real numbers ([var <= 0], [var < 0]) *)
Definition num_le0 (v : pyval) : bool :=
  match v with
  | VBool b => negb b
  | VInt z | VNpInt z => z <=? 0
  | VFloat f => fle f fzero
  | _ => false
  end.
Definition num_lt0 (v : pyval) : bool :=
  match v with
  | VBool b => false
  | VInt z | VNpInt z => z <? 0
  | VFloat f => flt f fzero
  | _ => false
  end.

Definition CheckException := Custom "CheckException".

(** check.py:17-24 *)
Definition checkname (vname : pyval) : res unit := guard (is_string vname) CheckException.
(** check.py:27-37 *)
Definition checkexc (vexc : pyval) : res exn :=
  match vexc with VClass (ExcClass e) => Ok e | _ => Err CheckException end.

(** [raise vexc(vname + '...')]: concatenating bytes and str raises TypeError first. *)
Definition raise_with {A} (vname : pyval) (e : exn) : res A :=
  match vname with VBytes _ => Err TypeError | _ => Err e end.
Definition require {A} (b : bool) (vname : pyval) (e : exn) (k : res A) : res A :=
  if b then k else raise_with vname e.

(** check.py:40-62 *)
Definition real_positive_scalar (var vname vexc : pyval) : res pyval :=
  do _u <- checkname vname; do e <- checkexc vexc;
  require (is_number var) vname e
  (require (isrealobj var) vname e
  (require (negb (num_le0 var)) vname e (Ok var))).

(** check.py:189-209 *)
Definition real_scalar (var vname vexc : pyval) : res pyval :=
  do _u <- checkname vname; do e <- checkexc vexc;
  require (is_number var) vname e
  (require (isrealobj var) vname e (Ok var)).

(** check.py:212-234 *)
Definition real_nonnegative_scalar (var vname vexc : pyval) : res pyval :=
  do _u <- checkname vname; do e <- checkexc vexc;
  require (is_number var) vname e
  (require (isrealobj var) vname e
  (require (negb (num_lt0 var)) vname e (Ok var))).

(** check.py:237-259 *)
Definition positive_scalar_integer (var vname vexc : pyval) : res pyval :=
  do _u <- checkname vname; do e <- checkexc vexc;
  require (is_number var) vname e
  (require (is_int_types var) vname e
  (require (negb (num_le0 var)) vname e (Ok var))).

(** check.py:262-284 *)
Definition nonnegative_scalar_integer (var vname vexc : pyval) : res pyval :=
  do _u <- checkname vname; do e <- checkexc vexc;
  require (is_number var) vname e
  (require (is_int_types var) vname e
  (require (negb (num_lt0 var)) vname e (Ok var))).

(** check.py:287-307 *)
Definition scalar_integer (var vname vexc : pyval) : res pyval :=
  do _u <- checkname vname; do e <- checkexc vexc;
  require (is_number var) vname e
  (require (is_int_types var) vname e (Ok var)).

(** check.py:310-328 *)
Definition string_ (var vname vexc : pyval) : res pyval :=
  do _u <- checkname vname; do e <- checkexc vexc;
  require (is_string var) vname e (Ok var).
(** check.py:331-349 *)
Definition boolean (var vname vexc : pyval) : res pyval :=
  do _u <- checkname vname; do e <- checkexc vexc;
  require (is_bool var) vname e (Ok var).
(** check.py:352-370 *)
Definition dictionary (var vname vexc : pyval) : res pyval :=
  do _u <- checkname vname; do e <- checkexc vexc;
  require (is_dict var) vname e (Ok var).

(** check.py:65-86. The array checkers return the converted array. *)
Definition real_array (var vname vexc : pyval) : res pyval :=
  do _u <- checkname vname; do e <- checkexc vexc;
  do a <- np_array var;                                                     (* 81 *)
  let '(k, sh) := a in
  require (negb (Z.of_nat (List.length sh) =? 0)) vname e                        (* 82 *)
  (require (negb (is_complex_kind k)) vname e (Ok (VArr k sh))).            (* 84 *)

(** Lines 105-110, 129-134, 180-185: arrays of a given rank. *)
Definition rank_array (rank : Z) (var vname vexc : pyval) : res pyval :=
  do _u <- checkname vname; do e <- checkexc vexc;
  do a <- np_array var;
  let '(k, sh) := a in
  require (Z.of_nat (List.length sh) =? rank) vname e
  (require (negb (negb (negb (is_complex_kind k)) && negb (is_complex_kind k))) vname e
     (Ok (VArr k sh))).
(** check.py:89-110 *)
Definition oneD_array := rank_array 1.
(** check.py:113-134 *)
Definition twoD_array := rank_array 2.
(** check.py:164-185 *)
Definition threeD_array := rank_array 3.

(** check.py:137-161 *)
Definition twoD_square_array (var vname vexc : pyval) : res pyval :=
  do _u <- checkname vname; do e <- checkexc vexc;
  do a <- np_array var;
  let '(k, sh) := a in
  match sh with
  | [m; n] =>
      require (m =? n) vname e
      (require (negb (negb (negb (is_complex_kind k)) && negb (is_complex_kind k))) vname e
         (Ok (VArr k sh)))
  | _ => raise_with vname e
  end.
