(** Property C07: what the argument checkers accept, return and raise. *)
From Coq Require Import ZArith Reals List String Bool Lia Lra.
From Flocq Require Import BinarySingleNaN.
From Verif.Base Require Import Py F64.
From Verif.Model Require Import Check.
From Verif.Spec Require Import CheckSpec.
From Verif.Proofs Require Import CheckP.
Import ListNotations.
Open Scope Z_scope.

(** C07. Each scalar checker returns its argument or raises the caller's exception, and accepts exactly:
    positive (resp. non-negative, all) real numbers; positive (resp. non-negative, all) integers;
    strings; booleans; dictionaries. The two sign checks on reals also let NaN through. *)
Theorem C07_real_positive_scalar :
  decides real_positive_scalar (fun v => exists x, number v x /\ (positive x \/ x = NaN)).
Proof. exact real_positive_scalar_decides. Qed.
Print Assumptions C07_real_positive_scalar.
Theorem C07_real_nonnegative_scalar :
  decides real_nonnegative_scalar (fun v => exists x, number v x /\ (nonnegative x \/ x = NaN)).
Proof. exact real_nonnegative_scalar_decides. Qed.
Print Assumptions C07_real_nonnegative_scalar.
Theorem C07_real_scalar : decides real_scalar (fun v => exists x, number v x).
Proof. exact real_scalar_decides. Qed.
Print Assumptions C07_real_scalar.
Theorem C07_positive_scalar_integer :
  decides positive_scalar_integer (fun v => exists z, integer v z /\ 0 < z).
Proof. exact positive_scalar_integer_decides. Qed.
Print Assumptions C07_positive_scalar_integer.
Theorem C07_nonnegative_scalar_integer :
  decides nonnegative_scalar_integer (fun v => exists z, integer v z /\ 0 <= z).
Proof. exact nonnegative_scalar_integer_decides. Qed.
Print Assumptions C07_nonnegative_scalar_integer.
Theorem C07_scalar_integer : decides scalar_integer (fun v => exists z, integer v z).
Proof. exact scalar_integer_decides. Qed.
Print Assumptions C07_scalar_integer.
Theorem C07_string :
  decides string_ (fun v => (exists s, v = VStr s) \/ (exists s, v = VBytes s)).
Proof. exact string_decides. Qed.
Print Assumptions C07_string.
Theorem C07_boolean : decides boolean (fun v => exists b, v = VBool b).
Proof. exact boolean_decides. Qed.
Print Assumptions C07_boolean.
Theorem C07_dictionary : decides dictionary (fun v => exists l, v = VDict l).
Proof. exact dictionary_decides. Qed.
Print Assumptions C07_dictionary.
Example C07_scalar_ex :
  positive_scalar_integer (VInt 3) (VStr "n") (VClass (ExcClass TypeError)) = Ok (VInt 3) /\
  positive_scalar_integer (VInt 0) (VStr "n") (VClass (ExcClass IndexError)) = Err IndexError /\
  real_positive_scalar (VFloat (fofZ 2)) (VStr "x") (VClass (ExcClass TypeError))
    = Ok (VFloat (fofZ 2)).
Proof. repeat split; reflexivity. Qed.

(** C07. Array checkers: a regular value of the right rank is returned as an array of its shape and
    kind; a regular value of another rank raises the caller's exception; a ragged value raises
    ValueError. *)
Theorem C07_rank_arrays : forall f r,
  In (f, r) [(oneD_array, 1); (twoD_array, 2); (threeD_array, 3)] -> forall v s e,
  (forall sh, shaped v sh -> Z.of_nat (List.length sh) = r ->
     exists k, has_kind v k /\ f v (VStr s) (VClass (ExcClass e)) = Ok (VArr k sh)) /\
  (forall sh, shaped v sh -> Z.of_nat (List.length sh) <> r ->
     f v (VStr s) (VClass (ExcClass e)) = Err e) /\
  ((forall sh, ~ shaped v sh) -> f v (VStr s) (VClass (ExcClass e)) = Err ValueError).
Proof. exact rank_arrays_decide. Qed.
Print Assumptions C07_rank_arrays.
Theorem C07_twoD_square_array : forall v s e,
  (forall n, shaped v [n; n] ->
     exists k, has_kind v k /\
       twoD_square_array v (VStr s) (VClass (ExcClass e)) = Ok (VArr k [n; n])) /\
  (forall sh, shaped v sh -> (forall n, sh <> [n; n]) ->
     twoD_square_array v (VStr s) (VClass (ExcClass e)) = Err e) /\
  ((forall sh, ~ shaped v sh) ->
     twoD_square_array v (VStr s) (VClass (ExcClass e)) = Err ValueError).
Proof. exact square_array_decides. Qed.
Print Assumptions C07_twoD_square_array.
Theorem C07_real_array : forall v s e,
  (forall sh k, shaped v sh -> sh <> [] -> has_kind v k -> k <> KComplex ->
     real_array v (VStr s) (VClass (ExcClass e)) = Ok (VArr k sh)) /\
  (forall sh k, shaped v sh -> has_kind v k -> sh = [] \/ k = KComplex ->
     real_array v (VStr s) (VClass (ExcClass e)) = Err e) /\
  ((forall sh, ~ shaped v sh) -> real_array v (VStr s) (VClass (ExcClass e)) = Err ValueError).
Proof. exact real_array_decides. Qed.
Print Assumptions C07_real_array.
Example C07_array_ex :
  twoD_array (VSeq [VSeq [VInt 1; VInt 2]; VSeq [VInt 3; VFloat (fofZ 4)]]) (VStr "a")
     (VClass (ExcClass TypeError)) = Ok (VArr KFloat [2; 2]) /\
  shaped (VSeq [VInt 1; VInt 2]) [2] /\
  twoD_array (VSeq [VInt 1; VInt 2]) (VStr "a") (VClass (ExcClass TypeError)) = Err TypeError.
Proof.
  repeat split. apply (shaped_seq [VInt 1; VInt 2] []); [discriminate|].
  intros x [<-|[<-|[]]]; constructor; discriminate.
Qed.

(** C07. A name that is not a string, or a class that is not an exception class, raises
    CheckException whatever the value. *)
Theorem C07_bad_name_or_class : forall f v n e,
  In f [real_positive_scalar; real_array; oneD_array; twoD_array; twoD_square_array; threeD_array;
        real_scalar; real_nonnegative_scalar; positive_scalar_integer; nonnegative_scalar_integer;
        scalar_integer; string_; boolean; dictionary] ->
  is_string n = false \/ (forall x, e <> VClass (ExcClass x)) ->
  f v n e = Err (Custom "CheckException").
Proof. exact all_checkers_reject_bad_name. Qed.
Print Assumptions C07_bad_name_or_class.
Example C07_bad_name_ex : twoD_array (VArr KFloat [2; 2]) (VInt 1) (VClass (ExcClass TypeError))
  = Err (Custom "CheckException").
Proof. reflexivity. Qed.

(** C07 refuted. NaN is accepted as a positive number; a ragged list raises ValueError rather than
    the caller's exception; a name given as bytes (an accepted type) raises TypeError rather than the
    caller's exception; an array of strings is accepted as a real array. *)
Theorem C07_documented_contract_refuted :
  real_positive_scalar (VFloat fnan) (VStr "x") (VClass (ExcClass KeyError)) = Ok (VFloat fnan) /\
  twoD_array (VSeq [VSeq [VInt 1]; VSeq [VInt 1; VInt 2]]) (VStr "a") (VClass (ExcClass KeyError))
    = Err ValueError /\
  real_positive_scalar (VInt (-1)) (VBytes "x") (VClass (ExcClass KeyError)) = Err TypeError /\
  real_array (VSeq [VStr "a"]) (VStr "a") (VClass (ExcClass KeyError)) = Ok (VArr KStr [1]).
Proof. exact check_refuted. Qed.
Print Assumptions C07_documented_contract_refuted.
