(** What the padding of a typed array should be. *)
From Coq Require Import ZArith Bool Reals.
From Flocq Require Import Core IEEE754.BinarySingleNaN.
From Verif.Base Require Import Py Arr F64.
From Verif.Model Require Import PadCropT.
Open Scope Z_scope.

(** The number a scalar stands for. *)
Definition number_of (s : scalar) (r : R) : Prop :=
  match s with
  | SBool b => r = (if b then 1 else 0)%R
  | SInt z => r = IZR z
  | SFloat x => is_finite x = true /\ r = fval x
  | SOther => False
  end.
(** Numbers that a double can hold: integers up to 2^53 and all floats. *)
Definition small (s : scalar) : Prop := match s with SInt z => Z.abs z <= 2 ^ 53 | _ => True end.
(** [v] is the number [r] in type [t]: a non-zero number is True, integers drop the fraction, a complex
    number has no imaginary part. *)
Definition holds_number (t : dtype) : elt t -> R -> Prop :=
  match t with
  | Tbool => fun v r => v = true <-> r <> 0%R
  | Tint => fun v r => v = Ztrunc r
  | Tfloat => fun v r => is_finite v = true /\ fval v = r
  | Tcomplex => fun v r => is_finite (fst v) = true /\ fval (fst v) = r /\ snd v = fzero
  end.
Definition zero_of (t : dtype) : elt t :=
  match t with Tbool => false | Tint => 0 | Tfloat => fzero | Tcomplex => (fzero, fzero) end.
(** The output of pad_crop: input pixels unchanged about the common centre, one value elsewhere. *)
Definition padded_with {A} (a out : arr A) (h w : Z) (v : A) : Prop :=
  nr out = h /\ nc out = w /\ forall i j, 0 <= i < h -> 0 <= j < w ->
    at2 out i j = if in_arrb a (i - h / 2 + nr a / 2) (j - w / 2 + nc a / 2)
                  then at2 a (i - h / 2 + nr a / 2) (j - w / 2 + nc a / 2) else v.
(** The output of offcenter_crop about the pixel (y, x). *)
Definition window_about {A} (a out : arr A) (n y x : Z) (v : A) : Prop :=
  nr out = n /\ nc out = n /\ forall i j, 0 <= i < n -> 0 <= j < n ->
    at2 out i j = if in_arrb a (y - n / 2 + i) (x - n / 2 + j) then at2 a (y - n / 2 + i) (x - n / 2 + j) else v.
