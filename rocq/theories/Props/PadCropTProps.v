(** C98: padding an array of booleans, integers, doubles or complex numbers. *)
From Coq Require Import ZArith Bool List String Reals Lra Lia.
From Flocq Require Import Core IEEE754.BinarySingleNaN.
From Verif.Base Require Import Py Arr F64.
From Verif.Model Require Import Math PadCrop PadCropT.
From Verif.Spec Require Import PadCropTSpec.
From Verif.Proofs Require Import F64P PadCropTP.
Import ListNotations.
Open Scope Z_scope.

(** C98. Input pixels come out unchanged, whatever their type, and every pixel around them holds the fill
    value converted to that type. The fill is a boolean, a float, or an integer up to 2^53. *)
Theorem C98_fill_partial : forall t wild (a : arr (elt t)) h w s r, wf a -> 0 < h -> 0 < w -> small s -> number_of s r ->
  (t = Tint -> - 2 ^ 63 <= Ztrunc r < 2 ^ 63) ->
  exists out v, pad_crop_t wild t a [h; w] s = Ok out /\ padded_with a out h w v /\ holds_number t v r.
Proof. exact pad_number. Qed.
Print Assumptions C98_fill_partial.
(** Missing: integers beyond 2^53 go through a double. They arrive within 512 of the request ... *)
Theorem C98_fill_near : forall wild (a : arr Z) h w z, wf a -> 0 < h -> 0 < w -> Z.abs z <= 2 ^ 62 ->
  exists out v, pad_crop_t wild Tint a [h; w] (SInt z) = Ok out /\ padded_with a out h w v /\ Z.abs (v - z) <= 2 ^ 9.
Proof. exact near_fill. Qed.
Print Assumptions C98_fill_near.
(** ... but not always exactly, although the array could hold them. *)
Theorem C98_fill_refuted : ~ (forall wild (a out : arr Z) h w z, wf a -> 0 < h -> 0 < w -> - 2 ^ 63 <= z < 2 ^ 63 ->
  pad_crop_t wild Tint a [h; w] (SInt z) = Ok out -> padded_with a out h w z).
Proof. exact large_fill. Qed.
Print Assumptions C98_fill_refuted.
(** Every double, infinities, NaN and -0 included, is the fill itself in an array of doubles. *)
Theorem C98_fill_float : forall wild (a : arr f64) h w x, wf a -> 0 < h -> 0 < w ->
  exists out, pad_crop_t wild Tfloat a [h; w] (SFloat x) = Ok out /\ padded_with a out h w x.
Proof. exact pad_float. Qed.
Print Assumptions C98_fill_float.
(** NaN in an array of booleans is True. *)
Theorem C98_fill_bool_nan : forall wild (a : arr bool) h w, wf a -> 0 < h -> 0 < w ->
  exists out, pad_crop_t wild Tbool a [h; w] (SFloat F64.fnan) = Ok out /\ padded_with a out h w true.
Proof. exact pad_bool_nan. Qed.
Print Assumptions C98_fill_bool_nan.
(** Refused exactly when the fill is not a real number or the shape is not two positive integers. *)
Theorem C98_refused : forall wild t (a : arr (elt t)) sz s e, wf a ->
  (pad_crop_t wild t a sz s = Err e <-> e = TypeError /\ (s = SOther \/ ~ exists h w, sz = [h; w] /\ 0 < h /\ 0 < w)).
Proof. exact pad_t_err. Qed.
Print Assumptions C98_refused.
(** offcenter_crop about a centre given as doubles: the padding computed in doubles is exact for sizes and
    centres up to 2^50 pixels, and pixels outside the input are the zero of the type. *)
Theorem C98_window : forall wild t (a : arr (elt t)) n cy cx, 0 < nr a <= 2 ^ 50 -> 0 < nc a <= 2 ^ 50 -> 0 < n <= 2 ^ 50 ->
  is_finite cy = true -> is_finite cx = true -> Z.abs (ZnearestE (fval cy)) <= 2 ^ 50 -> Z.abs (ZnearestE (fval cx)) <= 2 ^ 50 ->
  exists out, offcenter_crop_t wild t a n cy cx = Ok out /\ window_about a out n (ZnearestE (fval cy)) (ZnearestE (fval cx)) (zero_of t).
Proof. exact window_t. Qed.
Print Assumptions C98_window.
(** A centre that is NaN gives ValueError and an infinite one OverflowError; the row is looked at first. *)
Theorem C98_window_refused : forall wild t (a : arr (elt t)) n cy cx e, 0 < nr a <= 2 ^ 50 -> 0 < nc a <= 2 ^ 50 -> n <= 2 ^ 50 ->
  (is_finite cy = true -> Z.abs (ZnearestE (fval cy)) <= 2 ^ 50) -> (is_finite cx = true -> Z.abs (ZnearestE (fval cx)) <= 2 ^ 50) ->
  (offcenter_crop_t wild t a n cy cx = Err e <->
   (n <= 0 /\ e = TypeError) \/
   (0 < n /\ is_finite cy = false /\ e = (if is_nan cy then ValueError else Custom "OverflowError")) \/
   (0 < n /\ is_finite cy = true /\ is_finite cx = false /\ e = (if is_nan cx then ValueError else Custom "OverflowError"))).
Proof. exact window_refused. Qed.
Print Assumptions C98_window_refused.

(** ** Cases *)
Definition ints : arr Z := of_rows 0 [[7; 8]].
(** -5/2 becomes -2 in an array of integers, and True in one of booleans. *)
Definition minus_half5 : f64 := fdiv (fofZ (-5)) (fofZ 2).
Lemma minus_half5_val : is_finite minus_half5 = true /\ fval minus_half5 = (-5 / 2)%R.
Proof.
  destruct (fofZ_int (-5) ltac:(lia)) as [F1 V1]. destruct (fofZ_int 2 ltac:(lia)) as [F2 V2].
  pose proof (rnd_half (-5) ltac:(lia)) as Q.
  destruct (fdiv_spec (fofZ (-5)) (fofZ 2) F1) as [V F].
  - rewrite V2. lra.
  - rewrite V1, V2, Q. rewrite Rabs_left by lra. eapply Rlt_trans; [|apply (bpow_lt radix2 3 1024); lia]. change (bpow radix2 3) with 8%R. lra.
  - split; [exact F|]. unfold minus_half5. rewrite V, V1, V2. exact Q.
Qed.
Example C98_truncated : exists out, pad_crop_t (fun _ => 0) Tint ints [2; 3] (SFloat minus_half5) = Ok out /\
  at2 out 0 0 = -2 /\ at2 out 1 0 = 7 /\ at2 out 1 1 = 8.
Proof.
  destruct minus_half5_val as [F V].
  assert (T : Ztrunc (-5 / 2) = -2).
  { rewrite Ztrunc_ceil by lra. apply Zceil_imp. cbn. lra. }
  destruct (C98_fill_partial Tint (fun _ => 0) ints 2 3 (SFloat minus_half5) (-5 / 2)) as (o & v & E & (A & B & P) & H);
    [split; cbn; lia|lia|lia|exact Coq.Init.Logic.I|split; auto|intros _; rewrite T; lia|].
  exists o. split; [exact E|]. cbn [holds_number] in H. rewrite T in H. subst v.
  rewrite !P by lia. split; [|split]; reflexivity.
Qed.
Example C98_fill_ex : small (SFloat minus_half5) /\ number_of (SFloat minus_half5) (-5 / 2) /\ number_of (SInt 3) 3 /\ small (SInt 3).
Proof. destruct minus_half5_val as [F V]. unfold small, number_of. repeat split; auto; lia. Qed.
Example C98_window_ex : exists out, offcenter_crop_t (fun _ => 0) Tint ints 3 minus_half5 fzero = Ok out /\ at2 out 2 2 = 0 /\ nr out = 3.
Proof.
  destruct minus_half5_val as [F V]. assert (T : ZnearestE (-5 / 2) = -2).
  { unfold Znearest. replace (Zfloor (-5 / 2)) with (-3) by (symmetry; apply Zfloor_imp; cbn; lra).
    replace (Zceil (-5 / 2)) with (-2) by (symmetry; apply Zceil_imp; cbn; lra).
    rewrite Rcompare_Eq by lra. reflexivity. }
  assert (T0 : ZnearestE (fval fzero) = 0) by exact (Zrnd_IZR ZnearestE 0).
  destruct (C98_window (fun _ => 0) Tint ints 3 minus_half5 fzero) as (o & E & (A & B & P)).
  - change (nr ints) with 1. lia.
  - change (nc ints) with 2. lia.
  - lia.
  - exact F.
  - reflexivity.
  - rewrite V, T. lia.
  - rewrite T0. lia.
  - exists o. split; [exact E|]. rewrite V, T, T0 in P. rewrite P by lia. split; [reflexivity|exact A].
Qed.
