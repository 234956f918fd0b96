(** C99: frames of booleans, integers, doubles or complex numbers through combine and crop. *)
From Coq Require Import ZArith Bool List Reals Lra Lia.
From Flocq Require Import Core IEEE754.BinarySingleNaN.
From Verif.Base Require Import Py Arr F64.
From Verif.Model Require Import PadCropT FrameT.
From Verif.Spec Require Import FrameTSpec.
From Verif.Proofs Require Import F64P FrameTP.
Import ListNotations.
Open Scope Z_scope.

(** C99. combine gives doubles: NaN exactly at the bad pixels of a frame of numbers, the pixel itself elsewhere. *)
Theorem C99_combine : forall t (frame : arr (elt t)) (bp : arr bool), nr bp = nr frame -> nc bp = nc frame ->
  (forall i j, in_arr frame i j -> machine t (at2 frame i j)) ->
  exists out, combine_t t Tbool frame bp = Ok out /\ nr out = nr frame /\ nc out = nc frame /\
  forall i j, in_arr frame i j ->
    if at2 bp i j then at2 out i j = F64.fnan else same_pixel t (at2 frame i j) (at2 out i j).
Proof. exact combine_t_ok. Qed.
Print Assumptions C99_combine.
(** The one exception is TypeError, for maps of another shape or with elements that are not booleans. *)
Theorem C99_combine_refused : forall t tb (frame : arr (elt t)) (bp : arr (elt tb)) e,
  combine_t t tb frame bp = Err e <-> e = TypeError /\ (nr bp <> nr frame \/ nc bp <> nc frame \/ tb <> Tbool).
Proof. exact combine_t_err. Qed.
Print Assumptions C99_combine_refused.
(** crop gives doubles: the pixels of the frame, NaN outside. *)
Theorem C99_crop : forall t (frame : arr (elt t)) lr lc rw cw,
  0 <= lr < nr frame -> 0 <= lc < nc frame -> 0 < rw -> 0 < cw ->
  (forall i j, in_arr frame i j -> machine t (at2 frame i j)) ->
  exists out, crop_t t frame lr lc rw cw = Ok out /\ nr out = rw /\ nc out = cw /\
  forall i j, 0 <= i < rw -> 0 <= j < cw ->
    if in_arrb frame (lr + i) (lc + j) then same_pixel t (at2 frame (lr + i) (lc + j)) (at2 out i j) else at2 out i j = F64.fnan.
Proof. exact crop_t_ok. Qed.
Print Assumptions C99_crop.
Theorem C99_crop_refused : forall t (frame : arr (elt t)) lr lc rw cw e, wf frame ->
  (crop_t t frame lr lc rw cw = Err e <->
   (e = TypeError /\ (lr < 0 \/ lc < 0 \/ rw <= 0 \/ cw <= 0)) \/
   (e = ValueError /\ 0 <= lr /\ 0 <= lc /\ 0 < rw /\ 0 < cw /\ (nr frame <= lr \/ nc frame <= lc))).
Proof. exact crop_t_err. Qed.
Print Assumptions C99_crop_refused.
(** Integers up to 2^53 are unchanged. *)
Theorem C99_integers : forall v x, Z.abs v <= 2 ^ 53 -> same_pixel Tint v x -> fval x = IZR v.
Proof. exact (fun v x B H => eq_trans (proj2 H) (exact_pixel v B)). Qed.
Print Assumptions C99_integers.
(** The frame sent to the ground, combine followed by crop: good pixels keep their value, and NaN marks exactly the
    pixels outside the frame, the bad ones and those that were NaN. *)
Theorem C99_sent : forall t (frame : arr (elt t)) (bp : arr bool) lr lc rw cw, nr bp = nr frame -> nc bp = nc frame ->
  0 <= lr < nr frame -> 0 <= lc < nc frame -> 0 < rw -> 0 < cw ->
  (forall i j, in_arr frame i j -> machine t (at2 frame i j)) ->
  exists full out, combine_t t Tbool frame bp = Ok full /\ crop_t Tfloat full lr lc rw cw = Ok out /\ nr out = rw /\ nc out = cw /\
  forall i j, 0 <= i < rw -> 0 <= j < cw ->
    (in_arr frame (lr + i) (lc + j) -> at2 bp (lr + i) (lc + j) = false -> same_pixel t (at2 frame (lr + i) (lc + j)) (at2 out i j)) /\
    (is_nan (at2 out i j) = true <-> ~ in_arr frame (lr + i) (lc + j) \/ at2 bp (lr + i) (lc + j) = true \/ ~ is_number t (at2 frame (lr + i) (lc + j))).
Proof. exact sent. Qed.
Print Assumptions C99_sent.

(** ** A case: integers, one bad pixel, a window over the edge. *)
Definition counts : arr Z := of_rows 0 [[7; 8]; [9; 10]].
Definition bad : arr bool := of_rows false [[false; false]; [true; false]].
Example C99_ex : exists full out, combine_t Tint Tbool counts bad = Ok full /\ crop_t Tfloat full 1 0 2 2 = Ok out /\
  at2 out 0 0 = F64.fnan /\ fval (at2 out 0 1) = 10%R /\ at2 out 1 0 = F64.fnan.
Proof.
  destruct (C99_sent Tint counts bad 1 0 2 2) as (f & o & E & F & A & B & P).
  - reflexivity.
  - reflexivity.
  - change (nr counts) with 2. lia.
  - change (nc counts) with 2. lia.
  - lia.
  - lia.
  - intros i j [I J]. cbn in I, J. assert (Hi : i = 0 \/ i = 1) by lia. assert (Hj : j = 0 \/ j = 1) by lia.
    assert (V : 0 <= at2 counts i j <= 10) by (destruct Hi as [-> | ->], Hj as [-> | ->]; vm_compute; intuition discriminate).
    cbn [machine]. change (at2 counts i j) with (at2 (A := Z) counts i j). lia.
  - exists f, o. split; [exact E|]. split; [exact F|].
    assert (N : forall x : f64, is_nan x = true -> x = F64.fnan) by (intros x; destruct x; intros; try discriminate; reflexivity).
    split; [|split].
    + apply N, (P 0 0); try lia. right; left; reflexivity.
    + apply (C99_integers 10); [lia|]. apply (P 0 1); try lia; [split; cbn; lia|reflexivity].
    + apply N, (P 1 0); try lia. left. intros [I _]. cbn in I. lia.
Qed.
