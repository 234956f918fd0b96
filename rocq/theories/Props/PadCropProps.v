(** Properties C01-C06: pad_crop, offcenter_crop, crop, combine, get_crop_lower. *)
From Coq Require Import ZArith Bool List Reals Lia Lra.
From Flocq Require Import Core.
From Verif.Base Require Import Py Arr.
From Verif.Model Require Import PadCrop.
From Verif.Proofs Require Import PadCropP.
Import ListNotations.
Open Scope Z_scope.

(** C01. Shape is the requested one; the pixel at offset (di,dj) from the output's centre pixel is the
    input pixel at the same offset from the input's centre pixel, or [fill] when there is none. *)
Theorem C01_pad_crop_pointwise : forall (A : Type) (a : arr A) (h w : Z) (fill : A),
  wf a -> 0 < h -> 0 < w ->
  exists out, pad_crop a [h; w] fill = Ok out /\ nr out = h /\ nc out = w /\
    forall i j, 0 <= i < h -> 0 <= j < w ->
      let r := i - h / 2 + nr a / 2 in
      let c := j - w / 2 + nc a / 2 in
      at2 out i j = if in_arrb a r c then at2 a r c else fill.
Proof. exact @pad_crop_ok. Qed.
Print Assumptions C01_pad_crop_pointwise.
Example C01_ex :
  exists out, pad_crop (of_rows 0 [[1;2;3];[4;5;6]]) [4;2] 9 = Ok out /\
  elements out = [9;9; 1;2; 4;5; 9;9].
Proof. eexists; split; reflexivity. Qed.

(** C01. The only failure is TypeError, exactly when outsize is not two positive integers. *)
Theorem C01_pad_crop_errors : forall (A : Type) (a : arr A) (sz : list Z) (fill : A) (e : exn),
  pad_crop a sz fill = Err e -> wf a ->
  e = TypeError /\ ~ exists h w, sz = [h; w] /\ 0 < h /\ 0 < w.
Proof. exact @pad_crop_err. Qed.
Print Assumptions C01_pad_crop_errors.
Example C01_err_ex : pad_crop (of_rows 0 [[1;2]]) [3;0] 9 = Err TypeError.
Proof. reflexivity. Qed.

(** C02. Same size: a copy. *)
Theorem C02_pad_crop_same_size : forall (A : Type) (a out : arr A) (fill : A), wf a ->
  pad_crop a [nr a; nc a] fill = Ok out -> aeq out a.
Proof. exact @pad_crop_same_lemma. Qed.
Print Assumptions C02_pad_crop_same_size.

(** C02. Pad then crop back is the identity, whatever the fill values. *)
Theorem C02_pad_crop_roundtrip : forall (A : Type) (a big back : arr A) (h w : Z) (fill fill' : A),
  wf a -> nr a <= h -> nc a <= w ->
  pad_crop a [h; w] fill = Ok big -> pad_crop big [nr a; nc a] fill' = Ok back -> aeq back a.
Proof. exact @pad_crop_roundtrip_lemma. Qed.
Print Assumptions C02_pad_crop_roundtrip.
Example C02_rt_ex :
  exists big back, pad_crop (of_rows 0 [[1;2;3];[4;5;6]]) [5;6] 9 = Ok big /\
  pad_crop big [2;3] 7 = Ok back /\ elements back = [1;2;3;4;5;6].
Proof. do 2 eexists; repeat split; reflexivity. Qed.

(** C02. Going through an intermediate size changes nothing if it is nowhere smaller than both ends. *)
Theorem C02_pad_crop_chain : forall (A : Type) (a mid out direct : arr A) (hm wm h w : Z) (fill : A),
  wf a -> Z.min (nr a) h <= hm -> Z.min (nc a) w <= wm ->
  pad_crop a [hm; wm] fill = Ok mid -> pad_crop mid [h; w] fill = Ok out ->
  pad_crop a [h; w] fill = Ok direct -> aeq out direct.
Proof. exact @pad_crop_chain_lemma. Qed.
Print Assumptions C02_pad_crop_chain.
Example C02_chain_ex :
  exists m o d, pad_crop (of_rows 0 [[1;2;3];[4;5;6]]) [2;4] 9 = Ok m /\
  pad_crop m [1;5] 9 = Ok o /\ pad_crop (of_rows 0 [[1;2;3];[4;5;6]]) [1;5] 9 = Ok d /\
  elements o = [9;4;5;6;9] /\ elements d = [9;4;5;6;9].
Proof. do 3 eexists; repeat split; reflexivity. Qed.

(** C02, finding: the docstring's unrestricted claim (pad_crop.py:22-25, "chained in no particular
    order without changing the final result") fails for every choice of sizes violating the guard. *)
Theorem C02_pad_crop_any_order_refuted : forall h0 w0 hm wm h w,
  0 < h0 -> 0 < w0 -> 0 < hm -> 0 < wm -> 0 < h -> 0 < w ->
  hm < Z.min h0 h \/ wm < Z.min w0 w ->
  exists (a mid out direct : arr bool), nr a = h0 /\ nc a = w0 /\
    pad_crop a [hm; wm] false = Ok mid /\ pad_crop mid [h; w] false = Ok out /\
    pad_crop a [h; w] false = Ok direct /\ ~ aeq out direct.
Proof. exact pad_crop_chain_necessary. Qed.
Print Assumptions C02_pad_crop_any_order_refuted.

(** C03. The window about pixel (round yc, round xc), zero outside the input; always n x n. *)
Theorem C03_offcenter_crop_pointwise :
  forall (A : Type) (zero : A) (a : arr A) (n : Z) (yc xc : R),
  0 < nr a -> 0 < nc a -> 0 < n ->
  exists out, offcenter_crop zero a n yc xc = Ok out /\ nr out = n /\ nc out = n /\
  forall i j, 0 <= i < n -> 0 <= j < n ->
    at2 out i j =
      (let r := ZnearestE yc - n / 2 + i in let c := ZnearestE xc - n / 2 + j in
       if in_arrb a r c then at2 a r c else zero).
Proof. exact @offcenter_crop_ok. Qed.
Print Assumptions C03_offcenter_crop_pointwise.
Example C03_ex : exists out,
  offcenter_crop 0 (of_rows 0 [[1;2];[3;4]]) 3 0%R 0%R = Ok out /\ at2 out 2 2 = 4 /\ at2 out 0 1 = 0.
Proof.
  destruct (offcenter_crop_ok 0 (of_rows 0 [[1;2];[3;4]]) 3 0%R 0%R) as (o & E & _ & _ & S);
    try (cbn; lia).
  assert (Z0 : ZnearestE 0 = 0) by exact (Zrnd_IZR ZnearestE 0).
  exists o; split; [exact E|]. rewrite !S by lia. rewrite Z0. split; reflexivity.
Qed.

(** C04. Window of the frame with NaN outside. *)
Theorem C04_crop_pointwise : forall (A : Type) (frame : arr (fnan A)) (lr lc rw cw : Z),
  0 <= lr < nr frame -> 0 <= lc < nc frame -> 0 < rw -> 0 < cw ->
  exists out, crop frame lr lc rw cw = Ok out /\ nr out = rw /\ nc out = cw /\
  forall i j, 0 <= i < rw -> 0 <= j < cw ->
    at2 out i j = if in_arrb frame (lr + i) (lc + j) then at2 frame (lr + i) (lc + j) else None.
Proof. exact @crop_ok. Qed.
Print Assumptions C04_crop_pointwise.
Example C04_ex : exists out,
  crop (of_rows None [[Some 1; Some 2];[Some 3; Some 4]]) 1 0 2 3 = Ok out /\
  elements out = [Some 3; Some 4; None; None; None; None].
Proof. eexists; split; reflexivity. Qed.

(** C04. Rejections: TypeError for wrong signs, ValueError for a start outside the frame. *)
Theorem C04_crop_rejects : forall (A : Type) (frame : arr (fnan A)) (lr lc rw cw : Z), wf frame ->
  (lr < 0 \/ lc < 0 \/ rw <= 0 \/ cw <= 0 -> crop frame lr lc rw cw = Err TypeError) /\
  (0 <= lr -> 0 <= lc -> 0 < rw -> 0 < cw -> nr frame <= lr \/ nc frame <= lc ->
     crop frame lr lc rw cw = Err ValueError).
Proof. exact @crop_rejects. Qed.
Print Assumptions C04_crop_rejects.

(** C04. Cropping a crop is the crop at the summed corner, on the pixels the first crop kept. *)
Theorem C04_crop_crop : forall (A : Type) (frame c1 c2 d : arr (fnan A))
    (r1 q1 h1 w1 r2 q2 h2 w2 : Z), wf frame ->
  crop frame r1 q1 h1 w1 = Ok c1 -> crop c1 r2 q2 h2 w2 = Ok c2 ->
  crop frame (r1 + r2) (q1 + q2) h2 w2 = Ok d ->
  nr c2 = nr d /\ nc c2 = nc d /\
  forall i j, 0 <= i < h2 -> 0 <= j < w2 ->
    at2 c2 i j = if (r2 + i <? h1) && (q2 + j <? w1) then at2 d i j else None.
Proof. exact @crop_crop_lemma. Qed.
Print Assumptions C04_crop_crop.
Example C04_cc_ex : let f := of_rows None [[Some 1; Some 2; Some 3];[Some 4; Some 5; Some 6]] in
  exists c1 c2 d, crop f 0 1 2 2 = Ok c1 /\ crop c1 1 0 1 2 = Ok c2 /\ crop f 1 1 1 2 = Ok d /\
  elements c2 = [Some 5; Some 6].
Proof. do 3 eexists; repeat split; reflexivity. Qed.

(** C05. NaN exactly at bad pixels (or where the frame was NaN); untouched elsewhere. *)
Theorem C05_combine_pointwise : forall (A : Type) (frame : arr (fnan A)) (bp : arr bool),
  nr bp = nr frame -> nc bp = nc frame ->
  exists out, combine frame bp = Ok out /\ nr out = nr frame /\ nc out = nc frame /\
  forall i j, in_arr frame i j ->
    (at2 bp i j = true -> at2 out i j = None) /\
    (at2 bp i j = false -> at2 out i j = at2 frame i j).
Proof. exact @combine_ok. Qed.
Print Assumptions C05_combine_pointwise.
Example C05_ex : exists out,
  combine (of_rows None [[Some 1; Some 2]]) (of_rows false [[true; false]]) = Ok out /\
  elements out = [None; Some 2].
Proof. eexists; split; reflexivity. Qed.

Theorem C05_combine_rejects : forall (A : Type) (frame : arr (fnan A)) (bp : arr bool),
  nr bp <> nr frame \/ nc bp <> nc frame -> combine frame bp = Err TypeError.
Proof. exact @combine_bad. Qed.
Print Assumptions C05_combine_rejects.

(** C05. Two bad-pixel maps in sequence are their union. *)
Theorem C05_combine_union : forall (A : Type) (frame f1 f2 f12 : arr (fnan A)) (b1 b2 : arr bool),
  combine frame b1 = Ok f1 -> combine f1 b2 = Ok f2 ->
  combine frame (amap2 orb b1 b2) = Ok f12 -> aeq f2 f12.
Proof. exact @combine_twice. Qed.
Print Assumptions C05_combine_union.

(** C06. The corner for a centre, clipped at 0 when [bound]. *)
Theorem C06_get_crop_lower : forall rc cc rw cw bound,
  0 <= rc -> 0 <= cc -> 0 < rw -> 0 < cw ->
  get_crop_lower rc cc rw cw bound =
    Ok (if bound then (Z.max (rc - rw / 2) 0, Z.max (cc - cw / 2) 0)
        else (rc - rw / 2, cc - cw / 2)).
Proof. exact get_crop_lower_ok. Qed.
Print Assumptions C06_get_crop_lower.

Theorem C06_get_crop_lower_rejects : forall rc cc rw cw bound,
  rc < 0 \/ cc < 0 \/ rw <= 0 \/ cw <= 0 -> get_crop_lower rc cc rw cw bound = Err TypeError.
Proof. exact get_crop_lower_err. Qed.
Print Assumptions C06_get_crop_lower_rejects.

(** C06 with C04. Cropping at the returned corner puts pixel (rc,cc) at (rw//2, cw//2), whenever the
    unclipped corner is not negative. *)
Theorem C06_crop_centred : forall (A : Type) (frame out : arr (fnan A)) (rc cc rw cw : Z)
    (bound : bool) (lr lc : Z), wf frame ->
  get_crop_lower rc cc rw cw bound = Ok (lr, lc) -> rw / 2 <= rc -> cw / 2 <= cc ->
  rc < nr frame -> cc < nc frame ->
  crop frame lr lc rw cw = Ok out ->
  at2 out (rw / 2) (cw / 2) = at2 frame rc cc.
Proof. exact @crop_centre_lemma. Qed.
Print Assumptions C06_crop_centred.
Example C06_ex : let f := of_rows None [[Some 1; Some 2; Some 3];[Some 4; Some 5; Some 6]] in
  get_crop_lower 1 2 2 3 true = Ok (0, 1) /\
  exists out, crop f 0 1 2 3 = Ok out /\ at2 out (2 / 2) (3 / 2) = Some 6.
Proof. split; [reflexivity|]. eexists; split; reflexivity. Qed.
