From Coq Require Import ZArith Bool List Reals Lra Lia FunctionalExtensionality.
From Flocq Require Import Core IEEE754.BinarySingleNaN.
From Verif.Base Require Import Py Arr F64.
From Verif.Model Require Import PadCrop PadCropT FrameT.
From Verif.Spec Require Import FrameTSpec.
From Verif.Proofs Require Import F64P PadCropP PadCropTP.
Open Scope Z_scope.

Lemma int_ok z : - 2 ^ 63 <= z < 2 ^ 63 -> is_finite (fofZ z) = true /\ fval (fofZ z) = rnd64 (IZR z).
Proof.
  intros H. destruct (fofZ_rnd z) as [A B]; [|auto].
  eapply Rle_lt_trans; [apply (abs_round_le_generic radix2 flt_exp ZnearestE (IZR z) (bpow radix2 63))|].
  - apply generic_format_bpow. cbn. lia.
  - rewrite <- abs_IZR. change (bpow radix2 63) with (IZR (2 ^ 63)). apply IZR_le. lia.
  - apply bpow_lt. lia.
Qed.
Lemma to_double_ok t v : machine t v -> same_pixel t v (to_double t v).
Proof.
  destruct t; cbn; intros M; auto.
  - destruct v; [destruct (fofZ_int 1)|destruct (fofZ_int 0)]; auto; lia.
  - apply int_ok. exact M.
Qed.
Lemma to_double_nan t v : machine t v -> (is_nan (to_double t v) = true <-> ~ is_number t v).
Proof.
  intros M. pose proof (to_double_ok t v M) as S. destruct t; cbn [same_pixel is_number to_double elt] in *.
  - destruct S as [F _]. destruct (fofZ (if v then 1 else 0)); cbn in *; try discriminate; intuition congruence.
  - destruct S as [F _]. destruct (fofZ v); cbn in *; try discriminate; intuition congruence.
  - destruct (is_nan v); intuition congruence.
  - destruct (is_nan (fst v)); intuition congruence.
Qed.

Lemma combine_t_ok t (frame : arr (elt t)) (bp : arr bool) : nr bp = nr frame -> nc bp = nc frame ->
  (forall i j, in_arr frame i j -> machine t (at2 frame i j)) ->
  exists out, combine_t t Tbool frame bp = Ok out /\ nr out = nr frame /\ nc out = nc frame /\
  forall i j, in_arr frame i j ->
    if at2 bp i j then at2 out i j = F64.fnan else same_pixel t (at2 frame i j) (at2 out i j).
Proof.
  intros Hr Hc M. unfold combine_t, guard. change (elt Tbool) with bool.
  unfold same_shape. rewrite Hr, Hc, !Z.eqb_refl. cbn [andb bind]. eexists. split; [reflexivity|].
  split; [reflexivity|]. split; [reflexivity|]. intros i j Hi. cbn. destruct (at2 bp i j); auto. apply to_double_ok, M, Hi.
Qed.
Lemma combine_t_err t tb (frame : arr (elt t)) (bp : arr (elt tb)) e :
  combine_t t tb frame bp = Err e <-> e = TypeError /\ (nr bp <> nr frame \/ nc bp <> nc frame \/ tb <> Tbool).
Proof.
  unfold combine_t, guard, same_shape.
  destruct (Z.eqb_spec (nr bp) (nr frame)); [destruct (Z.eqb_spec (nc bp) (nc frame))|]; cbn [andb bind].
  - destruct tb; split; intros H; try discriminate; try (destruct H as [_ [H|[H|H]]]; congruence);
      try (injection H as <-; split; auto; right; right; discriminate); try (destruct H as [-> _]; reflexivity).
  - split; [intros H; injection H as <-; auto|intros [-> _]; reflexivity].
  - split; [intros H; injection H as <-; auto|intros [-> _]; reflexivity].
Qed.

(** The excerpt of a frame, through the model without types. *)
Lemma crop_t_eq t (frame : arr (elt t)) lr lc rw cw :
  crop_t t frame lr lc rw cw =
  match crop (amap Some frame) lr lc rw cw with
  | Ok out => Ok (amap (fun o => match o with Some v => to_double t v | None => F64.fnan end) out)
  | Err e => Err e
  end.
Proof.
  unfold crop_t, crop, guard. change (nr (amap Some frame)) with (nr frame). change (nc (amap Some frame)) with (nc frame).
  destruct (0 <=? lr); [|reflexivity]. destruct (0 <=? lc); [|reflexivity]. destruct (0 <? rw); [|reflexivity].
  destruct (0 <? cw); [|reflexivity]. destruct (negb (nr frame <=? lr)); [|reflexivity]. destruct (negb (nc frame <=? lc)); [|reflexivity].
  cbn [bind]. unfold set_slice, get_slice. cbn [nr nc amap afull at2].
  destruct (bc_ok _ _ && bc_ok _ _); [|reflexivity]. unfold amap. cbn [nr nc at2]. do 2 f_equal.
  apply functional_extensionality; intros i. apply functional_extensionality; intros j.
  destruct (_ && _ && _ && _); reflexivity.
Qed.
Lemma crop_t_ok t (frame : arr (elt t)) lr lc rw cw :
  0 <= lr < nr frame -> 0 <= lc < nc frame -> 0 < rw -> 0 < cw ->
  (forall i j, in_arr frame i j -> machine t (at2 frame i j)) ->
  exists out, crop_t t frame lr lc rw cw = Ok out /\ nr out = rw /\ nc out = cw /\
  forall i j, 0 <= i < rw -> 0 <= j < cw ->
    if in_arrb frame (lr + i) (lc + j) then same_pixel t (at2 frame (lr + i) (lc + j)) (at2 out i j) else at2 out i j = F64.fnan.
Proof.
  intros Hr Hc Hh Hw M. rewrite crop_t_eq.
  destruct (crop_ok (amap Some frame) lr lc rw cw) as (o & E & A & B & P); auto.
  rewrite E. eexists. split; [reflexivity|]. cbn [amap nr nc at2]. split; [exact A|]. split; [exact B|].
  intros i j Hi Hj. rewrite P by auto. change (in_arrb (amap Some frame)) with (in_arrb frame).
  destruct (in_arrb frame (lr + i) (lc + j)) eqn:I; [|reflexivity]. apply to_double_ok, M, in_arrb_spec, I.
Qed.
Lemma crop_t_err t (frame : arr (elt t)) lr lc rw cw e : wf frame ->
  (crop_t t frame lr lc rw cw = Err e <->
   (e = TypeError /\ (lr < 0 \/ lc < 0 \/ rw <= 0 \/ cw <= 0)) \/
   (e = ValueError /\ 0 <= lr /\ 0 <= lc /\ 0 < rw /\ 0 < cw /\ (nr frame <= lr \/ nc frame <= lc))).
Proof.
  intros W. destruct (crop_rejects (amap Some frame) lr lc rw cw W) as [K1 K2]. rewrite crop_t_eq.
  change (nr (amap Some frame)) with (nr frame) in K2. change (nc (amap Some frame)) with (nc frame) in K2.
  destruct (Z_lt_le_dec lr 0); [rewrite K1 by lia; split; [intros H; injection H as <-; left; split; [reflexivity|lia]|intros [[-> _]|(_ & H)]; [reflexivity|lia]]|].
  destruct (Z_lt_le_dec lc 0); [rewrite K1 by lia; split; [intros H; injection H as <-; left; split; [reflexivity|lia]|intros [[-> _]|(_ & H)]; [reflexivity|lia]]|].
  destruct (Z_le_gt_dec rw 0); [rewrite K1 by lia; split; [intros H; injection H as <-; left; split; [reflexivity|lia]|intros [[-> _]|(_ & H)]; [reflexivity|lia]]|].
  destruct (Z_le_gt_dec cw 0); [rewrite K1 by lia; split; [intros H; injection H as <-; left; split; [reflexivity|lia]|intros [[-> _]|(_ & H)]; [reflexivity|lia]]|].
  destruct (Z_lt_le_dec lr (nr frame)); [destruct (Z_lt_le_dec lc (nc frame))|].
  - destruct (crop_ok (amap Some frame) lr lc rw cw) as (o & E & _); auto; try lia. rewrite E. split; [discriminate|intros [(_ & H)|(_ & H)]; lia].
  - rewrite K2 by lia. split; [intros H; injection H as <-; right; repeat split; lia|intros [(_ & H)|[-> _]]; [lia|reflexivity]].
  - rewrite K2 by lia. split; [intros H; injection H as <-; right; repeat split; lia|intros [(_ & H)|[-> _]]; [lia|reflexivity]].
Qed.
Lemma exact_pixel z : Z.abs z <= 2 ^ 53 -> round radix2 (FLT_exp (-1074) 53) ZnearestE (IZR z) = IZR z.
Proof. exact (rnd_IZR z). Qed.

(** The frame sent down: combine, then crop. *)
Lemma sent t (frame : arr (elt t)) (bp : arr bool) lr lc rw cw : nr bp = nr frame -> nc bp = nc frame ->
  0 <= lr < nr frame -> 0 <= lc < nc frame -> 0 < rw -> 0 < cw ->
  (forall i j, in_arr frame i j -> machine t (at2 frame i j)) ->
  exists full out, combine_t t Tbool frame bp = Ok full /\ crop_t Tfloat full lr lc rw cw = Ok out /\ nr out = rw /\ nc out = cw /\
  forall i j, 0 <= i < rw -> 0 <= j < cw ->
    (in_arr frame (lr + i) (lc + j) -> at2 bp (lr + i) (lc + j) = false -> same_pixel t (at2 frame (lr + i) (lc + j)) (at2 out i j)) /\
    (is_nan (at2 out i j) = true <-> ~ in_arr frame (lr + i) (lc + j) \/ at2 bp (lr + i) (lc + j) = true \/ ~ is_number t (at2 frame (lr + i) (lc + j))).
Proof.
  intros Hr Hc H1 H2 H3 H4 M. unfold combine_t, guard. change (elt Tbool) with bool.
  unfold same_shape. rewrite Hr, Hc, !Z.eqb_refl. cbn [andb bind]. eexists.
  match goal with |- exists out, Ok ?f = _ /\ _ => destruct (crop_t_ok Tfloat f lr lc rw cw) as (o & E & A & B & P); auto end.
  { intros. exact I. }
  exists o. split; [reflexivity|]. split; [exact E|]. split; [exact A|]. split; [exact B|]. intros i j Hi Hj.
  specialize (P i j Hi Hj). cbn [same_pixel amap2 amap nr nc at2] in P.
  match type of P with context [in_arrb ?x] => change (in_arrb x) with (in_arrb frame) in P end.
  destruct (in_arrb frame (lr + i) (lc + j)) eqn:Q.
  - apply in_arrb_spec in Q. rewrite P. destruct (at2 bp (lr + i) (lc + j)).
    + split; [discriminate|]. split; [auto|reflexivity].
    + split; [intros; apply to_double_ok; auto|]. rewrite to_double_nan by auto. intuition congruence.
  - assert (~ in_arr frame (lr + i) (lc + j)) by (rewrite <- in_arrb_spec; congruence).
    rewrite P. split; [tauto|]. split; [auto|reflexivity].
Qed.
