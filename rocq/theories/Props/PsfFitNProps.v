(** Property C103: psffit and bad pixels. *)
From Coq Require Import ZArith Bool List String Reals Lra Lia.
From Flocq Require Import Core.
From Verif.Base Require Import Py Arr.
From Verif.Model Require Import Yaml PsfFit PsfFitN.
From Verif.Spec Require Import PsfFitSpec PsfFitNSpec.
From Verif.Proofs Require Import PsfFitP PsfFitEx PsfFitNP.
Import ListNotations.
Open Scope Z_scope.

(** C103. A nan pixel in the target makes the amplitude nan; no exception is raised. (Missing: the same for the shift, which is
    finite, see below.) *)
Theorem C103_target_partial : forall shift src tgt cfg k, read_config cfg = Ok k -> 0 < nr src -> 0 < nc src ->
  nr tgt = nr src -> nc tgt = nc src -> bad_image tgt ->
  (upsample_factor k = 1 \/ 0 < upsample_factor k * pad_factor k)%R ->
  exists sh, psffit_n shift src tgt cfg = Ok (sh, None).
Proof.
  intros shift src tgt cfg k Ec Hr Hc Sr Sc B Hu. apply has_nan_iff in B.
  destruct (psffit_nan shift src tgt cfg k Ec Hr Hc Sr Sc (or_intror B)) as (amp & E & N).
  - destruct Hu as [U|U]; [left; exact U|right]. apply lt_IZR. apply Rlt_le_trans with (1 := U). apply Zceil_ub.
  - rewrite (N B) in E. eauto.
Qed.
Print Assumptions C103_target_partial.
(** C103. With a clean target the amplitude is nan if the shifted source has a nan on a pixel used for it. *)
Theorem C103_source_partial : forall shift src tgt cfg k sy sx amp mx i j, read_config cfg = Ok k ->
  psffit_n shift src (clean tgt) cfg = Ok ((sy, sx), amp) -> is_max tgt mx -> in_arr tgt i j ->
  (amp_thresh k * mx < at2 tgt i j)%R ->
  nr (shift src sy sx) = nr tgt -> nc (shift src sy sx) = nc tgt -> at2 (shift src sy sx) i j = None -> amp = None.
Proof.
  intros shift src tgt cfg k sy sx amp mx i j Ec E Hm I Hi S1 S2 N. unfold psffit_n in E. rewrite Ec in E. cbn [bind] in E.
  destruct (same_shape src (clean tgt)); [|discriminate E]. cbn [guard bind] in E.
  destruct (peak_shift_n _ _ _ _) as [[py px]|e]; [|discriminate E]. cbn [bind fst snd] in E. injection E as <- <- <-.
  apply (amplitude_guess tgt _ _ i j); auto.
  rewrite (is_max_unique tgt (amax tgt) mx); auto. destruct I. apply amax_ok; lia.
Qed.
Print Assumptions C103_source_partial.
(** C103. What the shift is when either image has a nan pixel: the same for all images, half the search window. *)
Theorem C103_shift : forall shift src tgt cfg k, read_config cfg = Ok k -> 0 < nr src -> 0 < nc src ->
  nr tgt = nr src -> nc tgt = nc src -> bad_image src \/ bad_image tgt ->
  let u := upsample_factor k in let g := Zceil (u * pad_factor k) in
  (u = 1%R -> exists amp, psffit_n shift src tgt cfg = Ok ((0, 0)%R, amp)) /\
  (u <> 1%R -> (0 < u * pad_factor k)%R ->
     exists amp, psffit_n shift src tgt cfg = Ok ((IZR (g / 2) / u, IZR (g / 2) / u)%R, amp)).
Proof.
  intros shift src tgt cfg k Ec Hr Hc Sr Sc B u g.
  assert (B' : has_nan src = true \/ has_nan tgt = true) by (destruct B as [B|B]; apply has_nan_iff in B; auto). split.
  - intros U. destruct (psffit_nan shift src tgt cfg k Ec Hr Hc Sr Sc B' (or_introl U)) as (amp & E & _).
    exists amp. rewrite E. destruct (Req_EM_T (upsample_factor k) 1); [reflexivity|tauto].
  - intros U P. assert (G : 0 < g) by (apply lt_IZR; apply Rlt_le_trans with (1 := P); apply Zceil_ub).
    destruct (psffit_nan shift src tgt cfg k Ec Hr Hc Sr Sc B' (or_intror G)) as (amp & E & _).
    exists amp. rewrite E. destruct (Req_EM_T (upsample_factor k) 1); [tauto|reflexivity].
Qed.
Print Assumptions C103_shift.
(** C103. Hence a finite shift is no sign that the images were registered: with the default configuration any source and any
    target with one bad pixel, however large the true shift, give 0.75 pixel along both axes. *)
Theorem C103_shift_refuted : forall shift src tgt, 0 < nr src -> 0 < nc src -> nr tgt = nr src -> nc tgt = nc src ->
  bad_image src \/ bad_image tgt -> exists amp, psffit_n shift src tgt cfg_ex = Ok ((3 / 4, 3 / 4)%R, amp).
Proof.
  intros shift src tgt Hr Hc Sr Sc B. destruct (C103_shift shift src tgt cfg_ex k_ex cfg_ok Hr Hc Sr Sc B) as [_ H].
  cbn [upsample_factor pad_factor k_ex] in H. replace (200 * (3 / 2))%R with 300%R in H by lra. rewrite (Zceil_IZR 300) in H.
  destruct (H ltac:(lra) ltac:(lra)) as [amp E]. exists amp. rewrite E. change (300 / 2) with 150. do 3 f_equal; lra.
Qed.
Print Assumptions C103_shift_refuted.
(** C103. Images without bad pixels: the model with nan is the model of C45 and C46. *)
Theorem C103_clean : forall shift shift_n src tgt cfg,
  (forall a dy dx, shift_n (clean a) dy dx = clean (shift a dy dx)) ->
  psffit_n shift_n (clean src) (clean tgt) cfg = psffit shift src tgt cfg.
Proof. intros. apply psffit_clean. assumption. Qed.
Print Assumptions C103_clean.

(** Non-vacuity: the default configuration, a target with a bad corner, a shift that spreads nan over the image. *)
Definition spreads (a : arr (option R)) (dy dx : R) : arr (option R) :=
  if has_nan a then amap (fun _ => None) a else a.
Example C103_ex : read_config cfg_ex = Ok k_ex /\ (0 < upsample_factor k_ex * pad_factor k_ex)%R /\
  bad_image (Arr 4 5 (fun i j => if (i + j =? 0) then None else Some (IZR i))).
Proof. split; [exact cfg_ok|]. split; [cbn; lra|]. exists 0, 0. split; [split; cbn; lia|reflexivity]. Qed.
Example C103_ex_source : exists sh, psffit_n spreads (Arr 4 5 (fun i j => if (i + j =? 0) then None else Some (IZR i))) (clean (afull 4 5 1%R)) cfg_ex = Ok (sh, None).
Proof.
  set (s := Arr 4 5 _). assert (B : bad_image s) by (exists 0, 0; split; [split; cbn; lia|reflexivity]).
  destruct (C103_shift_refuted spreads s (clean (afull 4 5 1%R)) ltac:(reflexivity) ltac:(reflexivity) eq_refl eq_refl (or_introl B)) as [amp E].
  exists (3 / 4, 3 / 4)%R. rewrite E. do 2 f_equal.
  apply (C103_source_partial spreads s (afull 4 5 1%R) cfg_ex k_ex _ _ amp 1 0 0 cfg_ok E).
  - split; [exists 0, 0; split; [split; cbn; lia|reflexivity]|intros; cbn; lra].
  - split; cbn; lia.
  - cbn [amp_thresh k_ex afull at2]. lra.
  - unfold spreads. destruct (has_nan s); reflexivity.
  - unfold spreads. destruct (has_nan s); reflexivity.
  - unfold spreads. rewrite (proj2 (has_nan_iff s) B). reflexivity.
Qed.
