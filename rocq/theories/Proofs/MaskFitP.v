(** fit_pupil_mask_offsets and fit_shaped_pupil_mask_offsets. *)
From Coq Require Import ZArith Bool List Reals Lra Lia String FunctionalExtensionality.
From Flocq Require Import Core.
From Coquelicot Require Import Complex.
From Verif.Base Require Import Py Arr Vec Sums CSum Lstsq.
From Verif.Model Require Import Math Noll Fits PadCrop PsfFit MaskGen PupilUtil FitShapes Unwrap PupilFit MaskFit.
From Verif.Spec Require Import ConjugateSpec MathSpec FitsSpec PsfFitSpec MaskGenSpec PupilUtilSpec PupilFitSpec MaskFitSpec.
From Verif.Proofs Require Import MathP PadCropP FitsP DarkHoleP MaskGenP MaskGenEx PsfFitP PupilUtilP PupilUtilN PupilUtilL PupilUtilC FitShapesP PupilFitP PupilFitQ.
Import ListNotations.
Open Scope list_scope.
Open Scope Z_scope.

(** ** Normalization *)
Lemma scaled_ok image f b : scaled_image image f = Ok b -> f <> 0%R /\ in_units image f b.
Proof.
  unfold scaled_image. destruct (Req_EM_T f 0) as [|N]; [discriminate|]. intros H. injection H as <-. split; [exact N|].
  split; [reflexivity|]. split; [reflexivity|]. intros i j _. cbn [amap at2]. destruct (Rltb (at2 image i j / f) 0) eqn:E.
  - apply Rltb_iff in E. rewrite Rmax_left; lra.
  - assert (~ at2 image i j / f < 0)%R by (intros Q; apply Rltb_iff in Q; congruence). rewrite Rmax_right; lra.
Qed.
Lemma level_ok image b q f : ampthresh image 21 = Ok b -> compute_norm_factor image (amap of_bool b) q = Ok f -> bright_level image q f.
Proof. intros E F. apply norm_ok in F as (_ & _ & _ & _ & P). exists b. auto. Qed.
Lemma normalized_ok image q a : normalized_amplitude image q = Ok a -> amplitude_of image q a /\ nr a = nr image /\ nc a = nc image /\ 0 < nr image /\ 0 < nc image.
Proof.
  unfold normalized_amplitude. intros H. apply bind_ok in H as (m & Em & H). apply bind_ok in H as (f & Ef & H). apply bind_ok in H as (s & Es & H).
  injection H as <-. destruct (scaled_ok _ _ _ Es) as [Nf U]. destruct (ampthresh_nonempty _ _ _ Em) as (P1 & P2 & _). pose proof U as (U1 & U2 & _).
  split; [|cbn; auto]. exists f, s. split; [exact (level_ok _ _ _ _ Em Ef)|]. split; [exact Nf|]. split; [exact U|]. split; [reflexivity|]. split; [reflexivity|]. reflexivity.
Qed.
Lemma scaled_scale image image' s f f' b : (0 < s)%R -> aeq image' (amap (fun v => s * v)%R image) -> f' = (s * f)%R -> scaled_image image f = Ok b ->
  exists b', scaled_image image' f' = Ok b' /\ aeq b b'.
Proof.
  intros Hs A -> H. unfold scaled_image in *. destruct (Req_EM_T f 0) as [|Nf]; [discriminate|]. injection H as <-.
  destruct (Req_EM_T (s * f) 0) as [Q|_]; [apply Rmult_integral in Q; lra|]. eexists. split; [reflexivity|]. pose proof A as (A1 & A2 & A3). cbn [amap nr nc] in A1, A2.
  split; [cbn; congruence|]. split; [cbn; congruence|]. intros i j I. cbn [amap at2].
  rewrite A3 by (unfold in_arr in *; cbn [amap nr nc] in I; rewrite A1, A2; exact I). cbn [amap at2].
  replace (s * at2 image i j / (s * f))%R with (at2 image i j / f)%R by (field; split; lra). reflexivity.
Qed.
Lemma level_scale image s q b f : (0 < s)%R -> ampthresh image 21 = Ok b -> compute_norm_factor image (amap of_bool b) q = Ok f ->
  exists b', ampthresh (amap (fun v => s * v)%R image) 21 = Ok b' /\ aeq b b' /\ compute_norm_factor (amap (fun v => s * v)%R image) (amap of_bool b') q = Ok (s * f)%R.
Proof.
  intros Hs Eb Ef. destruct (ampthresh_scaled image (amap (fun v => s * v)%R image) s 21 b Hs (aeq_refl _) Eb) as (b' & Eb' & A).
  exists b'. split; [exact Eb'|]. split; [exact A|]. pose proof (norm_affine image (amap of_bool b) q f s 0 ltac:(lra) Ef) as K. rewrite Rplus_0_r in K.
  eapply norm_aeq; [|apply aeq_amap, A|exact K]. split; [reflexivity|]. split; [reflexivity|]. intros. cbn [amap at2]. ring.
Qed.
Lemma normalized_scale image q s a : (0 < s)%R -> normalized_amplitude image q = Ok a ->
  exists a', normalized_amplitude (amap (fun v => s * v)%R image) q = Ok a' /\ aeq a a'.
Proof.
  intros Hs H. unfold normalized_amplitude in *. apply bind_ok in H as (m & Em & H). apply bind_ok in H as (f & Ef & H). apply bind_ok in H as (b & Es & H). injection H as <-.
  destruct (level_scale image s q m f Hs Em Ef) as (m' & -> & _ & E). cbn [bind]. rewrite E. cbn [bind].
  destruct (scaled_scale image _ s f _ b Hs (aeq_refl _) eq_refl Es) as (b' & -> & A). cbn [bind]. eexists. split; [reflexivity|apply aeq_amap, A].
Qed.

(** ** Windows *)
Lemma pad_crop_rec2 (a : arr R) h w p : wf a -> pad_crop a [h; w] 0%R = Ok p -> 0 < h /\ 0 < w /\ recentred a h w p.
Proof.
  intros W E. destruct (pad_crop_inv _ _ _ _ W E) as (h' & w' & S & Hh & Hw & E1 & E2 & V). injection S as <- <-.
  split; [exact Hh|]. split; [exact Hw|]. split; [exact E1|]. split; [exact E2|]. intros i j [Hi Hj]. apply V; lia.
Qed.
Lemma crop_window (a w : arr R) N yc xc : 0 < nr a -> 0 < nc a -> offcenter_crop 0%R a N (IZR (nr a / 2 + yc)) (IZR (nc a / 2 + xc)) = Ok w ->
  0 < N /\ nr w = N /\ nc w = N /\ forall i j, 0 <= i < N -> 0 <= j < N -> window w N 0 0 i j = window a N yc xc i j.
Proof.
  intros P1 P2 E. assert (HN : 0 < N). { unfold offcenter_crop, guard in E. destruct (Z.ltb_spec 0 N); [assumption|discriminate]. }
  destruct (offcenter_crop_ok 0%R a N (IZR (nr a / 2 + yc)) (IZR (nc a / 2 + xc)) P1 P2 HN) as (o & Eo & O1 & O2 & V). rewrite Eo in E. injection E as <-.
  split; [exact HN|]. split; [exact O1|]. split; [exact O2|]. intros i j Hi Hj. unfold window at 1. cbv zeta. rewrite O1, O2.
  replace (N / 2 + 0 + (i - N / 2)) with i by lia. replace (N / 2 + 0 + (j - N / 2)) with j by lia. rewrite (proj2 (in_arrb_spec o i j)) by (split; lia).
  rewrite V by lia. cbv zeta. rewrite !ZnearestE_IZR. unfold window. cbv zeta.
  replace (nr a / 2 + yc - N / 2 + i) with (nr a / 2 + yc + (i - N / 2)) by lia. replace (nc a / 2 + xc - N / 2 + j) with (nc a / 2 + xc + (j - N / 2)) by lia. reflexivity.
Qed.
Lemma crop_defined (a : arr R) N yc xc : 0 < nr a -> 0 < nc a -> 0 < N -> exists w, offcenter_crop 0%R a N (IZR (nr a / 2 + yc)) (IZR (nc a / 2 + xc)) = Ok w.
Proof. intros P1 P2 HN. destruct (offcenter_crop_ok 0%R a N (IZR (nr a / 2 + yc)) (IZR (nc a / 2 + xc)) P1 P2 HN) as (o & Eo & _). eauto. Qed.
Lemma product_aeq a a' b b' : aeq a a' -> aeq b b' -> nr b = nr a -> nc b = nc a -> aeq (product a b) (product a' b').
Proof.
  intros (A1 & A2 & A3) (B1 & B2 & B3) S1 S2. split; [exact A1|]. split; [exact A2|]. intros i j I. cbn [product at2]. rewrite A3 by exact I.
  rewrite B3 by (unfold in_arr in *; cbn [product nr nc] in I; rewrite S1, S2; exact I). reflexivity.
Qed.

(** ** fit_pupil_mask_offsets *)
Section Offsets.
Variables (lstsq : lstsq_fun) (rotate : rotate_fun) (spline : bispline_fun) (fuel : nat) (rnd : R -> R).
Local Notation pass := (offset_pass lstsq rotate spline fuel rnd).
Local Notation fit := (fit_pupil_mask_offsets lstsq rotate spline fuel rnd).
Local Notation mask p d mag clock x y := (rotate_shift_downsample rotate spline (m_maskRef p) clock (d * mag / m_diamHighRes p) x y (12 / 10) false).

(** A pass, in terms of the windows. *)
Lemma pass_inv u m g p xP yP d mag clock x y s : wf (m_maskRef p) -> 0 < nr u -> 0 < nc u -> nr m = nr u -> nc m = nc u ->
  pass u m g p xP yP d mag clock x y = Some (Ok s) ->
  exists ref r, mask p d mag clock (x + xP)%R (y + yP)%R = Ok ref /\ pad_crop ref [nr u; nc u] 0%R = Ok r /\ recentred ref (nr u) (nc u) r /\
    (0 < d)%R /\ 0 < m_nPhaseSteps p /\ (0 < m_dPixel p)%R /\ 0 < m_nPadFFT p /\ 0 < m_nFocusCrop p /\ 0 < m_nIterInner p /\
    (do o <- lateral_loop lstsq (misfit (m_nPadFFT p) (m_nFocusCrop p) (window m (m_nPadFFT p) (ZnearestE yP) (ZnearestE xP))
        (window (product u r) (m_nPadFFT p) (ZnearestE yP) (ZnearestE xP))) (m_nPhaseSteps p) (m_nIterInner p) 0 (Z.to_nat (m_nIterInner p)) (0, 0, m_dPixel p)%R;
     Ok (x + g * fst (fst o), y + g * snd (fst o))%R) = Ok s.
Proof.
  intros W P1 P2 M1 M2 H. unfold offset_pass in H. apply obind_ok in H as ([me si] & E & H). injection E as E.
  apply bind_ok in E as (ref & Er & E). apply bind_ok in E as (r & Ep & E). cbv zeta in E.
  apply bind_ok in E as (me0 & Em & E). apply bind_ok in E as (si0 & Es & E). injection E as <- <-. cbn [fst snd] in H.
  apply obind_ok in H as ([dy dx] & L & H). cbn [fst snd] in H.
  pose proof (down_wf' _ _ _ _ _ _ _ _ _ _ W Er) as W0. destruct (pad_crop_rec2 _ _ _ _ W0 Ep) as (_ & _ & Rr).
  exists ref, r. split; [exact Er|]. split; [exact Ep|]. split; [exact Rr|].
  destruct (lateral_positive _ _ _ _ _ _ _ _ _ _ _ _ _ _ _ _ L) as (Q1 & Q2 & Q3 & Q4 & Q5 & Q6 & _). do 6 (split; [assumption|]).
  rewrite <- M1, <- M2 in Em. destruct (crop_window m me0 _ _ _ ltac:(lia) ltac:(lia) Em) as (_ & N1 & N2 & Wm).
  change (amap2 Rmult u r) with (product u r) in Es. change (nr u) with (nr (product u r)) in Es. change (nc u) with (nc (product u r)) in Es.
  destruct (crop_window (product u r) si0 _ _ _ P1 P2 Es) as (_ & N3 & N4 & Wsi).
  rewrite (lateral_unfold lstsq fuel rnd me0 si0 d _ _ _ _ _ false 0 0 0 0) in L; try assumption; try lia; [|unfold wf; lia|split; symmetry; apply ZnearestE_IZR].
  rewrite (misfit_ext _ _ _ _ _ _ Wm Wsi) in L. destruct (lateral_loop _ _ _ _ _ _ _) as [o|e]; cbn [bind] in *; [|discriminate].
  injection L as <- <-. injection H as <-. rewrite !Rplus_0_l. reflexivity.
Qed.
Lemma pass_intro u m g p xP yP d mag clock x y ref r : wf (m_maskRef p) -> 0 < nr u -> 0 < nc u -> nr m = nr u -> nc m = nc u ->
  mask p d mag clock (x + xP)%R (y + yP)%R = Ok ref -> pad_crop ref [nr u; nc u] 0%R = Ok r ->
  (0 < d)%R -> 0 < m_nPhaseSteps p -> (0 < m_dPixel p)%R -> 0 < m_nPadFFT p -> 0 < m_nFocusCrop p -> 0 < m_nIterInner p ->
  pass u m g p xP yP d mag clock x y =
    Some (do o <- lateral_loop lstsq (misfit (m_nPadFFT p) (m_nFocusCrop p) (window m (m_nPadFFT p) (ZnearestE yP) (ZnearestE xP))
        (window (product u r) (m_nPadFFT p) (ZnearestE yP) (ZnearestE xP))) (m_nPhaseSteps p) (m_nIterInner p) 0 (Z.to_nat (m_nIterInner p)) (0, 0, m_dPixel p)%R;
     Ok (x + g * fst (fst o), y + g * snd (fst o))%R).
Proof.
  intros W P1 P2 M1 M2 Er Ep Q1 Q2 Q3 Q4 Q5 Q6. unfold offset_pass. rewrite Er. cbn [bind]. rewrite Ep. cbn [bind]. cbv zeta.
  destruct (crop_defined m (m_nPadFFT p) (ZnearestE yP) (ZnearestE xP)) as (me & Em); [lia..|]. rewrite M1, M2 in Em. rewrite Em. cbn [bind].
  change (amap2 Rmult u r) with (product u r).
  destruct (crop_defined (product u r) (m_nPadFFT p) (ZnearestE yP) (ZnearestE xP)) as (si & Es); [cbn; lia..|].
  change (nr (product u r)) with (nr u) in Es. change (nc (product u r)) with (nc u) in Es. rewrite Es. cbn [bind obind fst snd].
  rewrite <- M1, <- M2 in Em. destruct (crop_window m me _ _ _ ltac:(lia) ltac:(lia) Em) as (_ & N1 & N2 & Wm).
  change (nr u) with (nr (product u r)) in Es. change (nc u) with (nc (product u r)) in Es.
  destruct (crop_window (product u r) si _ _ _ P1 P2 Es) as (_ & N3 & N4 & Wsi).
  rewrite (lateral_unfold lstsq fuel rnd me si d _ _ _ _ _ false 0 0 0 0); try assumption; try lia; [|unfold wf; lia|split; symmetry; apply ZnearestE_IZR].
  rewrite (misfit_ext _ _ _ _ _ _ Wm Wsi). destruct (lateral_loop _ _ _ _ _ _ _) as [o|e]; cbn [bind obind]; [|reflexivity].
  cbn [fst snd]. rewrite !Rplus_0_l. reflexivity.
Qed.
Lemma pass_ok u m g p xP yP d mag clock x y x' y' : is_lstsq_oracle lstsq -> wf (m_maskRef p) -> 0 < nr u -> 0 < nc u -> nr m = nr u -> nc m = nc u ->
  pass u m g p xP yP d mag clock x y = Some (Ok (x', y')) ->
  mask_pass rotate spline u m g (m_nPadFFT p) (m_nFocusCrop p) (m_nPhaseSteps p) (m_nIterInner p) (m_dPixel p) (m_maskRef p) (d * mag / m_diamHighRes p) clock xP yP x y x' y'.
Proof.
  intros O W P1 P2 M1 M2 H. destruct (pass_inv _ _ _ _ _ _ _ _ _ _ _ _ W P1 P2 M1 M2 H) as (ref & r & Er & _ & Rr & Q1 & Q2 & Q3 & Q4 & Q5 & Q6 & L).
  apply bind_ok in L as (o & L & E). injection E as <- <-. apply (loop_search lstsq O) in L; auto.
  eexists _, (fst (fst o)), (snd (fst o)). split; [exists ref, r; split; [exact Er|]; split; [exact Rr|reflexivity]|]. auto.
Qed.
Lemma pass_none u m g p xP yP d mag clock x y : pass u m g p xP yP d mag clock x y <> None.
Proof.
  unfold offset_pass. match goal with |- obind (Some ?r) _ <> None => destruct r as [ms|] end; cbn [obind]; [|discriminate].
  match goal with |- obind ?L _ <> None => assert (K : L <> None); [|destruct L as [[]|]; cbn [obind]; [discriminate|discriminate|contradiction]] end.
  unfold compute_lateral_offsets. repeat (match goal with |- (if ?b then _ else _) <> None => destruct b; [discriminate|] end). discriminate.
Qed.
Lemma fit_offsets_inv u m g p xP yP d mag clock s : fit u m g p xP yP d mag clock = Some (Ok s) ->
  nr m = nr u /\ nc m = nc u /\ 0 < nr u /\ 0 < nc u /\ (0 < g)%R /\ (0 < d)%R /\ (0 < mag)%R /\
  exists au am, normalized_amplitude u (m_percentile p) = Ok au /\ normalized_amplitude m (m_percentile p) = Ok am /\
    offset_passes (pass au am g p xP yP d mag clock) (Z.to_nat (m_nIterOuter p)) 0 0 = Some (Ok s).
Proof.
  unfold fit_pupil_mask_offsets. intros H. apply obind_ok in H as ([au am] & E & H). injection E as E.
  apply guard_ok in E as [E1 E]. apply guard_ok in E as [E2 E]. apply guard_ok in E as [E3 E]. apply guard_ok in E as [E4 E].
  apply bind_ok in E as (au' & E5 & E). apply bind_ok in E as (am' & E6 & E). injection E as <- <-. apply same_shape_iff in E1 as [S1 S2].
  apply Rltb_iff in E2, E3, E4. destruct (normalized_ok _ _ _ E5) as (_ & _ & _ & P1 & P2). repeat (split; [congruence || assumption|]). exists au', am'. auto.
Qed.
Lemma fit_offsets_intro u m g p xP yP d mag clock au am : nr m = nr u -> nc m = nc u -> (0 < g)%R -> (0 < d)%R -> (0 < mag)%R ->
  normalized_amplitude u (m_percentile p) = Ok au -> normalized_amplitude m (m_percentile p) = Ok am ->
  fit u m g p xP yP d mag clock = offset_passes (pass au am g p xP yP d mag clock) (Z.to_nat (m_nIterOuter p)) 0 0.
Proof.
  intros S1 S2 G D M E1 E2. unfold fit_pupil_mask_offsets. rewrite (proj2 (same_shape_iff u m)) by (split; congruence).
  rewrite (proj2 (Rltb_iff 0 g) G), (proj2 (Rltb_iff 0 d) D), (proj2 (Rltb_iff 0 mag) M). cbn [guard bind]. rewrite E1. cbn [bind]. rewrite E2. cbn [bind obind]. reflexivity.
Qed.
Lemma passes_ok u m g p xP yP d mag clock : is_lstsq_oracle lstsq -> wf (m_maskRef p) -> 0 < nr u -> 0 < nc u -> nr m = nr u -> nc m = nc u ->
  forall n x y x' y', offset_passes (pass u m g p xP yP d mag clock) n x y = Some (Ok (x', y')) ->
  repeated (mask_pass rotate spline u m g (m_nPadFFT p) (m_nFocusCrop p) (m_nPhaseSteps p) (m_nIterInner p) (m_dPixel p) (m_maskRef p)
    (d * mag / m_diamHighRes p) clock xP yP) n x y x' y'.
Proof.
  intros O W P1 P2 M1 M2. induction n as [|n IH]; intros x y x' y' H; cbn [offset_passes] in H.
  - injection H as <- <-. constructor.
  - apply obind_ok in H as ([x1 y1] & E & H). econstructor; [exact (pass_ok _ _ _ _ _ _ _ _ _ _ _ _ _ O W P1 P2 M1 M2 E)|apply IH, H].
Qed.
Lemma fit_offsets_ok u m g p xP yP d mag clock x y : is_lstsq_oracle lstsq -> wf (m_maskRef p) ->
  fit u m g p xP yP d mag clock = Some (Ok (x, y)) ->
  exists au am, amplitude_of u (m_percentile p) au /\ amplitude_of m (m_percentile p) am /\
    repeated (mask_pass rotate spline au am g (m_nPadFFT p) (m_nFocusCrop p) (m_nPhaseSteps p) (m_nIterInner p) (m_dPixel p) (m_maskRef p)
      (d * mag / m_diamHighRes p) clock xP yP) (Z.to_nat (m_nIterOuter p)) 0 0 x y.
Proof.
  intros O W H. apply fit_offsets_inv in H as (S1 & S2 & P1 & P2 & _ & _ & _ & au & am & E1 & E2 & H).
  destruct (normalized_ok _ _ _ E1) as (A1 & N1 & N2 & _). destruct (normalized_ok _ _ _ E2) as (A2 & N3 & N4 & _).
  exists au, am. split; [exact A1|]. split; [exact A2|]. apply passes_ok; auto; try lia.
Qed.
Lemma passes_none u m g p xP yP d mag clock : forall n x y, offset_passes (pass u m g p xP yP d mag clock) n x y <> None.
Proof.
  induction n as [|n IH]; intros x y; cbn [offset_passes]; [discriminate|]. pose proof (pass_none u m g p xP yP d mag clock x y).
  destruct (pass _ _ _ _ _ _ _ _ _ x y) as [[s|]|]; cbn [obind]; [apply IH|discriminate|contradiction].
Qed.
Lemma fit_offsets_terminates u m g p xP yP d mag clock : fit u m g p xP yP d mag clock <> None.
Proof.
  unfold fit_pupil_mask_offsets. match goal with |- obind (Some ?r) _ <> None => destruct r as [ms|] end; cbn [obind]; [apply passes_none|discriminate].
Qed.
(** Only the amplitudes matter. *)
Lemma pass_aeq u u' m m' g p xP yP d mag clock x y s : wf (m_maskRef p) -> 0 < nr u -> 0 < nc u -> nr m = nr u -> nc m = nc u -> aeq u u' -> aeq m m' ->
  pass u m g p xP yP d mag clock x y = Some (Ok s) -> pass u' m' g p xP yP d mag clock x y = Some (Ok s).
Proof.
  intros W P1 P2 M1 M2 A B H. pose proof A as (A1 & A2 & _). pose proof B as (B1 & B2 & _).
  destruct (pass_inv _ _ _ _ _ _ _ _ _ _ _ _ W P1 P2 M1 M2 H) as (ref & r & Er & Ep & Rr & Q1 & Q2 & Q3 & Q4 & Q5 & Q6 & L).
  rewrite (pass_intro u' m' g p xP yP d mag clock x y ref r); try assumption; try lia; [|rewrite <- A1, <- A2; exact Ep].
  f_equal. rewrite <- L. destruct Rr as (R1 & R2 & _). do 2 f_equal. apply misfit_ext; intros; symmetry; apply window_aeq; auto.
  apply product_aeq; auto. apply aeq_refl.
Qed.
Lemma passes_aeq u u' m m' g p xP yP d mag clock : wf (m_maskRef p) -> 0 < nr u -> 0 < nc u -> nr m = nr u -> nc m = nc u -> aeq u u' -> aeq m m' ->
  forall n x y s, offset_passes (pass u m g p xP yP d mag clock) n x y = Some (Ok s) -> offset_passes (pass u' m' g p xP yP d mag clock) n x y = Some (Ok s).
Proof.
  intros W P1 P2 M1 M2 A B. induction n as [|n IH]; intros x y s H; cbn [offset_passes] in *; [exact H|].
  apply obind_ok in H as (t & E & H). rewrite (pass_aeq u u' m m' g p xP yP d mag clock x y t) by assumption. cbn [obind]. apply IH, H.
Qed.
Lemma fit_offsets_brightness u m g p xP yP d mag clock s t r : wf (m_maskRef p) -> (0 < s)%R -> (0 < t)%R ->
  fit u m g p xP yP d mag clock = Some (Ok r) -> fit (amap (fun v => s * v)%R u) (amap (fun v => t * v)%R m) g p xP yP d mag clock = Some (Ok r).
Proof.
  intros W Hs Ht H. apply fit_offsets_inv in H as (S1 & S2 & P1 & P2 & G & D & M & au & am & E1 & E2 & H).
  destruct (normalized_scale u _ s au Hs E1) as (au' & E1' & A1). destruct (normalized_scale m _ t am Ht E2) as (am' & E2' & A2).
  rewrite (fit_offsets_intro _ _ g p xP yP d mag clock au' am'); auto.
  destruct (normalized_ok _ _ _ E1) as (_ & N1 & N2 & _). destruct (normalized_ok _ _ _ E2) as (_ & N3 & N4 & _).
  eapply passes_aeq; [exact W|..|exact A1|exact A2|exact H]; lia.
Qed.
(** A measured window that is the simulated one moved by whole pixels: the estimate moves by the gain times that. *)
Lemma window_self N (f : Z -> Z -> R) : forall i j, 0 <= i < N -> 0 <= j < N -> window (Arr N N f) N 0 0 i j = f i j.
Proof.
  intros i j Hi Hj. unfold window. cbv zeta. cbn [nr nc]. replace (N / 2 + 0 + (i - N / 2)) with i by lia. replace (N / 2 + 0 + (j - N / 2)) with j by lia.
  rewrite (proj2 (in_arrb_spec (Arr N N f) i j)) by (split; cbn; lia). reflexivity.
Qed.
Lemma recentred_unique ref h w r r' : recentred ref h w r -> recentred ref h w r' -> aeq r r'.
Proof.
  intros (R1 & R2 & R3) (R1' & R2' & R3'). split; [congruence|]. split; [congruence|]. intros i j I. rewrite R3 by exact I.
  rewrite R3' by (unfold in_arr in *; rewrite R1', R2'; rewrite R1, R2 in I; exact I). reflexivity.
Qed.
Lemma pass_recovers u m g p xP yP d mag clock x y ref r dy dx : is_lstsq_oracle lstsq -> wf (m_maskRef p) -> 0 < nr u -> 0 < nc u -> nr m = nr u -> nc m = nc u ->
  mask p d mag clock (x + xP)%R (y + yP)%R = Ok ref -> recentred ref (nr u) (nc u) r ->
  let N := m_nPadFFT p in let n := m_nPhaseSteps p in let sim := window (product u r) N (ZnearestE yP) (ZnearestE xP) in
  window_shift N sim dy dx (window m N (ZnearestE yP) (ZnearestE xP)) ->
  2 <= n -> 2 <= N -> N mod 2 = 0 -> 2 <= m_nFocusCrop p -> 2 <= m_nIterInner p -> (0 < d)%R -> (0 < m_dPixel p)%R ->
  spectrum N sim 0 (-1) <> RtoC 0 -> spectrum N sim (-1) 0 <> RtoC 0 ->
  (exists i j, 0 <= i < n /\ 0 <= j < n /\ trial n (m_dPixel p) 0 j = IZR dx /\ trial n (m_dPixel p) 0 i = IZR dy) ->
  (IZR (n - 1) * m_dPixel p < IZR N)%R ->
  pass u m g p xP yP d mag clock x y = Some (Err (Custom "QuadraticException")) \/
  pass u m g p xP yP d mag clock x y = Some (Ok (x + g * IZR dx, y + g * IZR dy)%R).
Proof.
  intros O W P1 P2 M1 M2 Er Rr. cbv zeta. intros Sh H1 H3 H4 H5 H6 Q1 Q3 S1 S2 Hg Hw.
  pose proof (down_wf' _ _ _ _ _ _ _ _ _ _ W Er) as W0.
  destruct (pad_crop_ok ref (nr u) (nc u) 0%R W0 P1 P2) as (r' & Ep & _). destruct (pad_crop_rec2 _ _ _ _ W0 Ep) as (_ & _ & Rr').
  rewrite (pass_intro u m g p xP yP d mag clock x y ref r') by (auto; lia).
  pose proof (recentred_unique _ _ _ _ _ Rr Rr') as Rq. set (N := m_nPadFFT p) in *.
  set (f := window m N (ZnearestE yP) (ZnearestE xP)) in *. set (h := window (product u r) N (ZnearestE yP) (ZnearestE xP)) in *.
  rewrite (misfit_ext N (m_nFocusCrop p) f (window (product u r') N (ZnearestE yP) (ZnearestE xP)) f h); [|reflexivity|].
  2:{ intros i j Hi Hj. apply window_aeq. destruct Rr' as (R1 & R2 & _). apply product_aeq; auto using aeq_refl, aeq_sym. }
  set (A := Arr N N f). set (B := Arr N N h).
  assert (Sp : forall k l, spectrum N (window B N 0 0) k l = spectrum N h k l).
  { intros k l. unfold spectrum. f_equal. apply csum2_ext. intros a b Ha Hb. unfold B. rewrite window_self by auto. reflexivity. }
  assert (WB : wf B) by (unfold wf; cbn; lia).
  assert (St : starts fuel rnd A d false 0 0 0 0) by (split; symmetry; apply ZnearestE_IZR).
  pose proof (lateral_recovers lstsq O fuel rnd A B d (m_nPhaseSteps p) (m_dPixel p) N (m_nFocusCrop p) (m_nIterInner p) false 0 0 0 0 dy dx) as K. cbv zeta in K.
  rewrite (lateral_unfold lstsq fuel rnd A B d _ _ _ _ _ false 0 0 0 0) in K; auto; try (cbn; lia).
  rewrite (misfit_ext N (m_nFocusCrop p) (window A N 0 0) (window B N 0 0) f h) in K by (intros; apply window_self; auto).
  rewrite !Sp in K. destruct K as [K|K]; auto; try (cbn; lia).
  - intros a b Ha Hb. unfold A, B. rewrite window_self by auto. rewrite window_self by (apply Z.mod_pos_bound; lia). apply Sh; auto.
  - left. destruct (lateral_loop _ _ _ _ _ _ _) as [o|e]; cbn [bind] in *; [discriminate|]. exact K.
  - right. destruct (lateral_loop _ _ _ _ _ _ _) as [o|e]; cbn [bind] in *; [|discriminate]. rewrite !Rplus_0_l, !Z.add_0_l in K. injection K as K1 K2. rewrite K1, K2. reflexivity.
Qed.
(** When the mask is first moved onto the measured one and then seen to match, the offset is exact (gain one). *)
Lemma passes_stay u m g p xP yP d mag clock x y : pass u m g p xP yP d mag clock x y = Some (Ok (x, y)) ->
  forall n, offset_passes (pass u m g p xP yP d mag clock) n x y = Some (Ok (x, y)).
Proof. intros H n. induction n as [|n IH]; cbn [offset_passes]; [reflexivity|]. rewrite H. cbn [obind fst snd]. exact IH. Qed.
Lemma passes_err u m g p xP yP d mag clock x y e : pass u m g p xP yP d mag clock x y = Some (Err e) ->
  forall n, offset_passes (pass u m g p xP yP d mag clock) (S n) x y = Some (Err e).
Proof. intros H n. cbn [offset_passes]. rewrite H. reflexivity. Qed.
Local Notation simulates u p d mag clock xP yP x y sim := (simulated rotate spline u (m_nPadFFT p) (m_maskRef p) (d * mag / m_diamHighRes p) clock xP yP x y sim).
Lemma fit_offsets_recovers u m p xP yP d mag clock au am dy dx sim0 : is_lstsq_oracle lstsq -> wf (m_maskRef p) -> nr m = nr u -> nc m = nc u ->
  normalized_amplitude u (m_percentile p) = Ok au -> normalized_amplitude m (m_percentile p) = Ok am ->
  let N := m_nPadFFT p in let n := m_nPhaseSteps p in
  simulates au p d mag clock xP yP 0 0 sim0 -> simulates au p d mag clock xP yP (IZR dx) (IZR dy) (window am N (ZnearestE yP) (ZnearestE xP)) ->
  window_shift N sim0 dy dx (window am N (ZnearestE yP) (ZnearestE xP)) ->
  2 <= n -> Z.Odd n -> 2 <= N -> N mod 2 = 0 -> 2 <= m_nFocusCrop p -> 2 <= m_nIterInner p -> 1 <= m_nIterOuter p -> (0 < d)%R -> (0 < mag)%R -> (0 < m_dPixel p)%R ->
  spectrum N sim0 0 (-1) <> RtoC 0 -> spectrum N sim0 (-1) 0 <> RtoC 0 ->
  (exists i j, 0 <= i < n /\ 0 <= j < n /\ trial n (m_dPixel p) 0 j = IZR dx /\ trial n (m_dPixel p) 0 i = IZR dy) ->
  (IZR (n - 1) * m_dPixel p < IZR N)%R ->
  fit u m 1 p xP yP d mag clock = Some (Err (Custom "QuadraticException")) \/
  fit u m 1 p xP yP d mag clock = Some (Ok (IZR dx, IZR dy)).
Proof.
  intros O W M1 M2 E1 E2. cbv zeta. intros (ref & r & Er & Rr & ->) (ref' & r' & Er' & Rr' & Ew) Sh Hn Ho H3 H4 H5 H6 H7 Q1 Q2 Q3 S1 S2 Hg Hw.
  destruct (normalized_ok _ _ _ E1) as (_ & N1 & N2 & P1 & P2). destruct (normalized_ok _ _ _ E2) as (_ & N3 & N4 & _).
  rewrite (fit_offsets_intro u m 1 p xP yP d mag clock au am) by (auto; lra).
  replace (Z.to_nat (m_nIterOuter p)) with (S (Z.to_nat (m_nIterOuter p - 1))) by lia.
  destruct (pass_recovers au am 1 p xP yP d mag clock 0 0 ref r dy dx) as [K|K]; auto; try lia; [left; apply passes_err, K|].
  cbn [offset_passes]. rewrite K. cbn [obind fst snd]. replace (0 + 1 * IZR dx)%R with (IZR dx) by ring. replace (0 + 1 * IZR dy)%R with (IZR dy) by ring.
  destruct (Z.to_nat (m_nIterOuter p - 1)) as [|k] eqn:Ek; [right; reflexivity|].
  set (N := m_nPadFFT p) in *. set (f := window am N (ZnearestE yP) (ZnearestE xP)) in *.
  assert (Sx : forall k l, spectrum N (window (product au r) N (ZnearestE yP) (ZnearestE xP)) k l <> RtoC 0 -> spectrum N f k l <> RtoC 0).
  { intros a b Nz Q. rewrite (spectrum_shift N _ dy dx f a b ltac:(lia) Sh) in Q. apply (f_equal Cmod) in Q.
    rewrite Cmod_mult, PsfFitP.cis_unit, Cmod_0, Rmult_1_r in Q. apply Nz, Cmod_eq_0, Q. }
  destruct (pass_recovers au am 1 p xP yP d mag clock (IZR dx) (IZR dy) ref' r' 0 0) as [K'|K']; fold N; fold f; rewrite <- ?Ew; auto; try lia.
  - intros a b Ha Hb. rewrite !Z.sub_0_r, !Z.mod_small by lia. reflexivity.
  - destruct Ho as [h Eh]. exists h, h. assert (T : trial (m_nPhaseSteps p) (m_dPixel p) 0 h = IZR 0).
    { unfold trial. rewrite Eh, plus_IZR, mult_IZR. cbn. lra. } repeat split; try lia; exact T.
  - left. apply passes_err, K'.
  - right. replace (IZR dx + 1 * 0)%R with (IZR dx) in K' by ring. replace (IZR dy + 1 * 0)%R with (IZR dy) in K' by ring. apply passes_stay, K'.
Qed.
Lemma amplitude_normalized image q a : (0 <= q <= 100)%R -> amplitude_of image q a -> exists a', normalized_amplitude image q = Ok a' /\ aeq a' a.
Proof.
  intros Hq (f & b & (m & Em & P) & Nf & (U1 & U2 & U3) & (R1 & R2 & R3)). unfold normalized_amplitude. rewrite Em. cbn [bind].
  destruct (ampthresh_nonempty _ _ _ Em) as (_ & _ & M1 & M2).
  assert (F : compute_norm_factor image (amap of_bool m) q = Ok f).
  { apply norm_ok. split; [apply same_shape_iff; cbn; lia|]. split; [intros i j _; cbn; destruct (at2 m i j); cbn; auto|]. split; [exact Hq|]. split; [|exact P].
    rewrite zero_one_of_model. intros Z0. rewrite Z0 in P. destruct (P [] (Permutation.perm_nil _) (Sorted.Sorted_nil _)) as (k & t & _ & _ & K & _). cbn in K. lia. }
  rewrite F. cbn [bind]. unfold scaled_image. destruct (Req_EM_T f 0) as [|_]; [contradiction|]. cbn [bind]. eexists. split; [reflexivity|].
  split; [cbn; congruence|]. split; [cbn; congruence|]. intros i j I. cbn [amap at2] in *. unfold in_arr in *. cbn [amap nr nc] in I.
  rewrite R3 by (rewrite R1, R2, U1, U2; exact I). rewrite U3 by (rewrite U1, U2; exact I). f_equal. destruct (Rltb (at2 image i j / f) 0) eqn:E.
  - apply Rltb_iff in E. rewrite Rmax_left; lra.
  - apply Rltb_false in E. rewrite Rmax_right; lra.
Qed.
Lemma simulated_aeq u u' N maskRef mag clock xP yP x y sim : aeq u u' -> simulated rotate spline u N maskRef mag clock xP yP x y sim ->
  simulated rotate spline u' N maskRef mag clock xP yP x y sim.
Proof.
  intros (A1 & A2 & A3) (ref & r & E & F & ->). exists ref, r. split; [exact E|]. split; [rewrite <- A1, <- A2; exact F|]. extensionality a. extensionality b. apply window_aeq.
  split; [exact A1|]. split; [exact A2|]. intros i j I. cbn [product at2]. f_equal. apply A3, I.
Qed.
(** The same from the amplitudes as specified, and for any gain if there is one pass. *)
Lemma fit_offsets_recovers_amplitudes u m g p xP yP d mag clock au am dy dx sim0 : is_lstsq_oracle lstsq -> wf (m_maskRef p) -> nr m = nr u -> nc m = nc u ->
  (0 <= m_percentile p <= 100)%R -> amplitude_of u (m_percentile p) au -> amplitude_of m (m_percentile p) am ->
  let N := m_nPadFFT p in let n := m_nPhaseSteps p in
  simulates au p d mag clock xP yP 0 0 sim0 -> simulates au p d mag clock xP yP (IZR dx) (IZR dy) (window am N (ZnearestE yP) (ZnearestE xP)) ->
  window_shift N sim0 dy dx (window am N (ZnearestE yP) (ZnearestE xP)) ->
  2 <= n -> Z.Odd n -> 2 <= N -> N mod 2 = 0 -> 2 <= m_nFocusCrop p -> 2 <= m_nIterInner p -> 1 <= m_nIterOuter p -> (0 < d)%R -> (0 < mag)%R -> (0 < m_dPixel p)%R ->
  spectrum N sim0 0 (-1) <> RtoC 0 -> spectrum N sim0 (-1) 0 <> RtoC 0 ->
  (exists i j, 0 <= i < n /\ 0 <= j < n /\ trial n (m_dPixel p) 0 j = IZR dx /\ trial n (m_dPixel p) 0 i = IZR dy) ->
  (IZR (n - 1) * m_dPixel p < IZR N)%R -> (0 < g)%R -> g = 1%R \/ m_nIterOuter p = 1 ->
  fit u m g p xP yP d mag clock = Some (Err (Custom "QuadraticException")) \/
  fit u m g p xP yP d mag clock = Some (Ok (g * IZR dx, g * IZR dy))%R.
Proof.
  intros O W M1 M2 Hq Hu Hm. cbv zeta. intros S0 Sd Sh Hn Ho H3 H4 H5 H6 H7 Q1 Q2 Q3 S1 S2 Hg Hw Gp G.
  destruct (amplitude_normalized _ _ _ Hq Hu) as (au' & E1 & Au). destruct (amplitude_normalized _ _ _ Hq Hm) as (am' & E2 & Am).
  assert (Ew : window am (m_nPadFFT p) (ZnearestE yP) (ZnearestE xP) = window am' (m_nPadFFT p) (ZnearestE yP) (ZnearestE xP)).
  { extensionality a. extensionality b. apply window_aeq, aeq_sym, Am. }
  rewrite Ew in Sd, Sh. apply (simulated_aeq au au' _ _ _ _ _ _ _ _ _ (aeq_sym _ _ Au)) in S0, Sd.
  destruct G as [->|G].
  - rewrite !Rmult_1_l. eapply fit_offsets_recovers; eauto.
  - destruct S0 as (ref & r & Er & Rr & ->). destruct (normalized_ok _ _ _ E1) as (_ & N1 & N2 & P1 & P2). destruct (normalized_ok _ _ _ E2) as (_ & N3 & N4 & _).
    rewrite (fit_offsets_intro u m g p xP yP d mag clock au' am') by (auto; lra). rewrite G. change (Z.to_nat 1) with 1%nat. cbn [offset_passes].
    destruct (pass_recovers au' am' g p xP yP d mag clock 0 0 ref r dy dx) as [K|K]; auto; try lia; rewrite K; cbn [obind fst snd]; [left; reflexivity|right].
    rewrite !Rplus_0_l. reflexivity.
Qed.
(** One pass is proportional to the gain. *)
Lemma fit_offsets_gain u m g g' p xP yP d mag clock x y : wf (m_maskRef p) -> m_nIterOuter p = 1 -> (0 < g')%R ->
  fit u m g p xP yP d mag clock = Some (Ok (x, y)) -> fit u m g' p xP yP d mag clock = Some (Ok (g' / g * x, g' / g * y))%R.
Proof.
  intros W E1 G' H. apply fit_offsets_inv in H as (S1 & S2 & P1 & P2 & G & D & M & au & am & Ea & Eb & H).
  rewrite (fit_offsets_intro u m g' p xP yP d mag clock au am) by auto. rewrite E1 in *. change (Z.to_nat 1) with 1%nat in *. cbn [offset_passes] in *.
  destruct (normalized_ok _ _ _ Ea) as (_ & N1 & N2 & _). destruct (normalized_ok _ _ _ Eb) as (_ & N3 & N4 & _).
  apply obind_ok in H as ([x1 y1] & H & E). injection E as <- <-.
  destruct (pass_inv au am g p xP yP d mag clock 0 0 (x1, y1) W ltac:(lia) ltac:(lia) ltac:(lia) ltac:(lia) H) as (ref & r & Er & Ep & Rr & Q1 & Q2 & Q3 & Q4 & Q5 & Q6 & L).
  rewrite (pass_intro au am g' p xP yP d mag clock 0 0 ref r) by (auto; lia). destruct (lateral_loop _ _ _ _ _ _ _) as [o|e]; cbn [bind] in *; [|discriminate].
  injection L as <- <-. cbn [obind fst snd]. do 3 f_equal; field; lra.
Qed.
Lemma fit_offsets_rejects u m g p xP yP d mag clock :
  (~ (nr m = nr u /\ nc m = nc u) -> fit u m g p xP yP d mag clock = Some (Err ValueError)) /\
  (nr m = nr u -> nc m = nc u -> (g <= 0 \/ d <= 0 \/ mag <= 0)%R -> fit u m g p xP yP d mag clock = Some (Err TypeError)).
Proof.
  unfold fit_pupil_mask_offsets. split.
  - intros N. destruct (same_shape u m) eqn:E; [apply same_shape_iff in E as [E1 E2]; destruct N; auto|]. reflexivity.
  - intros E1 E2 N. rewrite (proj2 (same_shape_iff u m)) by auto. cbn [guard bind].
    destruct (Rltb 0 g) eqn:G; [apply Rltb_iff in G|reflexivity]. cbn [guard bind]. destruct (Rltb 0 d) eqn:D; [apply Rltb_iff in D|reflexivity]. cbn [guard bind].
    destruct (Rltb 0 mag) eqn:M; [apply Rltb_iff in M|reflexivity]. exfalso. lra.
Qed.
Lemma fit_offsets_zero u m g p xP yP d mag clock r : m_nIterOuter p <= 0 -> fit u m g p xP yP d mag clock = Some (Ok r) -> r = (0, 0)%R.
Proof.
  intros H E. apply fit_offsets_inv in E as (_ & _ & _ & _ & _ & _ & _ & au & am & _ & _ & E). replace (Z.to_nat (m_nIterOuter p)) with 0%nat in E by lia.
  injection E as <-. reflexivity.
Qed.
Lemma fit_offsets_scale u m g p xP yP d mag clock r : 1 <= m_nIterOuter p -> fit u m g p xP yP d mag clock = Some (Ok r) -> (0 < d * mag / m_diamHighRes p <= 1)%R.
Proof.
  intros H E. apply fit_offsets_inv in E as (_ & _ & _ & _ & _ & _ & _ & au & am & _ & _ & E).
  replace (Z.to_nat (m_nIterOuter p)) with (S (Z.to_nat (m_nIterOuter p - 1))) in E by lia. cbn [offset_passes] in E. apply obind_ok in E as (s & E & _).
  unfold offset_pass in E. apply obind_ok in E as (ms & E & _). injection E as E. apply bind_ok in E as (ref & E & _).
  destruct (Rlt_dec 0 (d * mag / m_diamHighRes p)) as [A|A]; [destruct (Rle_dec (d * mag / m_diamHighRes p) 1) as [B|B]; [auto|]|];
    rewrite down_rejects' in E by (left; lra); discriminate.
Qed.
Lemma normalized_aeq a b q s : aeq a b -> normalized_amplitude a q = Ok s -> exists t, normalized_amplitude b q = Ok t /\ aeq s t.
Proof.
  intros A H. destruct (normalized_scale a q 1 s Rlt_0_1 H) as (t & Et & At). unfold normalized_amplitude in *.
  apply bind_ok in H as (m & Em & H). apply bind_ok in H as (f & Ef & H). apply bind_ok in H as (c & Ec & H). injection H as <-.
  destruct (ampthresh_aeq_ok a b 21 m A Em) as (m' & -> & Am). cbn [bind]. rewrite (norm_aeq a b (amap of_bool m) (amap of_bool m') q f A (aeq_amap _ _ _ Am) Ef). cbn [bind].
  destruct (scaled_scale a b 1 f f c Rlt_0_1) as (c' & -> & Ac); [|ring|exact Ec|].
  - apply aeq_sym. eapply aeq_trans; [|exact A]. split; [reflexivity|]. split; [reflexivity|]. intros. cbn [amap at2]. ring.
  - cbn [bind]. eexists. split; [reflexivity|apply aeq_amap, Ac].
Qed.
Lemma fit_offsets_aeq u u' m g p xP yP d mag clock r : wf (m_maskRef p) -> aeq u u' ->
  fit u m g p xP yP d mag clock = Some (Ok r) -> fit u' m g p xP yP d mag clock = Some (Ok r).
Proof.
  intros W A H. pose proof A as (A1 & A2 & _). apply fit_offsets_inv in H as (S1 & S2 & P1 & P2 & G & D & M & au & am & E1 & E2 & H).
  destruct (normalized_aeq u u' _ au A E1) as (au' & E1' & Aa). rewrite (fit_offsets_intro u' m g p xP yP d mag clock au' am) by (auto; congruence).
  destruct (normalized_ok _ _ _ E1) as (_ & N1 & N2 & _). destruct (normalized_ok _ _ _ E2) as (_ & N3 & N4 & _).
  eapply passes_aeq; [exact W|..|exact Aa|apply aeq_refl|exact H]; lia.
Qed.

(** ** fit_shaped_pupil_mask_offsets *)
Variable shift : arr R -> R -> R -> arr R.
Local Notation shaped := (fit_shaped_pupil_mask_offsets shift lstsq rotate spline fuel rnd).
Lemma shaped_inv u m g p xP yP d mag clock xS yS r : shaped u m g p xP yP d mag clock xS yS = Some (Ok r) ->
  fit (shift u yS xS) m g p (xP + xS) (yP + yS) d mag clock = Some (Ok r).
Proof. unfold fit_shaped_pupil_mask_offsets. intros H. apply obind_ok in H as (t & _ & H). exact H. Qed.
Lemma shaped_ok u m g p xP yP d mag clock xS yS x y : is_lstsq_oracle lstsq -> wf (m_maskRef p) ->
  shaped u m g p xP yP d mag clock xS yS = Some (Ok (x, y)) ->
  exists au am, amplitude_of (shift u yS xS) (m_percentile p) au /\ amplitude_of m (m_percentile p) am /\
    repeated (mask_pass rotate spline au am g (m_nPadFFT p) (m_nFocusCrop p) (m_nPhaseSteps p) (m_nIterInner p) (m_dPixel p) (m_maskRef p)
      (d * mag / m_diamHighRes p) clock (xP + xS) (yP + yS)) (Z.to_nat (m_nIterOuter p)) 0 0 x y.
Proof. intros O W H. apply shaped_inv in H. exact (fit_offsets_ok _ _ _ _ _ _ _ _ _ _ _ O W H). Qed.
Lemma shaped_whole u u' m g p xP yP d mag clock dy dx r : wf (m_maskRef p) -> whole_shift shift -> zero_fill_shift u 1 dy dx u' ->
  (shaped u m g p xP yP d mag clock (IZR dx) (IZR dy) = Some (Ok r) <->
   fit u' m g p (xP + IZR dx) (yP + IZR dy) d mag clock = Some (Ok r)).
Proof.
  intros W Ws (U1 & U2 & U3). destruct (Ws u dy dx) as (T1 & T2 & T3).
  assert (A : aeq (shift u (IZR dy) (IZR dx)) u').
  { split; [congruence|]. split; [congruence|]. intros i j I. rewrite T3 by (unfold in_arr in *; rewrite T1, T2 in I; exact I).
    rewrite U3 by (unfold in_arr in *; rewrite U1, U2; rewrite T1, T2 in I; exact I). ring. }
  split; intros H.
  - apply shaped_inv in H. exact (fit_offsets_aeq _ _ _ _ _ _ _ _ _ _ _ W A H).
  - pose proof (fit_offsets_inv _ _ _ _ _ _ _ _ _ _ H) as (S1 & S2 & _ & _ & G & D & M & _). unfold fit_shaped_pupil_mask_offsets.
    rewrite (proj2 (same_shape_iff u m)) by (split; congruence). rewrite (proj2 (Rltb_iff 0 g) G), (proj2 (Rltb_iff 0 d) D), (proj2 (Rltb_iff 0 mag) M).
    cbn [guard bind obind]. exact (fit_offsets_aeq _ _ _ _ _ _ _ _ _ _ _ W (aeq_sym _ _ A) H).
Qed.
Lemma shaped_rejects u m g p xP yP d mag clock xS yS :
  (~ (nr m = nr u /\ nc m = nc u) -> shaped u m g p xP yP d mag clock xS yS = Some (Err ValueError)) /\
  (nr m = nr u -> nc m = nc u -> (g <= 0 \/ d <= 0 \/ mag <= 0)%R -> shaped u m g p xP yP d mag clock xS yS = Some (Err TypeError)).
Proof.
  unfold fit_shaped_pupil_mask_offsets. split.
  - intros N. destruct (same_shape u m) eqn:E; [apply same_shape_iff in E as [E1 E2]; destruct N; auto|]. reflexivity.
  - intros E1 E2 N. rewrite (proj2 (same_shape_iff u m)) by auto. cbn [guard bind].
    destruct (Rltb 0 g) eqn:G; [apply Rltb_iff in G|reflexivity]. cbn [guard bind]. destruct (Rltb 0 d) eqn:D; [apply Rltb_iff in D|reflexivity]. cbn [guard bind].
    destruct (Rltb 0 mag) eqn:M; [apply Rltb_iff in M|reflexivity]. exfalso. lra.
Qed.
Lemma shaped_brightness u m g p xP yP d mag clock xS yS s t r : wf (m_maskRef p) -> (0 < s)%R -> (0 < t)%R ->
  (forall a s dy dx, aeq (shift (amap (fun v => s * v)%R a) dy dx) (amap (fun v => s * v)%R (shift a dy dx))) ->
  shaped u m g p xP yP d mag clock xS yS = Some (Ok r) ->
  shaped (amap (fun v => s * v)%R u) (amap (fun v => t * v)%R m) g p xP yP d mag clock xS yS = Some (Ok r).
Proof.
  intros W Hs Ht L H. unfold fit_shaped_pupil_mask_offsets in *. apply obind_ok in H as (tt' & E & H). injection E as E.
  change (same_shape (amap (fun v => s * v)%R u) (amap (fun v => t * v)%R m)) with (same_shape u m). rewrite E. cbn [obind].
  eapply fit_offsets_aeq; [exact W|apply aeq_sym, L|]. apply fit_offsets_brightness; auto.
Qed.
End Offsets.
