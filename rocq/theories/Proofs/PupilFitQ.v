(** What the fits compute. *)
From Coq Require Import ZArith Bool List Reals Lra Lia String.
From Flocq Require Import Core.
From Coquelicot Require Import Complex.
From Verif.Base Require Import Py Arr Vec Sums CSum Lstsq.
From Verif.Model Require Import Math Noll Fits PadCrop PsfFit MaskGen PupilUtil FitShapes Unwrap PupilFit.
From Verif.Spec Require Import MathSpec FitsSpec PsfFitSpec MaskGenSpec FitShapesSpec PupilUtilSpec PupilFitSpec.
From Verif.Proofs Require Import MathP PadCropP FitsP DarkHoleP MaskGenP MaskGenEx PupilUtilP PupilUtilN PupilUtilL PupilUtilC FitShapesP PupilFitP.
Import ListNotations.
Open Scope list_scope.
Open Scope Z_scope.

(** ** Pieces *)
Lemma pad_crop_rec (a : arr R) n p : wf a -> pad_crop a [n; n] 0%R = Ok p -> 0 < n /\ recentred a n n p.
Proof.
  intros W E. destruct (pad_crop_inv _ _ _ _ W E) as (h & w & S & Hh & Hw & E1 & E2 & V). injection S as <- <-.
  split; [exact Hh|]. split; [exact E1|]. split; [exact E2|]. intros i j [Hi Hj]. apply V; lia.
Qed.
Lemma down_wf' rotate spline (a : arr R) rotDeg mag xo yo padFac flip out : wf a ->
  rotate_shift_downsample rotate spline a rotDeg mag xo yo padFac flip = Ok out -> wf out.
Proof.
  intros W E. destruct (Classical_Prop.classic ((0 < mag <= 1) /\ 1 <= padFac)%R) as [[M PF]|M].
  2:{ rewrite (down_rejects' rotate spline a rotDeg mag xo yo padFac flip) in E; [discriminate|].
      destruct (Classical_Prop.classic (0 < mag <= 1)%R); [right|left; assumption]. apply Rnot_le_lt. tauto. }
  assert (P : forall y, (0 <= y)%R -> exists h, least_odd_above y (2 * h + 1) /\ 0 <= h).
  { intros y Hy. pose proof (least_odd y) as Ly. destruct Ly as (O & G & M0). assert (0 < ceil_odd y \/ ceil_odd y <= 0) as [Q|Q] by lia.
    - destruct (odd_half _ O Q) as (h & Eh & Hh & _). exists h. rewrite <- Eh. split; [split; auto|auto].
    - exfalso. apply IZR_le in Q. assert (ceil_odd y = 0) as Z0; [|rewrite Z0 in O; destruct O; lia].
      apply eq_IZR. lra. }
  destruct (P (padFac * IZR (Z.max (nr a) (nc a)))%R) as (h & Hh & h0).
  { apply Rmult_le_pos; [lra|]. apply IZR_le. destruct W. lia. }
  destruct (P (IZR (2 * h + 1) * mag + 2 + 2 * Rmax (Rabs xo) (Rabs yo))%R) as (H & HH & H0).
  { assert (0 <= IZR (2 * h + 1))%R by (apply IZR_le; lia). pose proof (Rmax_l (Rabs xo) (Rabs yo)). pose proof (Rabs_pos xo). nra. }
  assert (4 <= 2 * h + 1 \/ 2 * h + 1 < 4) as [Q|Q] by lia.
  - destruct (value_lem rotate spline a rotDeg mag xo yo padFac flip h H W M PF Hh HH Q) as (o & _ & _ & Eo & _ & _ & _ & _ & _ & R1 & R2 & _).
    rewrite Eo in E. injection E as <-. split; lia.
  - rewrite (down_err rotate spline a rotDeg mag xo yo padFac flip W M PF h Hh Q) in E. discriminate.
Qed.
Lemma thresh_zero_one a n m : ampthresh a n = Ok m -> zero_one_image (zero_one_of m).
Proof.
  intros E. destruct (ampthresh_separates _ _ _ E) as (M1 & M2 & _ & Mx & Mn).
  apply ampthresh_ok in E as (lo & hi & H & k & Mi & Ma & _).
  split; [|split].
  - intros i j _. cbn [zero_one_of amap at2]. destruct (at2 m i j); auto.
  - pose proof Mi as ((i & j & I & V) & _). exists i, j. split; [unfold in_arr in *; cbn [zero_one_of amap nr nc]; rewrite M1, M2; exact I|].
    cbn [zero_one_of amap at2]. rewrite Mn; [reflexivity|exact I|rewrite V; exact Mi].
  - pose proof Ma as ((i & j & I & V) & _). exists i, j. split; [unfold in_arr in *; cbn [zero_one_of amap nr nc]; rewrite M1, M2; exact I|].
    cbn [zero_one_of amap at2]. rewrite Mx; [reflexivity|exact I|rewrite V; exact Ma].
Qed.
Lemma bright_lit m i j : bright (zero_one_of m) i j <-> lit m i j.
Proof. unfold bright, lit, in_arr. cbn [zero_one_of amap nr nc at2]. destruct (at2 m i j); intuition (try congruence; lra). Qed.
(** Thresholding the squared mask gives the mask. *)
Lemma thresh_again a n m m2 : ampthresh a n = Ok m -> ampthresh (amap (fun u => u ^ 2)%R (zero_one_of m)) 21 = Ok m2 -> aeq m2 m.
Proof.
  intros E E2. pose proof (thresh_zero_one _ _ _ E) as Z.
  destruct (two_level_thresh _ Z) as (m' & E' & N1 & N2 & L).
  destruct (ampthresh_aeq_ok (zero_one_of m) (amap (fun u => u ^ 2)%R (zero_one_of m)) 21 m') as (m3 & E3 & A).
  - split; [reflexivity|]. split; [reflexivity|]. intros i j _. cbn [zero_one_of amap at2]. destruct (at2 m i j); ring.
  - exact E'.
  - rewrite E2 in E3. injection E3 as <-. apply aeq_sym. eapply aeq_trans; [|exact A]. apply aeq_lit. cbn [zero_one_of amap nr nc] in N1, N2.
    split; [congruence|]. split; [congruence|]. intros i j. rewrite L. symmetry. apply bright_lit.
Qed.
Lemma window_recentred a N p i j : recentred a N N p -> 0 <= i < N -> 0 <= j < N -> window p N 0 0 i j = window a N 0 0 i j.
Proof.
  intros (R1 & R2 & R3) Hi Hj. unfold window. cbv zeta. rewrite R1, R2.
  replace (N / 2 + 0 + (i - N / 2)) with i by lia. replace (N / 2 + 0 + (j - N / 2)) with j by lia.
  rewrite (proj2 (in_arrb_spec p i j)) by (split; lia). rewrite R3 by (split; lia).
  replace (nr a / 2 + 0 + (i - N / 2)) with (i - N / 2 + nr a / 2) by lia. replace (nc a / 2 + 0 + (j - N / 2)) with (j - N / 2 + nc a / 2) by lia. reflexivity.
Qed.
Lemma padded_ok maskRef z maskPad : wf maskRef -> padded_reference maskRef z = Ok maskPad -> padded maskRef z maskPad /\ wf maskPad.
Proof.
  intros W E. unfold padded_reference in E. cbv zeta in E. destruct (pad_crop_rec _ _ _ W E) as [P R]. split.
  - eexists. split; [|exact R]. destruct (ceil_even_ok (IZR (Z.max (nr maskRef) (nc maskRef)) + z)) as (A & [B _] & C). split; [exact A|]. split; [exact B|exact C].
  - destruct R as (R1 & R2 & _). unfold wf. lia.
Qed.
Lemma obind_ok {A B} (x : option (res A)) (f : A -> option (res B)) b : obind x f = Some (Ok b) -> exists a, x = Some (Ok a) /\ f a = Some (Ok b).
Proof. destruct x as [[a|e]|]; cbn; try discriminate. eauto. Qed.

(** ** fit_unmasked_pupil *)
Section Fit.
Variables (contours : contours_fun) (cv : cv_ellipse_fun) (lstsq1 : lstsq1_fun) (lstsq : lstsq_fun).
Variables (rotate : rotate_fun) (spline : bispline_fun) (fuel : nat) (rnd : R -> R).
Local Notation fit := (fit_unmasked_pupil contours cv lstsq1 lstsq rotate spline fuel rnd).

Lemma fit_inv pupil p x y c d : fit pupil p = Some (Ok (x, y, c, d)) ->
  check_tuning p = Ok tt /\ exists m xc yc ref0 ref maskPad, ampthresh pupil 21 = Ok m /\
    fit_ellipse contours cv (zero_one_of m) (p_nIterDilateErode p) (p_padFactor p) = Ok (d, xc, yc) /\
    rotate_shift_downsample rotate spline (p_maskRef p) (p_rotRef p) (d / p_diamHighRes p) 0 0 (p_padFacRef p) (p_flipxRef p) = Ok ref0 /\
    pad_crop ref0 [p_nPadFFT p; p_nPadFFT p] 0%R = Ok ref /\
    compute_lateral_offsets lstsq fuel rnd (zero_one_of m) ref d (p_nPhaseSteps p) (p_dPixel p) (p_nPadFFT p) (p_nFocusCrop p)
      (p_nIterOffsets p) false xc yc = Some (Ok (y, x)) /\
    padded_reference (p_maskRef p) (p_zeroPadding p) = Ok maskPad /\
    compute_clocking lstsq1 rotate spline (zero_one_of m) d maskPad (p_diamHighRes p) x y (p_clockDegMax p) (p_nClock p) (p_percentile p)
      (p_deltaAmpMax p) false = Ok c.
Proof.
  unfold fit_unmasked_pupil. intros H.
  apply obind_ok in H as (m & E0 & H). injection E0 as E0. apply bind_ok in E0 as ([] & T & Em). split; [exact T|].
  apply obind_ok in H as ([[d0 xc] yc] & E1 & H). injection E1 as E1.
  apply obind_ok in H as (ref & E2 & H). injection E2 as E2. apply bind_ok in E2 as (ref0 & E2 & E3).
  apply obind_ok in H as ([y0 x0] & E4 & H). injection H as H.
  apply bind_ok in H as (maskPad & E5 & H). apply bind_ok in H as (c0 & E6 & H). injection H as <- <- <- <-.
  exists m, xc, yc, ref0, ref, maskPad. repeat (split; [assumption|]). assumption.
Qed.
Lemma fit_intro pupil p x y c d m xc yc ref0 ref maskPad : check_tuning p = Ok tt -> ampthresh pupil 21 = Ok m ->
    fit_ellipse contours cv (zero_one_of m) (p_nIterDilateErode p) (p_padFactor p) = Ok (d, xc, yc) ->
    rotate_shift_downsample rotate spline (p_maskRef p) (p_rotRef p) (d / p_diamHighRes p) 0 0 (p_padFacRef p) (p_flipxRef p) = Ok ref0 ->
    pad_crop ref0 [p_nPadFFT p; p_nPadFFT p] 0%R = Ok ref ->
    compute_lateral_offsets lstsq fuel rnd (zero_one_of m) ref d (p_nPhaseSteps p) (p_dPixel p) (p_nPadFFT p) (p_nFocusCrop p)
      (p_nIterOffsets p) false xc yc = Some (Ok (y, x)) ->
    padded_reference (p_maskRef p) (p_zeroPadding p) = Ok maskPad ->
    compute_clocking lstsq1 rotate spline (zero_one_of m) d maskPad (p_diamHighRes p) x y (p_clockDegMax p) (p_nClock p) (p_percentile p)
      (p_deltaAmpMax p) false = Ok c -> fit pupil p = Some (Ok (x, y, c, d)).
Proof.
  intros T Em E1 E2 E3 E4 E5 E6. unfold fit_unmasked_pupil. rewrite T. cbn [bind]. rewrite Em. cbn [obind].
  change (amap of_bool m) with (zero_one_of m). rewrite E1. cbn [obind]. rewrite E2. cbn [bind]. rewrite E3. cbn [obind]. rewrite E4. cbn [obind].
  rewrite E5. cbn [bind]. rewrite E6. reflexivity.
Qed.
Lemma fit_ok pupil p x y c d : is_lstsq_oracle lstsq1 -> is_lstsq_oracle lstsq -> wf (p_maskRef p) -> fit pupil p = Some (Ok (x, y, c, d)) ->
  exists m xc yc ref maskPad sx sy count, ampthresh pupil 21 = Ok m /\
    fit_ellipse contours cv (zero_one_of m) (p_nIterDilateErode p) (p_padFactor p) = Ok (d, xc, yc) /\
    rotate_shift_downsample rotate spline (p_maskRef p) (p_rotRef p) (d / p_diamHighRes p) 0 0 (p_padFacRef p) (p_flipxRef p) = Ok ref /\
    lateral_search (misfit (p_nPadFFT p) (p_nFocusCrop p) (window (zero_one_of m) (p_nPadFFT p) (ZnearestE yc) (ZnearestE xc))
        (window ref (p_nPadFFT p) 0 0)) (p_nPhaseSteps p) (p_nIterOffsets p) (p_dPixel p) sx sy /\
    x = (IZR (ZnearestE xc) + sx)%R /\ y = (IZR (ZnearestE yc) + sy)%R /\
    padded (p_maskRef p) (p_zeroPadding p) maskPad /\
    (forall i, 0 <= i < p_nClock p -> agreement rotate spline m d maskPad (p_diamHighRes p) x y (p_percentile p) (p_deltaAmpMax p)
      (clock_angle (p_clockDegMax p) (p_nClock p) i) (count i)) /\
    clock_estimate (p_clockDegMax p) (p_nClock p) count c.
Proof.
  intros O1 O2 W H. apply fit_inv in H as (_ & m & xc & yc & ref0 & ref & maskPad & Em & E1 & E2 & E3 & E4 & E5 & E6).
  pose proof (down_wf' _ _ _ _ _ _ _ _ _ _ W E2) as W0. destruct (pad_crop_rec _ _ _ W0 E3) as [HN Rr].
  assert (Wr : wf ref) by (destruct Rr as (R1 & R2 & _); unfold wf; lia).
  destruct (ampthresh_nonempty _ _ _ Em) as (P1 & P2 & M1 & M2).
  destruct (lateral_ok lstsq O2 fuel rnd (zero_one_of m) ref d (p_nPhaseSteps p) (p_dPixel p) (p_nPadFFT p) (p_nFocusCrop p) (p_nIterOffsets p)
    false xc yc (ZnearestE xc) (ZnearestE yc) y x) as (sx & sy & L & Y & X); auto.
  { cbn. lia. } { cbn. lia. } { split; reflexivity. }
  destruct (padded_ok _ _ _ W E5) as [Pd Wp].
  destruct (clocking_ok lstsq1 O1 _ _ _ _ _ _ _ _ _ _ _ _ _ _ Wp E6) as (m2 & count & Em2 & Ov & Ce).
  pose proof (thresh_again _ _ _ _ Em Em2) as A.
  exists m, xc, yc, ref0, maskPad, sx, sy, count. do 3 (split; [assumption|]). split.
  { rewrite (misfit_ext _ _ _ (window ref0 (p_nPadFFT p) 0 0) (window (zero_one_of m) (p_nPadFFT p) (ZnearestE yc) (ZnearestE xc)) (window ref (p_nPadFFT p) 0 0));
      [exact L|reflexivity|]. intros i j Hi Hj. symmetry. apply window_recentred; auto. }
  split; [exact X|]. split; [exact Y|]. split; [exact Pd|]. split; [|exact Ce].
  intros i Hi. destruct (Ov i Hi) as (q & r & b & Eq & Rq & Eb & fM & fR & PM & PR & Ct). exists q, r, b, fR.
  split; [exact Eq|]. split; [exact Rq|]. split; [exact Eb|]. split; [exact PR|].
  assert (F1 : fM = 1%R).
  { assert (1 <= fM <= 1)%R; [|lra]. apply (percentile_bounds _ _ _ 1 1 PM). intros v Hv. apply in_values in Hv as (a & b' & I & M & <-).
    pose proof A as (A1 & A2 & A3). cbn [zero_one_of amap at2] in *. rewrite A3 in M by (unfold in_arr in *; cbn [zero_one_of amap nr nc] in I; rewrite A1, A2; exact I).
    destruct (at2 m a b'); lra. }
  destruct Ct as (g & G & ->). exists g. split; [|reflexivity]. intros a b' Ha Hb. destruct (G a b' Ha Hb) as [G1 G0]. cbn [zero_one_of amap at2] in G1, G0.
  rewrite F1 in G1, G0. replace ((if at2 m a b' then 1 else 0) / 1)%R with (if at2 m a b' then 1 else 0)%R in G1, G0 by (destruct (at2 m a b'); field).
  assert (1 <> 0)%R by lra. split; intros Q; [apply G1; tauto|apply G0; tauto].
Qed.

Lemma fit_mask_only pupil pupil' p m m' r : wf (p_maskRef p) -> (forall b b', aeq b b' -> contours b = contours b') ->
  ampthresh pupil 21 = Ok m -> ampthresh pupil' 21 = Ok m' -> aeq m m' -> fit pupil p = Some (Ok r) -> fit pupil' p = Some (Ok r).
Proof.
  destruct r as [[[x y] c] d]. intros W X Em Em' A H. apply fit_inv in H as (T & m0 & xc & yc & ref0 & ref & maskPad & Em0 & E1 & E2 & E3 & E4 & E5 & E6).
  rewrite Em in Em0. injection Em0 as <-. destruct (ampthresh_nonempty _ _ _ Em) as (P1 & P2 & M1 & M2).
  pose proof (down_wf' _ _ _ _ _ _ _ _ _ _ W E2) as W0. destruct (pad_crop_rec _ _ _ W0 E3) as [HN Rr].
  assert (Wr : wf ref) by (destruct Rr as (R1 & R2 & _); unfold wf; lia).
  assert (Az : aeq (zero_one_of m) (zero_one_of m')) by (apply aeq_amap, A).
  eapply fit_intro; [exact T|exact Em'| |exact E2|exact E3| |exact E5|].
  - eapply fit_ellipse_aeq; [|exact X|exact Az|exact E1]. unfold wf. cbn. lia.
  - eapply lateral_aeq; [exact Wr| | |exact Az|exact E4]; cbn; lia.
  - eapply clocking_aeq; [exact Az|exact E6].
Qed.
Lemma fit_brightness pupil p s o r : wf (p_maskRef p) -> (forall b b', aeq b b' -> contours b = contours b') -> (0 < s)%R ->
  fit pupil p = Some (Ok r) -> fit (amap (fun v => s * v + o)%R pupil) p = Some (Ok r).
Proof.
  intros W X Hs H. pose proof H as H0. destruct r as [[[x y] c] d]. apply fit_inv in H0 as (_ & m & _ & _ & _ & _ & _ & Em & _).
  destruct (ampthresh_affine pupil 21 m s o Hs Em) as (m' & Em' & A). eapply fit_mask_only; [exact W|exact X|exact Em|exact Em'|apply aeq_sym, A|exact H].
Qed.
Lemma Znearest_add x k : no_tie x \/ Z.Even k -> ZnearestE (x + IZR k) = ZnearestE x + k.
Proof.
  intros H.
  assert (Fl : Zfloor (x + IZR k) = Zfloor x + k).
  { apply Zfloor_imp. rewrite !plus_IZR. pose proof (Zfloor_lb x). pose proof (Zfloor_ub x). split; lra. }
  assert (Ce : Zceil (x + IZR k) = Zceil x + k).
  { unfold Zceil. replace (- (x + IZR k))%R with (- x + IZR (- k))%R by (rewrite opp_IZR; ring).
    rewrite (Zfloor_imp (Zfloor (- x) + - k)); [lia|]. rewrite !plus_IZR. pose proof (Zfloor_lb (- x)). pose proof (Zfloor_ub (- x)). split; lra. }
  unfold Znearest. rewrite Fl, Ce, plus_IZR. replace (x + IZR k - (IZR (Zfloor x) + IZR k))%R with (x - IZR (Zfloor x))%R by ring.
  destruct (Rcompare_spec (x - IZR (Zfloor x)) (/ 2)) as [L|E|G]; try reflexivity.
  destruct H as [N|[q ->]]; [exfalso; apply (N (Zfloor x)); lra|].
  rewrite Z.even_add, Z.even_mul. cbn [Z.even orb]. destruct (Z.even (Zfloor x)); reflexivity.
Qed.
Lemma fit_translation pupil pupil' p m m' N dy dx x y c d xc yc x' y' c' d' : wf (p_maskRef p) -> follow_translations contours cv ->
  0 <= p_nIterDilateErode p -> ampthresh pupil 21 = Ok m -> ampthresh pupil' 21 = Ok m' -> moved dy dx m m' ->
  round_up (p_padFactor p * IZR (Z.max (nr pupil) (nc pupil))) N -> pads (p_nIterDilateErode p) N pupil ->
  fit_ellipse contours cv (zero_one_of m) (p_nIterDilateErode p) (p_padFactor p) = Ok (d, xc, yc) ->
  no_tie xc \/ Z.Even dx -> no_tie yc \/ Z.Even dy ->
  fit pupil p = Some (Ok (x, y, c, d)) -> fit pupil' p = Some (Ok (x', y', c', d')) ->
  d' = d /\ x' = (x + IZR dx)%R /\ y' = (y + IZR dy)%R.
Proof.
  intros W Fo Hn Em Em' Mv RU Pd Ee Tx Ty H H'.
  apply fit_inv in H as (_ & m0 & xc0 & yc0 & ref0 & ref & maskPad & Em0 & E1 & E2 & E3 & E4 & _ & _). rewrite Em in Em0. injection Em0 as <-.
  rewrite Ee in E1. injection E1 as <- <-.
  apply fit_inv in H' as (_ & m0 & xc' & yc' & ref0' & ref' & maskPad' & Em0 & E1' & E2' & E3' & E4' & _ & _). rewrite Em' in Em0. injection Em0 as <-.
  destruct (ampthresh_nonempty _ _ _ Em) as (P1 & P2 & M1 & M2). pose proof Mv as (V1 & V2 & V3).
  assert (Wn : forall P i j, window (zero_one_of m') P (ZnearestE yc + dy) (ZnearestE xc + dx) i j = window (zero_one_of m) P (ZnearestE yc) (ZnearestE xc) i j).
  { intros P i j. unfold window. cbv zeta. change (nr (zero_one_of m')) with (nr m'). change (nc (zero_one_of m')) with (nc m').
    change (nr (zero_one_of m)) with (nr m). change (nc (zero_one_of m)) with (nc m). rewrite V1, V2.
    set (a := nr m / 2 + ZnearestE yc + (i - P / 2)). set (b := nc m / 2 + ZnearestE xc + (j - P / 2)).
    replace (nr m / 2 + (ZnearestE yc + dy) + (i - P / 2)) with (a + dy) by lia. replace (nc m / 2 + (ZnearestE xc + dx) + (j - P / 2)) with (b + dx) by lia.
    specialize (V3 (a + dy) (b + dx)). replace (a + dy - dy) with a in V3 by lia. replace (b + dx - dx) with b in V3 by lia. unfold lit in V3.
    change (in_arrb (zero_one_of m') (a + dy) (b + dx)) with (in_arrb m' (a + dy) (b + dx)). change (in_arrb (zero_one_of m) a b) with (in_arrb m a b).
    cbn [zero_one_of amap at2]. destruct (in_arrb m' (a + dy) (b + dx)) eqn:D', (in_arrb m a b) eqn:D;
      rewrite ?in_arrb_spec, ?in_arrb_false in *; destruct (at2 m' (a + dy) (b + dx)), (at2 m a b); try reflexivity; intuition congruence. }
  rewrite (fit_ellipse_moves contours cv (zero_one_of m) (zero_one_of m') (p_nIterDilateErode p) (p_padFactor p) N dy dx Fo Hn
    (thresh_zero_one _ _ _ Em) (thresh_zero_one _ _ _ Em') V1 V2) in E1'.
  2:{ intros i j. rewrite !bright_lit. apply V3. }
  2:{ cbn [zero_one_of amap nr nc]. rewrite M1, M2. exact RU. }
  2:{ unfold pads in *. cbn [zero_one_of amap nr nc]. rewrite M1, M2. exact Pd. }
  rewrite Ee in E1'. injection E1' as <- <- <-. split; [reflexivity|].
  rewrite E2 in E2'. injection E2' as <-. rewrite E3 in E3'. injection E3' as <-.
  pose proof (down_wf' _ _ _ _ _ _ _ _ _ _ W E2) as W0. destruct (pad_crop_rec _ _ _ W0 E3) as [HN Rr].
  assert (Wr : wf ref) by (destruct Rr as (R1 & R2 & _); unfold wf; lia).
  rewrite (lateral_moves lstsq fuel rnd (zero_one_of m) (zero_one_of m') ref d (p_nPhaseSteps p) (p_dPixel p) (p_nPadFFT p) (p_nFocusCrop p) (p_nIterOffsets p)
    false xc yc (xc + IZR dx) (yc + IZR dy) (ZnearestE xc) (ZnearestE yc) dy dx y x Wr) in E4'; try exact E4; try (split; reflexivity); try (cbn; lia).
  - injection E4' as <- <-. auto.
  - split; symmetry; apply Znearest_add; assumption.
  - intros i j. apply Wn.
Qed.
Lemma fit_recovers_shift pupil p x y c d m xc yc ref dy dx : is_lstsq_oracle lstsq -> wf (p_maskRef p) -> fit pupil p = Some (Ok (x, y, c, d)) ->
  ampthresh pupil 21 = Ok m -> fit_ellipse contours cv (zero_one_of m) (p_nIterDilateErode p) (p_padFactor p) = Ok (d, xc, yc) ->
  rotate_shift_downsample rotate spline (p_maskRef p) (p_rotRef p) (d / p_diamHighRes p) 0 0 (p_padFacRef p) (p_flipxRef p) = Ok ref ->
  2 <= p_nPhaseSteps p -> 2 <= p_nPadFFT p -> p_nPadFFT p mod 2 = 0 -> 2 <= p_nFocusCrop p -> 2 <= p_nIterOffsets p ->
  window_shift (p_nPadFFT p) (window ref (p_nPadFFT p) 0 0) dy dx (window (zero_one_of m) (p_nPadFFT p) (ZnearestE yc) (ZnearestE xc)) ->
  spectrum (p_nPadFFT p) (window ref (p_nPadFFT p) 0 0) 0 (-1) <> RtoC 0 -> spectrum (p_nPadFFT p) (window ref (p_nPadFFT p) 0 0) (-1) 0 <> RtoC 0 ->
  (exists i j, 0 <= i < p_nPhaseSteps p /\ 0 <= j < p_nPhaseSteps p /\ trial (p_nPhaseSteps p) (p_dPixel p) 0 j = IZR dx /\ trial (p_nPhaseSteps p) (p_dPixel p) 0 i = IZR dy) ->
  (IZR (p_nPhaseSteps p - 1) * p_dPixel p < IZR (p_nPadFFT p))%R ->
  x = IZR (ZnearestE xc + dx) /\ y = IZR (ZnearestE yc + dy).
Proof.
  intros O W H Em Ee Er H1 H2 H3 H4 H5 Ws S1 S2 Tr Hw.
  apply fit_inv in H as (_ & m0 & xc0 & yc0 & ref1 & ref' & maskPad & Em0 & E1 & E2 & E3 & E4 & _ & _). rewrite Em in Em0. injection Em0 as <-.
  rewrite Ee in E1. injection E1 as <- <-. rewrite Er in E2. injection E2 as <-.
  pose proof (down_wf' _ _ _ _ _ _ _ _ _ _ W Er) as W0. destruct (pad_crop_rec _ _ _ W0 E3) as [HN Rr].
  assert (Wr : wf ref') by (destruct Rr as (R1 & R2 & _); unfold wf; lia).
  destruct (lateral_positive _ _ _ _ _ _ _ _ _ _ _ _ _ _ _ _ E4) as (P1 & _ & P3 & _).
  destruct (ampthresh_nonempty _ _ _ Em) as (Q1 & Q2 & M1 & M2).
  assert (Ww : forall i j, 0 <= i < p_nPadFFT p -> 0 <= j < p_nPadFFT p -> window ref' (p_nPadFFT p) 0 0 i j = window ref (p_nPadFFT p) 0 0 i j)
    by (intros; apply window_recentred; auto).
  assert (Sp : forall k l, spectrum (p_nPadFFT p) (window ref' (p_nPadFFT p) 0 0) k l = spectrum (p_nPadFFT p) (window ref (p_nPadFFT p) 0 0) k l).
  { intros k l. unfold spectrum. f_equal. apply csum2_ext. intros a b Ha Hb. rewrite Ww by auto. reflexivity. }
  destruct (lateral_recovers lstsq O fuel rnd (zero_one_of m) ref' d (p_nPhaseSteps p) (p_dPixel p) (p_nPadFFT p) (p_nFocusCrop p) (p_nIterOffsets p)
    false xc yc (ZnearestE xc) (ZnearestE yc) dy dx) as [K|K]; auto.
  - cbn. lia.
  - cbn. lia.
  - split; reflexivity.
  - intros a b Ha Hb. rewrite (Ws a b Ha Hb). symmetry. apply Ww; apply Z.mod_pos_bound; lia.
  - rewrite Sp. exact S1.
  - rewrite Sp. exact S2.
  - rewrite K in E4. discriminate.
  - rewrite K in E4. injection E4 as <- <-. auto.
Qed.
Lemma fit_terminates pupil p : fit pupil p <> None.
Proof.
  unfold fit_unmasked_pupil. destruct (check_tuning p); cbn [bind obind]; [|discriminate]. destruct (ampthresh pupil 21); cbn [obind]; [|discriminate].
  destruct (fit_ellipse _ _ _ _ _) as [[[d xc] yc]|]; cbn [obind]; [|discriminate]. destruct (rotate_shift_downsample _ _ _ _ _ _ _ _ _); cbn [bind obind]; [|discriminate].
  destruct (pad_crop _ _ _); cbn [obind]; [|discriminate].
  match goal with |- obind ?L _ <> None => assert (K : L <> None); [|destruct L as [[[y x]|]|]; cbn [obind]; [discriminate|discriminate|contradiction]] end.
  unfold compute_lateral_offsets. repeat (match goal with |- (if ?b then _ else _) <> None => destruct b; [discriminate|] end). discriminate.
Qed.
Lemma fit_rejects pupil p : p_nIterOffsets p <= 0 \/ p_nPadFFT p <= 0 \/ p_nFocusCrop p <= 0 \/ p_nPhaseSteps p <= 0 \/ p_nClock p <= 0 \/
  (p_dPixel p <= 0 \/ p_clockDegMax p <= 0 \/ p_diamHighRes p <= 0 \/ p_padFacRef p <= 0 \/ p_deltaAmpMax p < 0 \/ p_percentile p <= 0 \/ p_zeroPadding p < 0)%R ->
  fit pupil p = Some (Err TypeError).
Proof.
  intros H. unfold fit_unmasked_pupil. assert (T : check_tuning p = Err TypeError); [|rewrite T; reflexivity].
  unfold check_tuning, guard. destruct (Z.ltb_spec 0 (p_nIterOffsets p)); [cbn [bind]|reflexivity]. destruct (Z.ltb_spec 0 (p_nPadFFT p)); [cbn [bind]|reflexivity].
  destruct (Z.ltb_spec 0 (p_nFocusCrop p)); [cbn [bind]|reflexivity]. destruct (Z.ltb_spec 0 (p_nPhaseSteps p)); [cbn [bind]|reflexivity].
  destruct (Rltb 0 (p_dPixel p)) eqn:E1; [cbn [bind]|reflexivity]. destruct (Rltb 0 (p_clockDegMax p)) eqn:E2; [cbn [bind]|reflexivity].
  destruct (Z.ltb_spec 0 (p_nClock p)); [cbn [bind]|reflexivity].
  destruct (Rltb 0 (p_diamHighRes p)) eqn:E3; [cbn [bind]|reflexivity]. destruct (Rltb 0 (p_padFacRef p)) eqn:E4; [cbn [bind]|reflexivity].
  destruct (Rleb 0 (p_deltaAmpMax p)) eqn:E5; [cbn [bind]|reflexivity]. destruct (Rltb 0 (p_percentile p)) eqn:E6; [cbn [bind]|reflexivity].
  destruct (Rleb 0 (p_zeroPadding p)) eqn:E7; [cbn [bind]|reflexivity]. apply Rltb_iff in E1, E2, E3, E4, E6. apply Rleb_iff in E5, E7. exfalso. lra || lia || idtac.
  destruct H as [?|[?|[?|[?|[?|[?|[?|[?|[?|[?|[?|?]]]]]]]]]]]; lia || lra.
Qed.
Lemma fit_clock_same pupil p p' x y c c' d : p_maskRef p' = p_maskRef p -> p_zeroPadding p' = p_zeroPadding p -> p_diamHighRes p' = p_diamHighRes p ->
  p_clockDegMax p' = p_clockDegMax p -> p_nClock p' = p_nClock p -> p_percentile p' = p_percentile p -> p_deltaAmpMax p' = p_deltaAmpMax p ->
  fit pupil p = Some (Ok (x, y, c, d)) -> fit pupil p' = Some (Ok (x, y, c', d)) -> c' = c.
Proof.
  intros H1 H2 H3 H4 H5 H6 H7 H H'. apply fit_inv in H as (_ & m & xc & yc & ref0 & ref & maskPad & Em & _ & _ & _ & _ & E5 & E6).
  apply fit_inv in H' as (_ & m' & xc' & yc' & ref0' & ref' & maskPad' & Em' & _ & _ & _ & _ & E5' & E6').
  rewrite Em in Em'. injection Em' as <-. rewrite H1, H2, E5 in E5'. injection E5' as <-. rewrite H3, H4, H5, H6, H7, E6 in E6'. injection E6' as <-. reflexivity.
Qed.
End Fit.
