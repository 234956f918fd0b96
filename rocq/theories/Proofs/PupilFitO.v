(** fit_unmasked_pupil_old: diameter from the ratio of normalized areas. *)
From Coq Require Import ZArith Bool List Reals Lra Lia String.
From Flocq Require Import Core.
From Coquelicot Require Import Complex.
From Verif.Base Require Import Py Arr Vec Sums CSum Lstsq.
From Verif.Model Require Import Math Noll Fits PadCrop PsfFit MaskGen PupilUtil FitShapes Unwrap PupilFit.
From Verif.Spec Require Import MathSpec FitsSpec PsfFitSpec MaskGenSpec FitShapesSpec PupilUtilSpec PupilFitSpec.
From Verif.Proofs Require Import MathP PadCropP FitsP DarkHoleP MaskGenP MaskGenEx PupilUtilP PupilUtilN PupilUtilL PupilUtilC FitShapesP PupilFitP PupilFitQ.
Import ListNotations.
Open Scope list_scope.
Open Scope Z_scope.

Lemma thresh_positive a n m i j : (forall i j, in_arr a i j -> (0 <= at2 a i j)%R) -> ampthresh a n = Ok m -> in_arr a i j -> at2 m i j = true -> (0 < at2 a i j)%R.
Proof.
  intros P E I T. apply ampthresh_ok in E as (lo & hi & H & k & ((i0 & j0 & I0 & V0) & _) & _ & L & _ & K & _ & _ & _ & _ & V).
  apply V in T; [|exact I]. pose proof (P i0 j0 I0) as P0. rewrite V0 in P0. assert (0 < IZR n)%R by (apply IZR_lt; lia). assert (1 <= IZR k)%R by (apply IZR_le; lia).
  assert (0 < (IZR k + / 2) * (hi - lo) / IZR n)%R; [|lra]. apply Rdiv_lt_0_compat; [|assumption]. apply Rmult_lt_0_compat; lra.
Qed.
Lemma select_total m (a : arr R) : sum_list (select m a) = mask_total m a.
Proof.
  unfold select, mask_total, indices, rsum2, rsum, gsum, zrange.
  generalize (Z.to_nat (nr a)). generalize (Z.to_nat (nc a)). intros C Rn.
  assert (SA : forall l l', sum_list (l ++ l') = (sum_list l + sum_list l')%R).
  { unfold sum_list. induction l as [|v l IH]; intros l'; cbn [app fold_right]; [ring|]. rewrite IH. ring. }
  assert (G : forall r, sum_list (map (fun p => at2 a (fst p) (snd p))
    (filter (fun p => at2 m (fst p) (snd p)) (map (fun c => (r, c)) (map Z.of_nat (seq 0 C))))) =
    gnsum R 0%R Rplus (fun c => if at2 m r c then at2 a r c else 0)%R C).
  { intros r. induction C as [|C IH]; [reflexivity|].
    rewrite seq_S, !map_app, filter_app, map_app, SA. cbn [gnsum]. rewrite IH. f_equal.
    cbn. destruct (at2 m r _); cbn; ring. }
  induction Rn as [|Rn IH]; [reflexivity|].
  rewrite seq_S, map_app. cbn [gnsum].
  assert (LP : forall (l1 l2 l : list Z), list_prod (l1 ++ l2) l = list_prod l1 l ++ list_prod l2 l).
  { clear. induction l1 as [|x l1 IH]; intros; cbn; auto. rewrite IH, app_assoc. reflexivity. }
  rewrite LP, filter_app, map_app, SA, IH. f_equal. cbn [list_prod map Nat.add]. rewrite app_nil_r. apply G.
Qed.
Lemma mask_total_aeq m m' a b : nr m = nr a -> nc m = nc a -> aeq m m' -> aeq a b -> mask_total m a = mask_total m' b.
Proof.
  intros S1 S2 (M1 & M2 & M3) (A1 & A2 & A3). unfold mask_total. rewrite <- A1, <- A2. apply rsum2_ext. intros i j Hi Hj.
  rewrite <- M3 by (split; lia). rewrite A3 by (split; lia). reflexivity.
Qed.
Lemma mask_total_scale m a s : mask_total m (amap (fun v => s * v)%R a) = (s * mask_total m a)%R.
Proof. unfold mask_total. rewrite <- rsum2_scal. apply rsum2_ext. intros. cbn [amap at2]. destruct (at2 m i j); ring. Qed.
Definition nonneg (a : arr R) : Prop := forall i j, in_arr a i j -> (0 <= at2 a i j)%R.
Lemma nonneg_abs a : nonneg (amap Rabs a).
Proof. intros i j _. cbn [amap at2]. apply Rabs_pos. Qed.
(** The factor is positive. *)
Lemma factor_positive a n m q f : nonneg a -> ampthresh a n = Ok m -> is_percentile (values_where a (zero_one_of m)) q f -> values_where a (zero_one_of m) <> [] -> (0 < f)%R.
Proof.
  intros P E F N.
  set (l := values_where a (zero_one_of m)) in *.
  assert (Q : exists lo, (0 < lo)%R /\ forall x, In x l -> (lo <= x)%R).
  { assert (G : forall l : list R, (forall x, In x l -> (0 < x)%R) -> exists lo, (0 < lo)%R /\ forall x, In x l -> (lo <= x)%R).
    { induction l0 as [|v l0 IH]; intros H; [exists 1%R; split; [lra|intros x []]|].
      destruct IH as (lo & L1 & L2); [intros; apply H; right; assumption|]. exists (Rmin v lo). split.
      - apply Rmin_pos; [apply H; left; reflexivity|exact L1].
      - intros x [->|I]; [apply Rmin_l|]. eapply Rle_trans; [apply Rmin_r|apply L2, I]. }
    apply G. intros x I. apply in_values in I as (i & j & In & M & <-). eapply thresh_positive; [exact P|exact E|exact In|].
    cbn [zero_one_of amap at2] in M. destruct (at2 m i j); [reflexivity|lra]. }
  destruct Q as (lo & L1 & L2).
  assert (U : exists hi, forall x, In x l -> (x <= hi)%R).
  { clear. induction l as [|v l [hi H]]; [exists 0%R; intros x []|]. exists (Rmax v hi). intros x [->|I]; [apply Rmax_l|]. eapply Rle_trans; [apply H, I|apply Rmax_r]. }
  destruct U as (hi & U). pose proof (percentile_bounds l q f lo hi F ltac:(intros; split; auto)). lra.
Qed.
Lemma area_ok a q s : nonneg a -> normalized_area a q = Ok s -> area a q s.
Proof.
  intros P E. unfold normalized_area in E. apply bind_ok in E as (m & Em & E). apply bind_ok in E as (f & Ef & E).
  cbv zeta in E. apply bind_ok in E as (m' & Em' & E). injection E as <-.
  change (amap of_bool m) with (zero_one_of m) in Ef. apply norm_ok in Ef as (_ & _ & _ & Ne & Pc).
  pose proof (factor_positive _ _ _ _ _ P Em Pc Ne) as Fp. exists m, f. split; [exact Em|]. split; [exact Pc|]. split; [exact Fp|].
  rewrite select_total.
  assert (Fi : (0 < / f)%R) by (apply Rinv_0_lt_compat; exact Fp).
  assert (Ae : aeq (amap (fun v => v / f)%R a) (amap (fun v => / f * v)%R a)).
  { split; [reflexivity|]. split; [reflexivity|]. intros. cbn [amap at2]. unfold Rdiv. ring. }
  destruct (ampthresh_scaled a (amap (fun v => v / f)%R a) (/ f) 21 m Fi Ae Em) as (m2 & E2 & A2). rewrite Em' in E2. injection E2 as <-.
  destruct (ampthresh_nonempty _ _ _ Em) as (_ & _ & M1 & M2).
  rewrite <- (mask_total_aeq m m' (amap (fun v => / f * v)%R a) (amap (fun v => v / f)%R a)); [|exact M1|exact M2|exact A2|apply aeq_sym, Ae].
  rewrite mask_total_scale. unfold Rdiv. ring.
Qed.
Lemma area_positive a q s : nonneg a -> normalized_area a q = Ok s -> (0 < s)%R.
Proof.
  intros P E0. destruct (area_ok _ _ _ P E0) as (m & f & Em & Pc & Fp & ->). apply Rdiv_lt_0_compat; [|exact Fp].
  pose proof (thresh_zero_one _ _ _ Em) as (_ & _ & i & j & I & V). cbn [zero_one_of amap at2] in V.
  assert (T : at2 m i j = true) by (destruct (at2 m i j); [reflexivity|lra]). destruct (ampthresh_nonempty _ _ _ Em) as (_ & _ & M1 & M2).
  assert (I' : in_arr a i j) by (unfold in_arr in *; cbn [zero_one_of amap nr nc] in *; rewrite <- M1, <- M2; exact I).
  apply Rlt_le_trans with (if at2 m i j then at2 a i j else 0)%R.
  - rewrite T. eapply thresh_positive; [exact P|exact Em|exact I'|exact T].
  - unfold mask_total. apply (rsum2_term_le (fun i j => if at2 m i j then at2 a i j else 0%R)); [|apply I'|apply I'].
    intros k l Hk Hl. destruct (at2 m k l); [apply P; split; auto|lra].
Qed.
Lemma area_unique a q s s' : area a q s -> area a q s' -> s = s'.
Proof.
  intros (m & f & E & P & _ & ->) (m' & f' & E' & P' & _ & ->). rewrite E in E'. injection E' as <-. rewrite (percentile_unique _ _ _ _ P P'). reflexivity.
Qed.
Lemma area_scaled a b k q s : (0 < k)%R -> aeq b (amap (fun v => k * v)%R a) -> area a q s -> area b q s.
Proof.
  intros Hk A (m & f & E & P & F & ->). destruct (ampthresh_scaled a b k 21 m Hk A E) as (m' & E' & Am). destruct (ampthresh_nonempty _ _ _ E) as (_ & _ & M1 & M2).
  exists m', (k * f)%R. split; [exact E'|]. split; [|split; [nra|]].
  - assert (V : values_where b (zero_one_of m') = map (fun x => k * x + 0)%R (values_where a (zero_one_of m))).
    { rewrite <- values_affine. symmetry. apply values_where_aeq; [|apply aeq_amap, Am|exact M1|exact M2].
      apply aeq_sym. eapply aeq_trans; [exact A|]. split; [reflexivity|]. split; [reflexivity|]. intros. cbn [amap at2]. ring. }
    rewrite V. replace (k * f)%R with (k * f + 0)%R by ring. apply percentile_affine; [lra|exact P].
  - rewrite <- (mask_total_aeq m m' (amap (fun v => k * v)%R a) b M1 M2 Am (aeq_sym _ _ A)), mask_total_scale. field. split; lra.
Qed.
Lemma normalized_area_scaled a b k q s : nonneg a -> (0 < k)%R -> aeq b (amap (fun v => k * v)%R a) -> normalized_area a q = Ok s -> normalized_area b q = Ok s.
Proof.
  intros P Hk A E. pose proof (area_ok _ _ _ P E) as As. pose proof (area_scaled a b k q s Hk A As) as Bs.
  unfold normalized_area in E. apply bind_ok in E as (m & Em & E). apply bind_ok in E as (f & Ef & E). cbv zeta in E. apply bind_ok in E as (m2 & Em2 & _).
  destruct (ampthresh_scaled a b k 21 m Hk A Em) as (m' & Em' & Am).
  pose proof (norm_affine a _ q f k 0 ltac:(lra) Ef) as Ef'. pose proof A as (A1 & A2 & A3).
  assert (Ak : aeq (amap (fun v => k * v + 0)%R a) b).
  { apply aeq_sym. eapply aeq_trans; [exact A|]. split; [reflexivity|]. split; [reflexivity|]. intros. cbn [amap at2]. ring. }
  pose proof (norm_aeq _ b _ (amap of_bool m') q _ Ak (aeq_amap of_bool _ _ Am) Ef') as Eb.
  assert (Pb : nonneg b).
  { intros i j I. rewrite A3 by exact I. cbn [amap at2]. apply Rmult_le_pos; [lra|]. apply P. unfold in_arr in *. cbn [amap nr nc] in *. rewrite <- A1, <- A2. exact I. }
  assert (Fp : (0 < k * f + 0)%R).
  { pose proof Eb as Eb0. change (amap of_bool m') with (zero_one_of m') in Eb0. apply norm_ok in Eb0 as (_ & _ & _ & Ne & Pc). exact (factor_positive _ _ _ _ _ Pb Em' Pc Ne). }
  assert (R : exists s', normalized_area b q = Ok s').
  { unfold normalized_area. rewrite Em'. cbn [bind]. rewrite Eb. cbn [bind]. cbv zeta.
    destruct (ampthresh_scaled b (amap (fun v => v / (k * f + 0))%R b) (/ (k * f + 0)) 21 m') as (m3 & -> & _); [apply Rinv_0_lt_compat, Fp| |exact Em'|].
    - split; [reflexivity|]. split; [reflexivity|]. intros. cbn [amap at2]. unfold Rdiv. ring.
    - cbn [bind]. eauto. }
  destruct R as [s' R]. rewrite R. f_equal. eapply area_unique; [apply area_ok; eassumption|exact Bs].
Qed.
(** For an image of zeros and ones the area is the number of ones. *)
Lemma area_zero_one a q s : zero_one_image a -> area a q s -> counts (nr a) (nc a) (fun i j => at2 a i j = 1%R) s.
Proof.
  intros Z (m & f & E & P & _ & ->). destruct (two_level_thresh a Z) as (m' & E' & M1 & M2 & L). rewrite E in E'. injection E' as <-.
  assert (LM : forall i j, in_arr a i j -> (at2 m i j = true <-> at2 a i j = 1%R)).
  { intros i j I. specialize (L i j). unfold lit, bright in L. assert (in_arr m i j) by (unfold in_arr in *; rewrite M1, M2; exact I). tauto. }
  assert (F1 : f = 1%R).
  { assert (1 <= f <= 1)%R; [|lra]. apply (percentile_bounds _ _ _ 1 1 P). intros v Hv. apply in_values in Hv as (i & j & I & M & <-).
    cbn [zero_one_of amap at2] in M. assert (at2 m i j = true) as T by (destruct (at2 m i j); [reflexivity|lra]). apply LM in T; [|exact I]. lra. }
  subst f. exists (fun i j => if at2 m i j then at2 a i j else 0%R). split; [|unfold mask_total; field].
  intros i j Hi Hj. specialize (LM i j (conj Hi Hj)). destruct (at2 m i j); split; intros Q; auto.
  - exfalso. apply Q, LM. reflexivity.
  - exfalso. apply LM in Q. discriminate.
Qed.

Section Old.
Variables (lstsq1 : lstsq1_fun) (lstsq : lstsq_fun) (rotate : rotate_fun) (spline : bispline_fun) (fuel : nat) (rnd : R -> R).
Local Notation fit := (fit_unmasked_pupil_old lstsq1 lstsq rotate spline fuel rnd).
Lemma old_inv pupil p x y c d : fit pupil p = Some (Ok (x, y, c, d)) ->
  (0 <= q_deltaAmpMax p /\ 0 < q_percentile p /\ 0 <= q_zeroPadding p)%R /\
  exists m sM sR ref0 ref maskPad, ampthresh pupil (q_nBin p) = Ok m /\ normalized_area (amap Rabs pupil) (q_percentile p) = Ok sM /\
    normalized_area (amap Rabs (q_maskNom p)) (q_percentile p) = Ok sR /\ d = (q_nBeamNom p * sqrt (sM / sR))%R /\
    rotate_shift_downsample rotate spline (q_maskHigh p) 0 (d / q_diamHighRes p) 0 0 (12 / 10) false = Ok ref0 /\
    pad_crop ref0 [q_nPadFFT p; q_nPadFFT p] 0%R = Ok ref /\
    compute_lateral_offsets lstsq fuel rnd (zero_one_of m) ref d (q_nPhaseSteps p) (q_dPixel p) (q_nPadFFT p) (q_nFocusCrop p) 1 true 0 0 = Some (Ok (y, x)) /\
    padded_reference (q_maskHigh p) (q_zeroPadding p) = Ok maskPad /\
    compute_clocking lstsq1 rotate spline (amap Rabs pupil) d maskPad (q_diamHighRes p) x y (q_clockDegMax p) (q_nClock p) (q_percentile p)
      (q_deltaAmpMax p) false = Ok c.
Proof.
  unfold fit_unmasked_pupil_old. intros H. apply obind_ok in H as (m & E0 & H). injection E0 as E0.
  apply guard_ok in E0 as [G1 E0]. apply guard_ok in E0 as [G2 E0]. apply guard_ok in E0 as [G3 Em]. apply Rleb_iff in G1, G3. apply Rltb_iff in G2.
  split; [auto|]. apply obind_ok in H as ([d0 ref] & E1 & H). injection E1 as E1. apply bind_ok in E1 as (sM & E1 & E2). apply bind_ok in E2 as (sR & E2 & E3).
  cbv zeta in E3. apply bind_ok in E3 as (ref0 & E3 & E4). apply bind_ok in E4 as (ref1 & E4 & E5). injection E5 as <- <-.
  apply obind_ok in H as ([y0 x0] & E6 & H). injection H as H. apply bind_ok in H as (maskPad & E7 & H). apply bind_ok in H as (c0 & E8 & H).
  injection H as <- <- <- <-. exists m, sM, sR, ref0, ref1, maskPad. do 3 (split; [assumption|]). split; [reflexivity|]. repeat (split; [assumption|]). assumption.
Qed.
Lemma old_ok pupil p x y c d : is_lstsq_oracle lstsq1 -> is_lstsq_oracle lstsq -> wf (q_maskHigh p) -> fit pupil p = Some (Ok (x, y, c, d)) ->
  exists sM sR m xc yc ref maskPad sx sy mA count,
    area (amap Rabs pupil) (q_percentile p) sM /\ area (amap Rabs (q_maskNom p)) (q_percentile p) sR /\ d = (q_nBeamNom p * sqrt (sM / sR))%R /\
    ampthresh pupil (q_nBin p) = Ok m /\ coarsely_locate_pupil_offset fuel rnd (zero_one_of m) d 3 = Some (Ok (xc, yc)) /\
    rotate_shift_downsample rotate spline (q_maskHigh p) 0 (d / q_diamHighRes p) 0 0 (12 / 10) false = Ok ref /\
    lateral_search (misfit (q_nPadFFT p) (q_nFocusCrop p) (window (zero_one_of m) (q_nPadFFT p) yc xc) (window ref (q_nPadFFT p) 0 0))
      (q_nPhaseSteps p) 1 (q_dPixel p) sx sy /\
    x = (IZR xc + sx)%R /\ y = (IZR yc + sy)%R /\
    padded (q_maskHigh p) (q_zeroPadding p) maskPad /\
    ampthresh (amap (fun u => u ^ 2)%R (amap Rabs pupil)) 21 = Ok mA /\
    (forall i, 0 <= i < q_nClock p -> overlap rotate spline (amap Rabs pupil) d maskPad (q_diamHighRes p) x y (q_percentile p) (q_deltaAmpMax p) false mA
      (clock_angle (q_clockDegMax p) (q_nClock p) i) (count i)) /\
    clock_estimate (q_clockDegMax p) (q_nClock p) count c.
Proof.
  intros O1 O2 W H. apply old_inv in H as (_ & m & sM & sR & ref0 & ref & maskPad & Em & EM & ER & Ed & E2 & E3 & E4 & E5 & E6).
  pose proof (down_wf' _ _ _ _ _ _ _ _ _ _ W E2) as W0. destruct (pad_crop_rec _ _ _ W0 E3) as [HN Rr].
  assert (Wr : wf ref) by (destruct Rr as (R1 & R2 & _); unfold wf; lia).
  destruct (ampthresh_nonempty _ _ _ Em) as (P1 & P2 & M1 & M2).
  destruct (lateral_positive _ _ _ _ _ _ _ _ _ _ _ _ _ _ _ _ E4) as (_ & _ & _ & _ & _ & _ & xc & yc & S0).
  destruct (lateral_ok lstsq O2 fuel rnd (zero_one_of m) ref d (q_nPhaseSteps p) (q_dPixel p) (q_nPadFFT p) (q_nFocusCrop p) 1 true 0 0 xc yc y x) as (sx & sy & L & Y & X); auto.
  { cbn. lia. } { cbn. lia. }
  destruct (padded_ok _ _ _ W E5) as [Pd Wp].
  destruct (clocking_ok lstsq1 O1 _ _ _ _ _ _ _ _ _ _ _ _ _ _ Wp E6) as (mA & count & EA & Ov & Ce).
  exists sM, sR, m, xc, yc, ref0, maskPad, sx, sy, mA, count.
  split; [apply area_ok; [apply nonneg_abs|exact EM]|]. split; [apply area_ok; [apply nonneg_abs|exact ER]|]. do 2 (split; [assumption|]).
  split; [exact S0|]. split; [exact E2|]. split.
  { rewrite (misfit_ext _ _ _ (window ref0 (q_nPadFFT p) 0 0) (window (zero_one_of m) (q_nPadFFT p) yc xc) (window ref (q_nPadFFT p) 0 0));
      [exact L|reflexivity|]. intros i j Hi Hj. symmetry. apply window_recentred; auto. }
  split; [exact X|]. split; [exact Y|]. split; [exact Pd|]. split; [exact EA|]. split; [exact Ov|exact Ce].
Qed.
Lemma old_scale pupil p s r : wf (q_maskHigh p) -> (0 < s)%R -> fit pupil p = Some (Ok r) -> fit (amap (fun v => s * v)%R pupil) p = Some (Ok r).
Proof.
  destruct r as [[[x y] c] d]. intros W Hs H.
  apply old_inv in H as ((G1 & G2 & G3) & m & sM & sR & ref0 & ref & maskPad & Em & EM & ER & Ed & E2 & E3 & E4 & E5 & E6).
  destruct (ampthresh_nonempty _ _ _ Em) as (P1 & P2 & M1 & M2).
  pose proof (down_wf' _ _ _ _ _ _ _ _ _ _ W E2) as W0. destruct (pad_crop_rec _ _ _ W0 E3) as [HN Rr].
  assert (Wr : wf ref) by (destruct Rr as (R1 & R2 & _); unfold wf; lia).
  destruct (ampthresh_scaled pupil (amap (fun v => s * v)%R pupil) s (q_nBin p) m Hs (aeq_refl _) Em) as (m' & Em' & Am).
  assert (Aa : aeq (amap Rabs (amap (fun v => s * v)%R pupil)) (amap (fun v => s * v)%R (amap Rabs pupil))).
  { split; [reflexivity|]. split; [reflexivity|]. intros. cbn [amap at2]. rewrite Rabs_mult, (Rabs_pos_eq s) by lra. reflexivity. }
  unfold fit_unmasked_pupil_old. rewrite (proj2 (Rleb_iff 0 (q_deltaAmpMax p)) G1), (proj2 (Rltb_iff 0 (q_percentile p)) G2), (proj2 (Rleb_iff 0 (q_zeroPadding p)) G3).
  cbn [guard bind]. rewrite Em'. cbn [obind].
  rewrite (normalized_area_scaled (amap Rabs pupil) _ s _ sM (nonneg_abs _) Hs Aa EM). cbn [bind]. rewrite ER. cbn [bind]. cbv zeta. rewrite <- Ed, E2. cbn [bind].
  rewrite E3. cbn [bind obind]. change (amap of_bool m') with (zero_one_of m').
  rewrite (lateral_aeq lstsq fuel rnd (zero_one_of m) (zero_one_of m') ref d _ _ _ _ _ _ _ _ y x Wr) by (try (cbn; lia); try exact E4; apply aeq_amap, Am).
  cbn [obind]. rewrite E5. cbn [bind]. rewrite (clocking_scaled lstsq1 rotate spline (amap Rabs pupil) _ s _ _ _ _ _ _ _ _ _ c Hs Aa E6). reflexivity.
Qed.
Lemma old_self pupil p s x y c d : (0 < s)%R -> aeq (amap Rabs pupil) (amap (fun v => s * v)%R (amap Rabs (q_maskNom p))) ->
  fit pupil p = Some (Ok (x, y, c, d)) -> d = q_nBeamNom p.
Proof.
  intros Hs A H. apply old_inv in H as (_ & m & sM & sR & _ & _ & _ & _ & EM & ER & -> & _).
  rewrite (normalized_area_scaled _ _ s _ sR (nonneg_abs _) Hs A ER) in EM. injection EM as <-.
  pose proof (area_positive _ _ _ (nonneg_abs _) ER) as Sp.
  replace (sR / sR)%R with 1%R by (field; lra). rewrite sqrt_1. ring.
Qed.
Lemma old_binary pupil p x y c d : zero_one_image pupil -> zero_one_image (q_maskNom p) -> fit pupil p = Some (Ok (x, y, c, d)) ->
  exists nM nR, counts (nr pupil) (nc pupil) (fun i j => at2 pupil i j = 1%R) nM /\
    counts (nr (q_maskNom p)) (nc (q_maskNom p)) (fun i j => at2 (q_maskNom p) i j = 1%R) nR /\ d = (q_nBeamNom p * sqrt (nM / nR))%R.
Proof.
  intros Z1 Z2 H. apply old_inv in H as (_ & m & sM & sR & _ & _ & _ & _ & EM & ER & Ed & _). exists sM, sR.
  assert (G : forall a s, zero_one_image a -> normalized_area (amap Rabs a) (q_percentile p) = Ok s -> counts (nr a) (nc a) (fun i j => at2 a i j = 1%R) s).
  { intros a s Z E.
    assert (Ab : forall i j, in_arr a i j -> Rabs (at2 a i j) = at2 a i j).
    { intros i j I. destruct (proj1 Z i j I) as [->| ->]; [apply Rabs_R0|apply Rabs_R1]. }
    assert (Z' : zero_one_image (amap Rabs a)).
    { destruct Z as (V & (i0 & j0 & I0 & V0) & (i1 & j1 & I1 & V1)). split; [|split].
      - intros i j I. cbn [amap at2]. rewrite Ab by exact I. apply V, I.
      - exists i0, j0. split; [exact I0|]. cbn [amap at2]. rewrite Ab; auto.
      - exists i1, j1. split; [exact I1|]. cbn [amap at2]. rewrite Ab; auto. }
    destruct (area_zero_one _ _ _ Z' (area_ok _ _ _ (nonneg_abs _) E)) as (g & Hg & ->). exists g. split; [|reflexivity].
    intros i j Hi Hj. specialize (Hg i j Hi Hj). cbn [amap at2] in Hg. rewrite Ab in Hg by (split; auto). exact Hg. }
  split; [apply G; assumption|]. split; [apply G; assumption|exact Ed].
Qed.
Lemma old_rejects pupil p : (q_deltaAmpMax p < 0 \/ q_percentile p <= 0 \/ q_zeroPadding p < 0)%R -> fit pupil p = Some (Err TypeError).
Proof.
  intros H. unfold fit_unmasked_pupil_old, guard. destruct (Rleb 0 (q_deltaAmpMax p)) eqn:E1; [cbn [bind]|reflexivity].
  destruct (Rltb 0 (q_percentile p)) eqn:E2; [cbn [bind]|reflexivity]. destruct (Rleb 0 (q_zeroPadding p)) eqn:E3; [cbn [bind]|reflexivity].
  apply Rleb_iff in E1, E3. apply Rltb_iff in E2. exfalso. destruct H as [?|[?|?]]; lra.
Qed.
End Old.
