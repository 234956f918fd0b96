(** Concrete cases for maskfit.py. *)
From Coq Require Import ZArith Bool List Reals Lra Lia String FunctionalExtensionality.
From Flocq Require Import Core.
From Coquelicot Require Import Complex.
From Verif.Base Require Import Py Arr Vec Sums CSum Lstsq.
From Verif.Model Require Shapes.
From Verif.Model Require Import Dm Math Noll Fits PadCrop PsfFit MaskGen PupilUtil FitShapes Unwrap PupilFit MaskFit.
From Verif.Spec Require Import ConjugateSpec MathSpec FitsSpec PsfFitSpec MaskGenSpec FitShapesSpec PupilUtilSpec PupilFitSpec MaskFitSpec.
From Verif.Proofs Require Import MathP PadCropP FitsP PsfFitP DarkHoleP ConjugateEx MaskGenP MaskGenEx PupilUtilP PupilUtilN PupilUtilL PupilUtilC PupilUtilEx FitShapesP FitShapesEx PupilFitP PupilFitQ PupilFitO PupilFitEx MaskFitP MaskFitL.
Import ListNotations.
Open Scope list_scope.
Open Scope Z_scope.

Ltac fit7 := unfold fits; Z.div_mod_to_equations; lia.
(** ** Images of zeros and ones *)
Lemma values_in a b x : nr b = nr a -> nc b = nc a -> In x (values_where a (amap of_bool b)) -> exists i j, in_arr a i j /\ at2 b i j = true /\ x = at2 a i j.
Proof.
  intros S1 S2 H. unfold values_where in H. apply in_map_iff in H as ([i j] & <- & H). apply filter_In in H as [H B]. apply in_indices in H. cbn [fst snd] in *.
  exists i, j. split; [exact H|]. split; [|reflexivity]. cbn [amap at2] in B. unfold of_bool in B. destruct (Req_EM_T _ 1) as [Q|]; [|discriminate]. destruct (at2 b i j); [reflexivity|lra].
Qed.

Lemma norm_one a q : zero_one_image a -> (0 <= q <= 100)%R -> exists b, ampthresh a 21 = Ok b /\ compute_norm_factor a (amap of_bool b) q = Ok 1%R /\
  nr b = nr a /\ nc b = nc a /\ forall i j, lit b i j <-> bright a i j.
Proof.
  intros Z Hq. destruct (two_level_thresh a Z) as (b & E & B1 & B2 & L). exists b. split; [exact E|]. split; [|auto].
  destruct (compute_norm_factor a (amap of_bool b) q) as [f|e] eqn:F.
  - apply norm_ok in F as (_ & _ & _ & _ & P). f_equal. enough (1 <= f <= 1)%R by lra. apply (percentile_bounds _ _ _ 1 1 P). intros x I.
    apply values_in in I as (i & j & I & T & ->); [|auto..]. assert (Ib : in_arr b i j) by (unfold in_arr in *; rewrite B1, B2; exact I).
    destruct (proj1 (L i j) (conj Ib T)) as [_ ->]. lra.
  - exfalso. apply norm_err in F as [_ [S|[W|[Q|N]]]].
    + unfold same_shape in S. cbn [amap nr nc] in S. rewrite B1, B2, !Z.eqb_refl in S. discriminate.
    + apply W. intros i j _. cbn [amap at2]. unfold of_bool. destruct (at2 b i j); auto.
    + lra.
    + destruct Z as (_ & _ & i & j & I & V). destruct (proj2 (L i j) (conj I V)) as [Ib T]. specialize (N i j Ib). cbn [amap at2] in N. rewrite T in N. cbn in N. lra.
Qed.
Lemma scaled_one a : (forall i j, in_arr a i j -> (0 <= at2 a i j)%R) -> exists s, scaled_image a 1 = Ok s /\ aeq s a.
Proof.
  intros P. unfold scaled_image. destruct (Req_EM_T 1 0) as [Q|_]; [lra|]. eexists. split; [reflexivity|]. split; [reflexivity|]. split; [reflexivity|].
  intros i j I. cbn [amap at2]. specialize (P i j I). destruct (Rltb _ 0) eqn:Q; [apply Rltb_iff in Q; lra|field].
Qed.
Lemma sqrt_zero_one a s : (forall i j, in_arr a i j -> at2 a i j = 0%R \/ at2 a i j = 1%R) -> aeq s a -> aeq (amap sqrt s) a.
Proof.
  intros Z A. pose proof A as (A1 & A2 & A3). split; [exact A1|]. split; [exact A2|]. intros i j I. cbn [amap at2]. rewrite A3 by exact I.
  assert (Ia : in_arr a i j) by (unfold in_arr in *; cbn [amap nr nc] in I; rewrite <- A1, <- A2; exact I).
  destruct (Z i j Ia) as [->| ->]; [apply sqrt_0|apply sqrt_1].
Qed.
Lemma normalized_zero_one a q : zero_one_image a -> (0 <= q <= 100)%R -> exists r, normalized_amplitude a q = Ok r /\ aeq r a.
Proof.
  intros Z Hq. destruct (norm_one a q Z Hq) as (b & E & F & _). pose proof Z as [Z1 _]. destruct (scaled_one a) as (s & Es & As).
  { intros i j I. destruct (Z1 i j I); lra. }
  exists (amap sqrt s). split; [|apply sqrt_zero_one; auto]. unfold normalized_amplitude. rewrite E. cbn [bind]. rewrite F. cbn [bind]. rewrite Es. reflexivity.
Qed.
(** ** Offsets: a unmasked pupil that fills all but the first column, a mask of two holes *)
Definition pupil7 : arr R := Arr 7 7 (fun _ j => if j =? 0 then 0%R else 1%R).
Lemma pupil7_zero_one : zero_one_image pupil7.
Proof.
  split; [|split].
  - intros i j _. cbn [pupil7 at2]. destruct (j =? 0); auto.
  - exists 0, 0. split; [split; cbn; lia|reflexivity].
  - exists 0, 1. split; [split; cbn; lia|reflexivity].
Qed.
Lemma product_diag u r y x : aeq u pupil7 -> aeq r (diag 7 y x) -> fits 7 y x -> -1 <= x -> aeq (product u r) (diag 7 y x).
Proof.
  intros (U1 & U2 & U3) (R1 & R2 & R3) F Hx. cbn [pupil7 diag nr nc] in *. split; [exact U1|]. split; [exact U2|]. intros i j [Hi Hj]. cbn [product nr nc] in Hi, Hj.
  assert (Ij : 0 <= i < 7 /\ 0 <= j < 7) by lia. cbn [product at2]. rewrite U3 by (split; lia). rewrite R3 by (split; lia). cbn [pupil7 diag at2].
  destruct (Z.eqb_spec j 0) as [->|]; [|ring]. unfold dlit. change (7 / 2) with 3. destruct ((_ && _) || _) eqn:Q; [exfalso; lia|ring].
Qed.
Definition mask7 : mask_tuning := {| m_nPadFFT := 4; m_nFocusCrop := 2; m_nPhaseSteps := 3; m_dPixel := 1; m_nIterOuter := 1; m_nIterInner := 2;
  m_percentile := 50; m_maskRef := diag 9 0 (-1); m_diamHighRes := 1 |}.
Section Offsets.
Variables (lstsq : lstsq_fun) (fuel : nat) (rnd : R -> R).
Hypothesis oracle : is_lstsq_oracle lstsq.
Notation fit := (fit_pupil_mask_offsets lstsq rotate_ref spline_ref fuel rnd).
Notation shaped := (fit_shaped_pupil_mask_offsets (sp_shift scipy_ref) lstsq rotate_ref spline_ref fuel rnd).
Lemma mask_view x : (x = 0 \/ x = 1) -> exists p r,
  rotate_shift_downsample rotate_ref spline_ref (diag 9 0 (-1)) 0 (1 * 1 / 1) (IZR x + 0) (0 + 0) (12 / 10) false = Ok p /\ pad_crop p [7; 7] 0%R = Ok r /\ aeq r (diag 7 0 (x - 1)).
Proof.
  intros Hx. replace (1 * 1 / 1)%R with (1 / 1)%R by field. rewrite Rplus_0_r. replace (0 + 0)%R with (IZR 0) by ring.
  replace (diag 7 0 (x - 1)) with (diag 7 (0 + 0) (-1 + x)) by (f_equal; lia).
  apply (down_diag (diag 9 0 (-1)) 9 0 (-1) 0 x 0 (12 / 10) 5 (6 + x) 7); auto using aeq_refl; try lra; try lia; try fit7; try (change (7 / 2) with 3; lia).
  - apply odd_above; [exists 5; auto| |]; cbn; lra.
  - destruct Hx as [->| ->]; apply odd_above; cbn; [exists 6; auto|lra|lra|exists 7; auto|lra|lra].
Qed.
Lemma loop_right f g : (forall p q, 0 <= p < 4 -> 0 <= q < 4 -> f p q = if dlit 4 0 0 p q then 1%R else 0%R) ->
  (forall p q, 0 <= p < 4 -> 0 <= q < 4 -> g p q = if dlit 4 0 (-1) p q then 1%R else 0%R) ->
  exists d, lateral_loop lstsq (misfit 4 2 f g) 3 2 0 2 (0, 0, 1)%R = Ok (1, 0, d)%R.
Proof.
  intros Hf Hg. assert (F : fits 7 0 0) by fit7. assert (F4 : fits 4 0 (-1)) by fit7. assert (Ze : ZnearestE 0 = 0) by (apply (ZnearestE_IZR 0)).
  pose proof (lateral_right lstsq fuel rnd (diag 7 0 0) (diag 4 0 (-1)) 0 0 0 oracle F (aeq_refl _) (aeq_refl _) Ze Ze) as L.
  rewrite (lateral_unfold lstsq fuel rnd _ _ 1 3 1 4 2 2 false 0 0 0 0) in L; try lra; try lia; try (cbn; lia); try (split; cbn; lia).
  rewrite (misfit_ext 4 2 _ _ f g) in L.
  - change (Z.to_nat 2) with 2%nat in L. destruct (lateral_loop _ _ _ _ _ _ _) as [[[a b] d]|]; [|discriminate]. cbn [bind fst snd] in L. injection L as L1 L2.
    exists d. do 3 f_equal; lra.
  - intros p q Hp Hq. rewrite Hf by auto. apply (diag_window _ 7 0 0); auto using aeq_refl; lia.
  - intros p q Hp Hq. rewrite Hg by auto. apply (diag_window _ 4 0 (-1)); auto using aeq_refl; lia.
Qed.
Lemma offsets_ex : fit pupil7 (diag 7 0 0) 1 mask7 0 0 1 1 0 = Some (Ok (1, 0)%R).
Proof.
  assert (F : fits 7 0 0) by fit7. assert (Fm : fits 7 0 (-1)) by fit7. assert (Ze : ZnearestE 0 = 0) by (apply (ZnearestE_IZR 0)).
  destruct (normalized_zero_one pupil7 50 pupil7_zero_one ltac:(lra)) as (u & Eu & Au).
  destruct (normalized_zero_one (diag 7 0 0) 50 (diag_zero_one 7 0 0 F) ltac:(lra)) as (m & Em & Am).
  rewrite (fit_offsets_intro _ _ _ _ _ _ _ 1 mask7 0 0 1 1 0 u m); cbn [mask7 m_percentile m_nIterOuter]; auto; try lra.
  change (Z.to_nat 1) with 1%nat. cbn [offset_passes]. pose proof Au as (U1 & U2 & _). pose proof Am as (M1 & M2 & _). cbn [pupil7 diag nr nc] in U1, U2, M1, M2.
  destruct (mask_view 0 ltac:(auto)) as (p & r & Ep & Er & Ar). change (0 - 1) with (-1) in Ar.
  rewrite (pass_intro _ _ _ _ _ u m 1 mask7 0 0 1 1 0 0 0 p r); cbn [mask7 m_maskRef m_diamHighRes m_nPadFFT m_nFocusCrop m_nPhaseSteps m_nIterInner m_dPixel]; try lia; try lra; auto.
  - rewrite Ze. change (Z.to_nat 2) with 2%nat. destruct (loop_right (window m 4 0 0) (window (product u r) 4 0 0)) as (d & ->).
    + intros a b Ha Hb. rewrite (diag_window m 7 0 0) by (auto; lia). reflexivity.
    + intros a b Ha Hb. rewrite (diag_window (product u r) 7 0 (-1)) by (auto; try lia; apply product_diag; auto; lia). reflexivity.
    + cbn [bind obind fst snd offset_passes]. do 2 f_equal. f_equal; ring.
  - split; cbn; lia.
  - rewrite U1, U2. exact Er.
Qed.
Lemma shaped_ex : shaped (afull 7 7 1%R) (diag 7 0 0) 1 mask7 (-1) 0 1 1 0 1 0 = Some (Ok (1, 0)%R).
Proof.
  apply (shaped_whole _ _ _ _ _ _ (afull 7 7 1%R) pupil7 (diag 7 0 0) 1 mask7 (-1) 0 1 1 0 0 1 (1, 0)%R).
  - split; cbn; lia.
  - apply scipy_ref_ok.
  - split; [reflexivity|]. split; [reflexivity|]. intros i j [Hi Hj]. cbn [afull pupil7 nr nc] in Hi, Hj. cbn [pupil7 afull at2]. destruct (in_arrb _ _ _) eqn:Q; destruct (Z.eqb_spec j 0); try lra; exfalso.
    + apply in_arrb_spec in Q as [_ Q]. lia.
    + apply in_arrb_false in Q. apply Q. split; cbn [afull nr nc]; lia.
  - replace (-1 + 1)%R with 0%R by ring. replace (0 + 0)%R with 0%R by ring. exact offsets_ex.
Qed.
(** The premises of the recovery theorem are met by the same images. *)
Lemma offsets_premises : let N := m_nPadFFT mask7 in exists au am sim0,
  amplitude_of pupil7 50 au /\ amplitude_of (diag 7 0 0) 50 am /\
  simulated rotate_ref spline_ref au N (m_maskRef mask7) (1 * 1 / 1) 0 0 0 0 0 sim0 /\
  simulated rotate_ref spline_ref au N (m_maskRef mask7) (1 * 1 / 1) 0 0 0 (IZR 1) (IZR 0) (window am N (ZnearestE 0) (ZnearestE 0)) /\
  window_shift N sim0 0 1 (window am N (ZnearestE 0) (ZnearestE 0)) /\ spectrum N sim0 0 (-1) <> RtoC 0 /\ spectrum N sim0 (-1) 0 <> RtoC 0.
Proof.
  cbv zeta. assert (F : fits 7 0 0) by fit7. assert (Fm : fits 7 0 (-1)) by fit7. assert (Ze : ZnearestE 0 = 0) by (apply (ZnearestE_IZR 0)). rewrite Ze.
  destruct (normalized_zero_one pupil7 50 pupil7_zero_one ltac:(lra)) as (u & Eu & Au).
  destruct (normalized_zero_one (diag 7 0 0) 50 (diag_zero_one 7 0 0 F) ltac:(lra)) as (m & Em & Am).
  pose proof Au as (U1 & U2 & _). cbn [pupil7 nr nc] in U1, U2.
  destruct (mask_view 0 ltac:(auto)) as (p & r & Ep & Er & Ar). destruct (mask_view 1 ltac:(auto)) as (p' & r' & Ep' & Er' & Ar'). change (0 - 1) with (-1) in Ar. change (1 - 1) with 0 in Ar'.
  assert (Wd : wf (diag 9 0 (-1))) by (split; cbn; lia).
  pose proof (product_diag u r 0 (-1) Au Ar Fm ltac:(lia)) as Pr. pose proof (product_diag u r' 0 0 Au Ar' F ltac:(lia)) as Pr'.
  assert (Hs : forall a b, 0 <= a < 4 -> 0 <= b < 4 -> window (product u r) 4 0 0 a b = if dlit 4 0 (-1) a b then 1%R else 0%R).
  { intros a b Ha Hb. rewrite (diag_window (product u r) 7 0 (-1)) by (auto; lia). reflexivity. }
  assert (T : two_used 0 (-1)) by (left; auto).
  exists u, m, (window (product u r) 4 0 0). cbn [mask7 m_nPadFFT m_maskRef].
  split; [exact (proj1 (normalized_ok _ _ _ Eu))|]. split; [exact (proj1 (normalized_ok _ _ _ Em))|]. split; [|split; [|split]].
  - exists p, r. rewrite Ze, U1, U2. split; [exact Ep|]. split; [|reflexivity]. apply (pad_crop_rec2 _ _ _ _ (down_wf' _ _ _ _ _ _ _ _ _ _ Wd Ep) Er).
  - exists p', r'. rewrite Ze, U1, U2. split; [exact Ep'|]. split; [apply (pad_crop_rec2 _ _ _ _ (down_wf' _ _ _ _ _ _ _ _ _ _ Wd Ep') Er')|].
    extensionality a. extensionality b. apply window_aeq. apply (aeq_trans _ _ _ Am), aeq_sym, Pr'.
  - intros a b Ha Hb. rewrite Hs by (apply Z.mod_pos_bound; lia). rewrite (diag_window m 7 0 0) by (auto; lia).
    assert (a = 0 \/ a = 1 \/ a = 2 \/ a = 3) as [->|[->|[->| ->]]] by lia; assert (b = 0 \/ b = 1 \/ b = 2 \/ b = 3) as [->|[->|[->| ->]]] by lia; reflexivity.
  - assert (Nz : forall k l, (k = 0 \/ k = -1) -> (l = 0 \/ l = -1) -> (k, l) <> (0, 0) -> (k =? -1) && (l =? -1) = false -> spectrum 4 (window (product u r) 4 0 0) k l <> RtoC 0).
    { intros k l Hk Hl Hn Hb Q. pose proof (diag_spec _ 0 (-1) k l T Hs Hk Hl Hn) as D. rewrite Q, Hb in D. unfold Cmod2, RtoC in D. cbn [fst snd] in D. lra. }
    split; apply Nz; auto; congruence.
Qed.
End Offsets.
(** ** Lyot stop: a mask of two holes, resampled to the nearest pixel *)
Definition spline_near : bispline_fun := fun ys xs a y x => at2 a (idx ys (y - 1 / 2)%R) (idx xs (x - 1 / 2)%R).
Lemma seek_near h v y k i f : whole_grid h v -> 0 <= i <= k -> k <= i + Z.of_nat f -> k < 2 * h + 1 -> (Rabs (y - IZR (k - h)) < 1 / 2)%R -> seek v (y - 1 / 2)%R i f = k.
Proof.
  intros [L G] H1 H2 H3 H4. apply Rabs_def2 in H4. revert i H1 H2. induction f as [|f IH]; intros i H1 H2; cbn [seek]; [lia|].
  rewrite G by lia. destruct Rle_dec as [Q|Q].
  - destruct (Z.eq_dec i k); [assumption|]. assert (IZR (i - h) <= IZR (k - h) - 1)%R by (rewrite <- (minus_IZR _ 1); apply IZR_le; lia). lra.
  - apply IH; try lia. destruct (Z.eq_dec i k) as [->|]; [exfalso; lra|lia].
Qed.
Lemma near_close mag d : (9 / 10 <= mag <= 1)%R -> -3 <= d <= 3 -> (Rabs (IZR d / mag - IZR d) < 1 / 2)%R.
Proof.
  intros M D. replace (IZR d / mag - IZR d)%R with (IZR d * ((1 - mag) / mag))%R by (field; lra). rewrite Rabs_mult.
  assert (Rabs (IZR d) <= 3)%R by (rewrite <- abs_IZR; apply IZR_le; lia). pose proof (Rabs_pos (IZR d)).
  assert (0 <= (1 - mag) / mag <= 1 / 9)%R.
  { assert (I : (1 <= / mag <= 10 / 9)%R).
    { split; [rewrite <- Rinv_1; apply Rinv_le_contravar; lra|]. replace (10 / 9)%R with (/ (9 / 10))%R by field. apply Rinv_le_contravar; lra. }
    unfold Rdiv. replace ((1 - mag) * / mag)%R with (/ mag - 1)%R by (field; lra). lra. }
  rewrite (Rabs_pos_eq ((1 - mag) / mag)) by lra. nra.
Qed.
Lemma near_diag a n ang mag pf h H : 0 < n -> fits n 0 0 -> aeq a (diag n 0 0) -> (1 <= pf)%R -> (9 / 10 <= mag <= 1)%R ->
  least_odd_above (pf * IZR n) (2 * h + 1) -> least_odd_above (IZR (2 * h + 1) * mag + 2) (2 * H + 1) -> 3 <= h -> 3 <= H ->
  exists p r, rotate_shift_downsample rotate_ref spline_near a ang mag 0 0 pf false = Ok p /\ pad_crop p [7; 7] 0%R = Ok r /\ aeq r (diag 7 0 0).
Proof.
  intros Hn F A Hp M Hh HH H3 H4. pose proof A as (A1 & A2 & _). cbn [diag nr nc] in A1, A2. assert (W : wf a) by (unfold wf; lia).
  destruct (value_lem rotate_ref spline_near a ang mag 0 0 pf false h H W) as (p & B & g & E & B1 & B2 & BV & _ & G & P1 & P2 & _ & V); try lra; try lia.
  { rewrite A1, A2, Z.max_id. exact Hh. }
  { rewrite Rabs_R0, Rmax_left by lra. rewrite Rmult_0_r, Rplus_0_r. exact HH. }
  destruct (pad_crop_ok p 7 7 0%R ltac:(unfold wf; lia) ltac:(lia) ltac:(lia)) as (r & Er & R1 & R2 & RV). exists p, r. split; [exact E|]. split; [exact Er|].
  split; [exact R1|]. split; [exact R2|]. intros i j [Hi Hj]. rewrite R1 in Hi. rewrite R2 in Hj. rewrite RV by auto. rewrite P1, P2.
  replace (2 * (H + 1) / 2) with (H + 1) by (rewrite Z.mul_comm, Z.div_mul; lia). change (7 / 2) with 3. rewrite (proj2 (in_arrb_spec p _ _)) by (split; lia).
  replace (i - 3 + (H + 1)) with (H + 1 + (i - 3)) by lia. replace (j - 3 + (H + 1)) with (H + 1 + (j - 3)) by lia. rewrite V by lia.
  replace (if Req_EM_T ang 0 then B else rotate_ref B (- ang)%R) with B by (destruct (Req_EM_T ang 0); reflexivity).
  unfold spline_near, idx. rewrite !Rminus_0_r.
  assert (Sk : forall d, -3 <= d <= 3 -> seek g (IZR d / mag - 1 / 2) 0 (Z.to_nat (vlen g - 1)) = h + d).
  { intros d Hd. apply (seek_near h); auto; try lia.
    - destruct G as [-> _]. lia.
    - replace (h + d - h) with d by lia. apply near_close; auto. }
  rewrite !Sk by lia. rewrite BV by (split; lia). rewrite smoothed_point; try lia.
  2:{ split; [apply Rlt_le, Rinv_0_lt_compat; lra|]. rewrite <- Rinv_1. apply Rinv_lt_contravar; lra. }
  unfold flipped. rewrite (off_diag a n 0 0) by auto. cbn [diag at2]. unfold dlit. change (7 / 2) with 3. apply ifeq. lia.
Qed.
Lemma near_mag mag : (9 / 10 <= mag <= 1)%R -> forall ang, exists p r,
  rotate_shift_downsample rotate_ref spline_near (diag 9 0 0) ang mag 0 0 (12 / 10) false = Ok p /\ pad_crop p [7; 7] 0%R = Ok r /\ aeq r (diag 7 0 0).
Proof.
  intros M ang. apply (near_diag _ 9 ang mag (12 / 10) 5 6); auto using aeq_refl; try lra; try lia; try fit7.
  - apply odd_above; [exists 5; auto| |]; cbn; lra.
  - apply odd_above; [exists 6; auto| |]; cbn; lra.
Qed.
Lemma near_clock lstsq amp diam dh q delta : aeq amp (diag 7 0 0) -> (0 <= q <= 100)%R -> (0 <= delta)%R -> (0 < diam)%R -> (0 < dh)%R -> (9 / 10 <= diam / dh <= 1)%R ->
  exists c, compute_clocking lstsq rotate_ref spline_near amp diam (diag 9 0 0) dh 0 0 1 3 q delta false = Ok c.
Proof.
  intros A Hq Hd P1 P2 M. assert (F : fits 7 0 0) by fit7. unfold compute_clocking.
  rewrite (proj2 (Rltb_iff 0 diam)), (proj2 (Rltb_iff 0 dh)), (proj2 (Rleb_iff 0 q)), (proj2 (Rleb_iff 0 delta)) by lra. cbn [Z.ltb Z.compare guard bind negb].
  assert (A' : aeq (amap (fun w => w ^ 2)%R amp) (diag 7 0 0)).
  { destruct A as (A1 & A2 & A3). split; [exact A1|]. split; [exact A2|]. intros i j I. cbn [amap at2]. rewrite A3 by exact I. cbn [diag at2]. destruct (dlit _ _ _ _ _); ring. }
  destruct (diag_thresh _ 7 0 0 F A') as (m & -> & Am). cbn [bind]. destruct (norm_diag amp m 7 0 0 q F A Am Hq) as [f ->]. cbn [bind].
  destruct (fill_def (fun i => overlap_norm rotate_ref spline_near amp (diag 9 0 0) (diam / dh) 0 0 q delta f (Shapes.linspace (- (1))%R 1 3 i)) (Z.to_nat 3) 0) as [r Er].
  - intros i Hi. unfold overlap_norm, rotated_ref.
    destruct (near_diag (diag 9 0 0) 9 (Shapes.linspace (- (1))%R 1 3 i) (diam / dh) 1 4 5) as (p & r & -> & Ec & Ar); auto using aeq_refl; try lra; try lia; try fit7.
    { apply odd_above; [exists 4; auto| |]; cbn; lra. }
    { apply odd_above; [exists 5; auto| |]; cbn; lra. }
    cbn [bind]. destruct A as (A1 & A2 & _). cbn [diag nr nc] in A1, A2. rewrite A1, A2, Ec. cbn [bind].
    destruct (diag_thresh r 7 0 0 F Ar) as (b & -> & Ab). cbn [bind]. destruct (norm_diag r b 7 0 0 q F Ar Ab Hq) as [g ->]. cbn [bind]. eauto.
  - rewrite Er. cbn [bind]. apply fit_def; [lia|lra].
Qed.
Definition lyot7 : lyot_tuning := {| l_clockMaxDeg := 1; l_nClock := 3; l_deltaAmpMax := 1 / 10; l_diamPupil := 1; l_magShrinkFac := 1 / 2; l_deltaMag := 1 / 25;
  l_nMag := 3; l_nIterMag := 1; l_diamHighRes := 100 / 95; l_maskRef := diag 9 0 0; l_OD := 1; l_nPadFFT := 4; l_nFocusCrop := 2; l_nPhaseSteps := 3; l_dPixel := 1;
  l_percentile := 50 |}.
Ltac lc := cbn [lyot7 l_clockMaxDeg l_nClock l_deltaAmpMax l_diamPupil l_magShrinkFac l_deltaMag l_nMag l_nIterMag l_diamHighRes l_maskRef l_OD l_nPadFFT l_nFocusCrop l_nPhaseSteps l_dPixel l_percentile].
Lemma view7 (shape : arr R) ang mag : nr shape = 7 -> nc shape = 7 -> (19 / 20 <= mag <= 21 / 20)%R -> exists r, lyot_reference rotate_ref spline_near shape lyot7 ang mag 0 0 = Ok r /\ aeq r (diag 7 0 0).
Proof.
  intros S1 S2 M. unfold lyot_reference. lc. destruct (near_mag (mag * 1 / (100 / 95)) ltac:(lra) ang) as (p & r & -> & Er & Ar). cbn [bind]. rewrite S1, S2. eauto.
Qed.
Lemma overlap7 am clock mag : aeq am (diag 7 0 0) -> (19 / 20 <= mag <= 21 / 20)%R -> mag_overlap rotate_ref spline_near am lyot7 clock 0 0 mag = Ok (count2 (fun _ _ => true) 7 7).
Proof.
  intros A M. pose proof A as (A1 & A2 & A3). cbn [diag nr nc] in A1, A2. unfold mag_overlap. destruct (view7 am clock mag A1 A2 M) as (r & -> & Ar). cbn [bind]. cbv zeta.
  assert (F : fits 7 0 0) by fit7.
  assert (R2 : aeq (amap (fun w => w ^ 2)%R r) (diag 7 0 0)).
  { destruct Ar as (R1 & R2 & R3). split; [exact R1|]. split; [exact R2|]. intros i j I. cbn [amap at2]. rewrite R3 by exact I. cbn [diag at2]. destruct (dlit _ _ _ _ _); ring. }
  destruct (norm_one (amap (fun w => w ^ 2)%R r) 50) as (b & -> & E & _); [apply (zero_one_image_aeq _ _ (aeq_sym _ _ R2)), diag_zero_one, F|lra|]. cbn [bind]. lc. rewrite E. cbn [bind].
  f_equal. unfold count2. rewrite A1, A2. apply rsum2_ext. intros i j Hi Hj. destruct (Req_EM_T 1 0) as [Q|_]; [lra|]. f_equal. apply Rltb_iff.
  destruct R2 as (R1 & R2 & R3). rewrite R3 by (split; rewrite ?R1, ?R2; cbn; lia). rewrite A3 by (split; lia).
  match goal with |- (Rabs ?e < _)%R => replace e with 0%R by field end. rewrite Rabs_R0. lra.
Qed.
Lemma diag_total : rsum2 (at2 (diag 7 0 0)) 7 7 = 2%R.
Proof.
  rewrite (rsum2_ext _ (fun i j => (if (i =? 2) && (j =? 2) then 1 else 0) + (if (i =? 3) && (j =? 3) then 1 else 0))%R).
  - rewrite rsum2_add, (rsum2_delta (fun _ _ => 1%R)), (rsum2_delta (fun _ _ => 1%R)) by lia. lra.
  - intros i j Hi Hj. cbn [diag at2]. unfold dlit. change (7 / 2) with 3. cbn [Z.add Z.sub Z.opp Z.pos_sub Pos.pred_double Pos.add Pos.succ].
    destruct (Z.eqb_spec i 2), (Z.eqb_spec j 2), (Z.eqb_spec i 3), (Z.eqb_spec j 3); cbn [andb orb]; try lra; exfalso; lia.
Qed.
Lemma total_lit b a z : aeq z (diag 7 0 0) -> nr b = nr a -> nc b = nc a -> aeq a z \/ nr a = 7 /\ nc a = 7 -> (forall i j, lit b i j <-> bright a i j) ->
  (forall i j, in_arr z i j -> at2 z i j <> 0%R -> at2 a i j = 1%R) -> mask_total b z = 2%R.
Proof.
  intros (Z1 & Z2 & Z3) B1 B2 S L K. cbn [diag nr nc] in Z1, Z2.
  assert (N : nr a = 7 /\ nc a = 7) by (destruct S as [(S1 & S2 & _)|S]; [split; congruence|exact S]). destruct N as [N1 N2].
  unfold mask_total. rewrite Z1, Z2, <- diag_total. apply rsum2_ext. intros i j Hi Hj. rewrite <- Z3 by (split; lia).
  destruct (at2 b i j) eqn:T; [reflexivity|]. destruct (Req_EM_T (at2 z i j) 0) as [Q|Q]; [auto|]. exfalso.
  assert (Lb : lit b i j) by (apply L; split; [split; lia|apply K; [split; lia|exact Q]]). destruct Lb. congruence.
Qed.
Section LyotEx.
Variables (lstsq1 : lstsq1_fun) (lstsq : lstsq_fun).
Hypotheses (O1 : is_lstsq_oracle lstsq1) (O2 : is_lstsq_oracle lstsq).
Lemma lateral_still meas ref : aeq meas (diag 7 1 1) -> aeq ref (diag 7 1 1) ->
  compute_lateral_offsets lstsq 1 (fun x => x) meas ref 1 3 1 4 2 2 false 0 0 = Some (Ok (0, 0)%R).
Proof.
  intros Am Ar. assert (F : fits 7 1 1) by fit7.
  assert (Wm : 0 < nr meas /\ 0 < nc meas) by (destruct Am as (A1 & A2 & _); cbn in A1, A2; lia).
  assert (Wr : wf ref) by (destruct Ar as (A1 & A2 & _); cbn in A1, A2; split; lia).
  assert (Hr : forall p q, 0 <= p < 4 -> 0 <= q < 4 -> window ref 4 0 0 p q = if dlit 4 1 1 p q then 1%R else 0%R).
  { intros p q Hp Hq. rewrite (diag_window ref 7 1 1) by (auto; lia). reflexivity. }
  assert (Sh : window_shift 4 (window ref 4 0 0) 0 0 (window meas 4 0 0)).
  { intros p q Hp Hq. rewrite Hr by (apply Z.mod_pos_bound; lia). rewrite (diag_window meas 7 1 1) by (auto; lia). rewrite !Z.sub_0_r, !Z.mod_small by lia. reflexivity. }
  assert (Ze : ZnearestE 0 = 0) by (apply (ZnearestE_IZR 0)).
  rewrite (lateral_unfold lstsq 1 (fun x => x) meas ref 1 3 1 4 2 2 false 0 0 0 0) by (try lra; try lia; auto; cbn; auto).
  set (m := misfit 4 2 _ _). destruct cosines as (C1 & C0 & Cm & Cm2).
  assert (M : forall s t, m s t = ((2 - cos (PI / 2 * s) - cos (PI / 2 * t)) / 4)%R).
  { intros s t. unfold m. rewrite (misfit_shift 4 2 _ 0 0) by (lia || reflexivity || exact Sh). rewrite (diag_mismatch _ 1 1) by (auto; right; auto).
    rewrite !Rminus_0_r. auto. }
  destruct (trials 0%R) as (t0 & t1 & t2).
  assert (V : forall i j, 0 <= i < 3 -> 0 <= j < 3 -> m (trial 3 1 0 j) (trial 3 1 0 i) = ((2 - (if j =? 1 then 1 else 0) - (if i =? 1 then 1 else 0)) / 4)%R).
  { intros i j Hi Hj. rewrite M.
    assert (i = 0 \/ i = 1 \/ i = 2) as [->|[->| ->]] by lia; assert (j = 0 \/ j = 1 \/ j = 2) as [->|[->| ->]] by lia;
    cbn [Z.eqb Pos.eqb]; rewrite ?t0, ?t1, ?t2; eval_cos C1 C0 Cm Cm2; lra. }
  change (Z.to_nat 2) with 2%nat. cbn [lateral_loop]. unfold lateral_step at 1. cbn [Z.ltb Z.compare Z.eqb andb Pos.compare Pos.compare_cont].
  destruct (argmin_ok 3 (fun iy ix => m (vat (delta_vec 3 1 0) ix) (vat (delta_vec 3 1 0) iy)) ltac:(lia)) as (b & Eb & B).
  rewrite Eb. cbn [bind].
  assert (B' : first_max (fun i j => - m (trial 3 1 0 j) (trial 3 1 0 i))%R 3 3 (fst b) (snd b)).
  { revert B. apply first_max_ext. intros i j Hi' Hj'. rewrite !delta_at by auto. auto. }
  assert (Fm : first_max (fun i j => - m (trial 3 1 0 j) (trial 3 1 0 i))%R 3 3 1 1).
  { split; [lia|]. split; [lia|]. split.
    - intros i j Hi Hj. rewrite !V by lia. cbn [Z.eqb Pos.eqb]. destruct (j =? 1), (i =? 1); lra.
    - intros i j Hi Hj Bf. rewrite !V by lia. unfold before in Bf. cbn [Z.eqb Pos.eqb].
      destruct (Z.eqb_spec j 1), (Z.eqb_spec i 1); lra || lia. }
  destruct (first_max_unique _ _ _ _ _ _ _ B' Fm) as [E1 E2]. rewrite E1, E2, !delta_at by lia. rewrite !t1.
  unfold lateral_step. cbn [Z.add Z.ltb Z.compare Z.eqb andb Pos.compare Pos.compare_cont].
  rewrite (fit_bowl lstsq m 0); auto.
  - cbn [bind fst snd]. rewrite Rplus_0_r. reflexivity.
  - intros i j Hi Hj. rewrite V by auto.
    assert (i = 0 \/ i = 1 \/ i = 2) as [->|[->| ->]] by lia; assert (j = 0 \/ j = 1 \/ j = 2) as [->|[->| ->]] by lia;
      cbn [Z.sub Z.add Z.opp Pos.add Z.pos_sub Pos.pred_double Z.eqb Pos.eqb]; lra.
Qed.
Lemma crop7 a : aeq a (diag 7 0 0) -> exists c, offcenter_crop 0%R a 7 (IZR (7 / 2 + -1)) (IZR (7 / 2 + -1)) = Ok c /\ aeq c (diag 7 1 1).
Proof.
  intros A. pose proof A as (A1 & A2 & A3). cbn [diag nr nc] in A1, A2. destruct (crop_defined a 7 (-1) (-1)) as (c & E); [lia..|].
  pose proof E as E'. apply crop_window in E' as (_ & C1 & C2 & C3); [|lia|lia]. rewrite A1, A2 in E. exists c. split; [exact E|]. split; [exact C1|]. split; [exact C2|].
  intros i j [Hi Hj]. rewrite C1 in Hi. rewrite C2 in Hj. specialize (C3 i j Hi Hj).
  assert (Wc : window c 7 0 0 i j = at2 c i j).
  { unfold window. cbv zeta. rewrite C1, C2. change (7 / 2) with 3. replace (3 + 0 + (i - 3)) with i by lia. replace (3 + 0 + (j - 3)) with j by lia. rewrite (proj2 (in_arrb_spec c i j)) by (split; lia). reflexivity. }
  rewrite <- Wc, C3. pose proof (off_diag a 7 0 0 (-1 + (i - 3)) (-1 + (j - 3)) ltac:(lia) ltac:(fit7) A) as Od. unfold off_centre in Od. unfold window. cbv zeta.
  rewrite !Z.add_assoc in Od. change (7 / 2) with 3. rewrite Od. cbn [diag at2]. unfold dlit. change (7 / 2) with 3. apply ifeq. lia.
Qed.
Lemma lyot_ex : exists clock, fit_lyot_stop_mag_clocking lstsq1 lstsq rotate_ref spline_near 1 (fun x => x) pupil7 (diag 7 0 0) 0 0 lyot7 = Some (Ok (1%R, clock)).
Proof.
  assert (F : fits 7 0 0) by fit7. pose proof (diag_zero_one 7 0 0 F) as Zd. pose proof pupil7_zero_one as Zu.
  destruct (norm_one pupil7 50 Zu ltac:(lra)) as (b & Eb & Ef & B1 & B2 & BL).
  destruct (scaled_one pupil7) as (u & Eu & Au). { intros i j I. destruct (proj1 Zu i j I); lra. }
  destruct (scaled_one (diag 7 0 0)) as (m & Em & Am). { intros i j I. destruct (proj1 Zd i j I); lra. }
  pose proof (sqrt_zero_one _ _ (proj1 Zu) Au) as Su. pose proof (sqrt_zero_one _ _ (proj1 Zd) Am) as Sm.
  pose proof Au as (U1 & U2 & _). cbn [pupil7 nr nc] in U1, U2.
  destruct (view7 u 0 1 U1 U2 ltac:(lra)) as (r0 & Er0 & Ar0).
  assert (G : first_magnification u m (amap sqrt u) (amap sqrt m) r0 = Ok 1%R).
  { unfold first_magnification.
    destruct (two_level_thresh m (zero_one_image_aeq _ _ (aeq_sym _ _ Am) Zd)) as (mm & -> & M1 & M2 & ML). cbn [bind].
    destruct (two_level_thresh u (zero_one_image_aeq _ _ (aeq_sym _ _ Au) Zu)) as (mu & -> & N1 & N2 & NL). cbn [bind]. cbv zeta.
    change (amap2 Rmult (amap sqrt u) r0) with (product (amap sqrt u) r0). rewrite !select_total.
    pose proof (product_diag _ r0 0 0 Su Ar0 F ltac:(lia)) as P. pose proof Am as (Q1 & Q2 & Q3). cbn [diag nr nc] in Q1, Q2.
    rewrite (total_lit mm m (amap sqrt m) Sm M1 M2 (or_intror (conj Q1 Q2)) ML).
    2:{ intros i j I N. pose proof Sm as (_ & _ & S3). rewrite S3 in N by exact I. rewrite Q3 by exact I. destruct (proj1 Zd i j) as [E|E]; [|contradiction|exact E].
        destruct I as [I1 I2]. cbn [amap nr nc] in I1, I2. split; cbn [diag nr nc]; lia. }
    rewrite (total_lit mu u (product (amap sqrt u) r0) P N1 N2 (or_intror (conj U1 U2)) NL).
    2:{ intros i j I N. destruct I as [I1 I2]. cbn [product amap nr nc] in I1, I2. pose proof Su as (_ & _ & S3). pose proof Au as (_ & _ & T3). rewrite T3 by (split; lia).
        destruct (proj1 Zu i j) as [E|E]; [split; cbn; lia| |exact E]. exfalso. apply N. cbn [product at2]. rewrite S3 by (split; cbn; lia). rewrite E. ring. }
    destruct (Req_EM_T 2 0); [lra|]. destruct (Rltb (2 / 2) 0) eqn:Q; [apply Rltb_iff in Q; lra|]. replace (2 / 2)%R with 1%R by field. rewrite sqrt_1. reflexivity. }
  pose proof (product_diag (amap sqrt u) r0 0 0 Su Ar0 F ltac:(lia)) as Pr.
  assert (Pr' : aeq (product r0 (amap sqrt u)) (diag 7 0 0)).
  { destruct Pr as (P1 & P2 & P3). destruct Ar0 as (R1 & R2 & R3). split; [exact R1|]. split; [exact R2|]. intros i j I. rewrite <- P3.
    - cbn [product at2]. ring.
    - destruct I as [I1 I2]. cbn [product amap diag nr nc] in *. split; cbn; lia. }
  destruct (crop7 _ Sm) as (ca & Eca & Aca). destruct (crop7 _ Pr') as (cr & Ecr & Acr).
  destruct (near_clock lstsq1 (amap sqrt m) (1 * 1) (100 / 95) 50 (1 / 10) Sm) as (clock & Ec); try lra.
  exists clock.
  destruct (mag_passes (mag_pass lstsq1 (mag_overlap rotate_ref spline_near (amap sqrt m) lyot7 clock (0 + 0) (0 + 0)) lyot7) (Z.to_nat (l_nIterMag lyot7)) 0 1) as [v|e] eqn:Ev.
  2:{ exfalso. revert Ev. lc. change (Z.to_nat 1) with 1%nat. cbn [mag_passes]. unfold mag_pass at 1. cbv zeta. lc.
      destruct (fill_def (fun i => mag_overlap rotate_ref spline_near (amap sqrt m) lyot7 clock (0 + 0) (0 + 0) (1 + 1 / 2 * Shapes.linspace (- (1 / 25)) (1 / 25) 3 i)) (Z.to_nat 3) 0) as [q Eq].
      - intros i Hi. rewrite !Rplus_0_r. eexists. apply overlap7; [exact Sm|]. unfold Shapes.linspace.
        assert (i = 0 \/ i = 1 \/ i = 2) as [->|[->| ->]] by lia; cbn; lra.
      - rewrite Eq. cbn [bind]. change ((0 =? 0) && (1 <? 1)) with false. cbv iota. destruct (Req_EM_T _ 0); discriminate. }
  assert (Hv : v = 1%R).
  { revert Ev. lc. change (Z.to_nat 1) with 1%nat. cbn [mag_passes]. intros Ev. apply bind_ok in Ev as (v' & Ev & Q). injection Q as <-.
    pose proof (MaskFitL.pass_ok lstsq1 O1 _ lyot7 0 1 v' (fun g c => mag_overlap rotate_ref spline_near (amap sqrt m) lyot7 clock (0 + 0) (0 + 0) g = Ok c) ltac:(cbn; lia) (fun _ _ E => E) Ev) as (count & Hc & Hv).
    revert Hc Hv. lc. change ((0 =? 0) && (1 <? 1)) with false. cbv iota. intros Hc Hv.
    refine (vertex_flat _ 3 count v' _ _ _ Hv); [apply trials_distinct; [lia|lra]|lia|].
    assert (K : forall i, 0 <= i < 3 -> count i = count2 (fun _ _ => true) 7 7).
    { intros i Hi. specialize (Hc i Hi). rewrite !Rplus_0_r in Hc. rewrite overlap7 in Hc; [injection Hc as <-; reflexivity|exact Sm|].
      unfold trial_mag. assert (i = 0 \/ i = 1 \/ i = 2) as [->|[->| ->]] by lia; cbn; lra. }
    intros i j Hi Hj. rewrite !K by assumption. reflexivity. }
  rewrite Hv in Ev. clear v Hv.
  apply (lyot_intro lstsq1 lstsq rotate_ref spline_near 1 (fun x => x) pupil7 (diag 7 0 0) 0 0 lyot7 1 clock b 1 u m r0 1 r0 (-1) (-1) ca cr 0 0).
  - reflexivity.
  - reflexivity.
  - unfold check_lyot. lc. rewrite !(proj2 (Rltb_iff 0 _)) by lra. rewrite !(proj2 (Rleb_false 1 _)) by lra. reflexivity.
  - exact Eb.
  - exact Ef.
  - exact Eu.
  - exact Em.
  - exact Er0.
  - exact G.
  - exact Er0.
  - lc. replace (1 * 1 * 1)%R with 1%R by ring. apply coarse_diag, Sm.
  - exact Eca.
  - exact Ecr.
  - lc. replace (1 * 1)%R with 1%R by ring. apply lateral_still; assumption.
  - lc. rewrite !Rplus_0_r. exact Ec.
  - exact Ev.
Qed.
End LyotEx.
