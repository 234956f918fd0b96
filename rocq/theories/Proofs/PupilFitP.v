(** fit_unmasked_pupil and its predecessor: which data matter, translation, recovery. *)
From Coq Require Import ZArith Bool List Reals Lra Lia FunctionalExtensionality.
From Flocq Require Import Core.
From Coquelicot Require Import Complex.
From Verif.Base Require Import Py Arr Vec Sums CSum Lstsq.
From Verif.Model Require Import Math Noll Fits PadCrop PsfFit MaskGen PupilUtil FitShapes Unwrap PupilFit.
From Verif.Spec Require Import MathSpec FitsSpec PsfFitSpec MaskGenSpec PupilUtilSpec FitShapesSpec.
From Verif.Proofs Require Import PadCropP FitsP DarkHoleP MaskGenP MaskGenEx PupilUtilP PupilUtilN PupilUtilL PupilUtilC FitShapesP.
Import ListNotations.
Open Scope Z_scope.

(** ** Congruences *)
Lemma aeq_amap {A B} (f : A -> B) (a b : arr A) : aeq a b -> aeq (amap f a) (amap f b).
Proof. intros (A1 & A2 & A3). split; [exact A1|]. split; [exact A2|]. intros i j I. cbn [amap at2]. rewrite A3; [reflexivity|exact I]. Qed.
Lemma in_arrb_aeq {A} (a b : arr A) i j : aeq a b -> in_arrb a i j = in_arrb b i j.
Proof. intros (A1 & A2 & _). unfold in_arrb. rewrite A1, A2. reflexivity. Qed.
Lemma ampthresh_aeq_ok a b n m : aeq a b -> ampthresh a n = Ok m -> exists m', ampthresh b n = Ok m' /\ aeq m m'.
Proof. intros E H. pose proof (ampthresh_aeq a b n E) as K. rewrite H in K. destruct (ampthresh b n) as [m'|]; [eauto|contradiction]. Qed.
Lemma ampthresh_scaled a b s n m : (0 < s)%R -> aeq b (amap (fun v => s * v)%R a) -> ampthresh a n = Ok m ->
  exists m', ampthresh b n = Ok m' /\ aeq m m'.
Proof.
  intros Hs E H. destruct (ampthresh_affine a n m s 0 Hs H) as (m1 & E1 & A1).
  destruct (ampthresh_aeq_ok (amap (fun v => s * v + 0)%R a) b n m1) as (m' & E' & A'); auto.
  - apply aeq_sym. eapply aeq_trans; [exact E|]. split; [reflexivity|]. split; [reflexivity|]. intros. cbn [amap at2]. ring.
  - exists m'. split; auto. eapply aeq_trans; [apply aeq_sym; exact A1|exact A'].
Qed.
Lemma ampthresh_nonempty a n m : ampthresh a n = Ok m -> 0 < nr a /\ 0 < nc a /\ nr m = nr a /\ nc m = nc a.
Proof.
  intros H. apply ampthresh_ok in H as (lo & hi & Hg & k & ((i & j & [I1 I2] & _) & _) & _ & _ & _ & _ & _ & _ & M1 & M2 & _). lia.
Qed.
Lemma zero_one_of_shape m : nr (zero_one_of m) = nr m /\ nc (zero_one_of m) = nc m.
Proof. split; reflexivity. Qed.
Lemma zero_one_of_model m : amap of_bool m = zero_one_of m.
Proof. reflexivity. Qed.

Lemma fit_ellipse_aeq contours cv a b n f r : wf a -> (forall b b', aeq b b' -> contours b = contours b') -> aeq a b ->
  fit_ellipse contours cv a n f = Ok r -> fit_ellipse contours cv b n f = Ok r.
Proof.
  intros W X A E.
  pose proof (fit_ellipse_scale contours cv a n f 1 W ltac:(lra) X r E) as E1.
  destruct A as (A1 & A2 & A3).
  assert (Wb : wf b) by (unfold wf in *; lia).
  unfold fit_ellipse in *. rewrite <- A1, <- A2. set (N := Zceil _) in *.
  destruct (pad_crop a [N; N] 0%R) as [p|e] eqn:EP; [|discriminate]. cbn [bind] in E.
  destruct (pad_crop_recentred _ _ _ W EP) as [HN R].
  destruct (pad_crop_ok b N N 0%R Wb HN HN) as (p' & EP' & _). rewrite EP'. cbn [bind].
  destruct (pad_crop_recentred _ _ _ Wb EP') as [_ R'].
  assert (AE : aeq p p').
  { destruct R as (R1 & R2 & R3), R' as (S1 & S2 & S3). split; [congruence|]. split; [congruence|]. intros i j I.
    assert (I' : in_arr p' i j) by (unfold in_arr in *; rewrite S1, S2; rewrite R1, R2 in I; exact I).
    destruct (R3 i j I) as [P Q], (S3 i j I') as [P' Q']. rewrite <- A1, <- A2 in P', Q'.
    set (u := i - N / 2 + nr a / 2) in *. set (v := j - N / 2 + nc a / 2) in *.
    assert (In : in_arr a u v <-> in_arr b u v) by (unfold in_arr; rewrite A1, A2; reflexivity).
    destruct (in_arrb a u v) eqn:D.
    - apply in_arrb_spec in D. rewrite P, P' by tauto. apply A3, D.
    - apply in_arrb_false in D. rewrite Q, Q' by tauto. reflexivity. }
  destruct (ampthresh p 21) as [m|e] eqn:EM; [|discriminate]. cbn [bind] in E.
  destruct (ampthresh_aeq_ok p p' 21 m AE EM) as (m' & -> & AM). cbn [bind].
  assert (Wm : wf m) by (destruct (ampthresh_nonempty _ _ _ EM) as (? & ? & ? & ?); unfold wf; lia).
  pose proof (dilate_erode_aeq n m m' Wm AM) as D. rewrite <- (X _ _ D). destruct D as (D1 & D2 & _). rewrite <- D1, <- D2. exact E.
Qed.

Lemma window_aeq a b N yc xc p q : aeq a b -> window a N yc xc p q = window b N yc xc p q.
Proof.
  intros A. pose proof A as (A1 & A2 & A3). unfold window. cbv zeta. rewrite <- A1, <- A2, <- (in_arrb_aeq a b) by exact A.
  destruct (in_arrb a _ _) eqn:D; [|reflexivity]. apply A3, in_arrb_spec, D.
Qed.
Lemma misfit_ext N nCrop f g f' g' : (forall p q, 0 <= p < N -> 0 <= q < N -> f p q = f' p q) ->
  (forall p q, 0 <= p < N -> 0 <= q < N -> g p q = g' p q) -> misfit N nCrop f g = misfit N nCrop f' g'.
Proof.
  intros F G. apply functional_extensionality. intro dx. apply functional_extensionality. intro dy. unfold misfit. apply rsum2_ext. intros a b _ _.
  cbv zeta. destruct (_ && _); [|reflexivity].
  assert (Sp : forall h h' k l, (forall p q, 0 <= p < N -> 0 <= q < N -> h p q = h' p q) -> spectrum N h k l = spectrum N h' k l).
  { intros h h' k l E. unfold spectrum. f_equal. apply csum2_ext. intros p q Hp Hq. rewrite E by auto. reflexivity. }
  rewrite (Sp f f'), (Sp g g') by auto. reflexivity.
Qed.
(** The coarse search in terms of the image's values. *)
Lemma once_aeq a b beam x y r s : aeq a b ->
  match coarsely_locate_pupil_offset_once a beam x y r s, coarsely_locate_pupil_offset_once b beam x y r s with
  | Ok (u, v, _), Ok (u', v', _) => u = u' /\ v = v' | Err e, Err e' => e = e' | _, _ => False end.
Proof.
  intros (A1 & A2 & A3). unfold coarsely_locate_pupil_offset_once, guard. rewrite <- A1, <- A2.
  destruct (Rltb 0 beam); cbn [bind]; [|reflexivity]. destruct (0 <? r); cbn [bind]; [|reflexivity]. destruct (0 <? s); cbn [bind]; [|reflexivity].
  cbv zeta. match goal with |- context [argmax2 (Arr ?n ?n ?f)] => set (F := f) end.
  match goal with |- context [argmax2 (Arr ?n ?n ?g)] => lazymatch g with F => fail | _ => set (G := g) end end.
  match goal with |- context [argmax2 (Arr ?n ?n G)] => set (k := n) end.
  assert (FG : F = G).
  { apply functional_extensionality. intro iy. apply functional_extensionality. intro ix. unfold F, G.
    destruct (_ || _); [|reflexivity]. destruct (_ || _); [|reflexivity]. apply rsum2_ext. intros i j Hi Hj.
    destruct (Rleb _ _); [|reflexivity]. apply A3. split; assumption. }
  rewrite FG. destruct (argmax2 (Arr k k G)) as [[u v]|]; cbn [bind]; auto.
Qed.
Lemma coarse_loop_aeq fuel rnd a b beam shrink : aeq a b -> forall x y r s,
  coarse_loop fuel rnd a beam shrink x y r s = coarse_loop fuel rnd b beam shrink x y r s.
Proof.
  intros A. induction fuel as [|fuel IH]; intros x y r s; [reflexivity|]. cbn [coarse_loop].
  pose proof (once_aeq a b beam x y r s A) as K.
  destruct (coarsely_locate_pupil_offset_once a beam x y r s) as [[[u v] o]|], (coarsely_locate_pupil_offset_once b beam x y r s) as [[[u' v'] o']|];
    try contradiction; [destruct K; subst|subst; reflexivity].
  destruct (s =? 1); [reflexivity|apply IH].
Qed.
Lemma coarse_aeq fuel rnd a b beam shrink : aeq a b ->
  coarsely_locate_pupil_offset fuel rnd a beam shrink = coarsely_locate_pupil_offset fuel rnd b beam shrink.
Proof.
  intros A. unfold coarsely_locate_pupil_offset. rewrite (coarse_loop_aeq fuel rnd a b beam shrink A). destruct A as (-> & -> & _). reflexivity.
Qed.

(** ** The lateral search *)
Lemma lateral_positive lstsq fuel rnd meas ref diamEst n d N nCrop nIter useCoarse xCoarse yCoarse y x :
  compute_lateral_offsets lstsq fuel rnd meas ref diamEst n d N nCrop nIter useCoarse xCoarse yCoarse = Some (Ok (y, x)) ->
  (0 < diamEst)%R /\ 0 < n /\ (0 < d)%R /\ 0 < N /\ 0 < nCrop /\ 0 < nIter /\
  exists xc yc, starts fuel rnd meas diamEst useCoarse xCoarse yCoarse xc yc.
Proof.
  unfold compute_lateral_offsets. intros H.
  destruct (Rltb 0 diamEst) eqn:E1; [|discriminate]. destruct (Z.ltb_spec 0 n); [|discriminate].
  destruct (Rltb 0 d) eqn:E2; [|discriminate]. destruct (Z.ltb_spec 0 N); [|discriminate].
  destruct (Z.ltb_spec 0 nCrop); [|discriminate]. destruct (Z.ltb_spec 0 nIter); [|discriminate].
  apply Rltb_iff in E1, E2. cbn [negb] in H. do 6 (split; [assumption|]). unfold starts. destruct useCoarse.
  - destruct (coarsely_locate_pupil_offset fuel rnd meas diamEst 3) as [[[u v]|]|]; try discriminate. eauto.
  - eauto.
Qed.
(** The same windows give the same shift relative to the start. *)
Lemma lateral_moves lstsq fuel rnd meas meas' ref diamEst n d N nCrop nIter useCoarse xCoarse yCoarse xCoarse' yCoarse' xc yc dy dx y x :
  wf ref -> 0 < nr meas -> 0 < nc meas -> 0 < nr meas' -> 0 < nc meas' ->
  starts fuel rnd meas diamEst useCoarse xCoarse yCoarse xc yc ->
  starts fuel rnd meas' diamEst useCoarse xCoarse' yCoarse' (xc + dx) (yc + dy) ->
  (forall p q, window meas' N (yc + dy) (xc + dx) p q = window meas N yc xc p q) ->
  compute_lateral_offsets lstsq fuel rnd meas ref diamEst n d N nCrop nIter useCoarse xCoarse yCoarse = Some (Ok (y, x)) ->
  compute_lateral_offsets lstsq fuel rnd meas' ref diamEst n d N nCrop nIter useCoarse xCoarse' yCoarse' = Some (Ok (y + IZR dy, x + IZR dx)%R).
Proof.
  intros Wr M1 M2 M3 M4 S0 S1 Wn H. destruct (lateral_positive _ _ _ _ _ _ _ _ _ _ _ _ _ _ _ _ H) as (P1 & P2 & P3 & P4 & P5 & P6 & _).
  rewrite (lateral_unfold lstsq fuel rnd meas ref diamEst n d N nCrop nIter useCoarse xCoarse yCoarse xc yc) in H by auto.
  rewrite (lateral_unfold lstsq fuel rnd meas' ref diamEst n d N nCrop nIter useCoarse xCoarse' yCoarse' (xc + dx) (yc + dy)) by auto.
  rewrite (misfit_ext N nCrop (window meas' N (yc + dy) (xc + dx)) (window ref N 0 0) (window meas N yc xc) (window ref N 0 0)) by auto.
  destruct (lateral_loop _ _ _ _ _ _ _) as [s|e]; [|discriminate]. cbn [bind] in *. injection H as <- <-. rewrite !plus_IZR. do 2 f_equal. f_equal; ring.
Qed.
Lemma lateral_aeq lstsq fuel rnd meas meas' ref diamEst n d N nCrop nIter useCoarse xCoarse yCoarse y x :
  wf ref -> 0 < nr meas -> 0 < nc meas -> aeq meas meas' ->
  compute_lateral_offsets lstsq fuel rnd meas ref diamEst n d N nCrop nIter useCoarse xCoarse yCoarse = Some (Ok (y, x)) ->
  compute_lateral_offsets lstsq fuel rnd meas' ref diamEst n d N nCrop nIter useCoarse xCoarse yCoarse = Some (Ok (y, x)).
Proof.
  intros Wr M1 M2 A H. pose proof A as (A1 & A2 & _). destruct (lateral_positive _ _ _ _ _ _ _ _ _ _ _ _ _ _ _ _ H) as (_ & _ & _ & _ & _ & _ & xc & yc & S0).
  assert (S1 : starts fuel rnd meas' diamEst useCoarse xCoarse yCoarse (xc + 0) (yc + 0)).
  { rewrite !Z.add_0_r. unfold starts in *. destruct useCoarse; [rewrite <- (coarse_aeq fuel rnd meas meas') by exact A|]; exact S0. }
  rewrite <- (Rplus_0_r y), <- (Rplus_0_r x).
  eapply (lateral_moves lstsq fuel rnd meas meas'); [exact Wr|exact M1|exact M2|lia|lia|exact S0|exact S1| |exact H].
  intros p q. rewrite !Z.add_0_r. symmetry. apply window_aeq, A.
Qed.

(** ** Clocking *)
Lemma values_where_aeq a b m m' : aeq a b -> aeq m m' -> nr m = nr a -> nc m = nc a -> values_where a m = values_where b m'.
Proof.
  intros (A1 & A2 & A3) (M1 & M2 & M3) S1 S2. unfold values_where. rewrite <- A1, <- A2.
  assert (F : forall l, (forall p, In p l -> in_arr a (fst p) (snd p)) ->
    map (fun p => at2 a (fst p) (snd p)) (filter (fun p => if Req_EM_T (at2 m (fst p) (snd p)) 1 then true else false) l) =
    map (fun p => at2 b (fst p) (snd p)) (filter (fun p => if Req_EM_T (at2 m' (fst p) (snd p)) 1 then true else false) l)).
  { induction l as [|p l IH]; intros H; [reflexivity|]. cbn [filter map].
    assert (I : in_arr a (fst p) (snd p)) by (apply H; left; reflexivity).
    rewrite <- M3 by (unfold in_arr in *; rewrite S1, S2; exact I). specialize (IH (fun r Hr => H r (or_intror Hr))).
    destruct (Req_EM_T _ 1); [|exact IH]. cbn [map]. rewrite A3 by exact I. f_equal. exact IH. }
  apply F. intros p H. apply in_indices in H. exact H.
Qed.
Lemma norm_aeq a b m m' q v : aeq a b -> aeq m m' -> compute_norm_factor a m q = Ok v -> compute_norm_factor b m' q = Ok v.
Proof.
  intros A M H. apply norm_ok in H as (S0 & Z0 & Q & V & P). pose proof S0 as Sh. unfold same_shape in Sh. apply andb_true_iff in Sh as [Sh1 Sh2].
  apply Z.eqb_eq in Sh1, Sh2. rewrite (values_where_aeq a b m m') in V, P by (auto; lia). apply norm_ok.
  pose proof A as (A1 & A2 & A3). pose proof M as (M1 & M2 & M3). split; [|split; [|auto]].
  - unfold same_shape. rewrite <- A1, <- A2, <- M1, <- M2. apply andb_true_iff. split; apply Z.eqb_eq; lia.
  - intros i j I. assert (I' : in_arr m i j) by (unfold in_arr in *; rewrite M1, M2; exact I). rewrite <- M3 by exact I'. apply Z0, I'.
Qed.
Lemma fill_vec_ext f g : forall n k, (forall i, k <= i < k + Z.of_nat n -> f i = g i) -> fill_vec f k n = fill_vec g k n.
Proof.
  induction n as [|n IH]; intros k H; [reflexivity|]. cbn [fill_vec]. rewrite H by lia. destruct (g k); cbn [bind]; [|reflexivity].
  rewrite IH; [reflexivity|]. intros i Hi. apply H. lia.
Qed.
Lemma clocking_scaled lstsq rotate spline amp amp' s diamBeam maskRef diamHigh x y max n q delta v : (0 < s)%R ->
  aeq amp' (amap (fun u => s * u)%R amp) ->
  compute_clocking lstsq rotate spline amp diamBeam maskRef diamHigh x y max n q delta false = Ok v ->
  compute_clocking lstsq rotate spline amp' diamBeam maskRef diamHigh x y max n q delta false = Ok v.
Proof.
  intros Hs A H. unfold compute_clocking in *. do 5 (apply guard_ok in H as [-> H]; cbn [guard bind]). cbv zeta in *.
  apply bind_ok in H as (m & Em & H). cbn [negb] in *. apply bind_ok in H as (o & Ho & H). apply bind_ok in Ho as (f & Ef & Ho).
  pose proof A as (A1 & A2 & A3). cbn [amap nr nc] in A1, A2.
  destruct (ampthresh_scaled (amap (fun v => v ^ 2)%R amp) (amap (fun v => v ^ 2)%R amp') (s ^ 2) 21 m ltac:(nra)) as (m' & -> & AM); auto.
  { split; [exact A1|]. split; [exact A2|]. intros i j I. cbn [amap at2]. rewrite A3 by exact I. cbn [amap at2]. ring. }
  cbn [bind]. pose proof (norm_affine amp (amap of_bool m) q f s 0 ltac:(lra) Ef) as Es.
  rewrite (norm_aeq (amap (fun u => s * u + 0)%R amp) amp' (amap of_bool m) (amap of_bool m') q (s * f + 0)); [| |apply aeq_amap, AM|exact Es].
  2:{ apply aeq_sym. eapply aeq_trans; [exact A|]. split; [reflexivity|]. split; [reflexivity|]. intros. cbn [amap at2]. ring. }
  cbn [bind].
  match goal with |- bind (fill_vec ?F 0 ?k) _ = _ => match type of Ho with fill_vec ?G 0 _ = _ => assert (FE : fill_vec F 0 k = fill_vec G 0 k) end end.
  { clear Em Ef Es Ho H. apply fill_vec_ext. intros i _. unfold overlap_norm, rotated_ref. rewrite A1, A2. destruct (rotate_shift_downsample _ _ _ _ _ _ _ _ _); cbn [bind]; [|reflexivity].
    destruct (pad_crop _ _ _); cbn [bind]; [|reflexivity]. destruct (ampthresh _ _); cbn [bind]; [|reflexivity].
    destruct (compute_norm_factor _ _ _); cbn [bind]; [|reflexivity]. f_equal. unfold count2. apply rsum2_ext. intros u w Hu Hw. f_equal.
    rewrite A3 by (split; cbn [amap nr nc]; lia). cbn [amap at2].
    destruct (Req_EM_T (s * f + 0) 0), (Req_EM_T f 0); try nra; try reflexivity. destruct (Req_EM_T _ 0); [reflexivity|]. f_equal. f_equal. f_equal. field. split; lra. }
  rewrite FE, Ho. cbn [bind]. exact H.
Qed.
Lemma clocking_aeq lstsq rotate spline amp amp' diamBeam maskRef diamHigh x y max n q delta v :
  aeq amp amp' -> compute_clocking lstsq rotate spline amp diamBeam maskRef diamHigh x y max n q delta false = Ok v ->
  compute_clocking lstsq rotate spline amp' diamBeam maskRef diamHigh x y max n q delta false = Ok v.
Proof.
  intros A. apply (clocking_scaled lstsq rotate spline amp amp' 1); [lra|]. apply aeq_sym. eapply aeq_trans; [|exact A].
  split; [reflexivity|]. split; [reflexivity|]. intros. cbn [amap at2]. ring.
Qed.
