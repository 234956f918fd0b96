(** fit_lyot_stop_mag_clocking. *)
From Coq Require Import ZArith Bool List Reals Lra Lia String FunctionalExtensionality.
From Flocq Require Import Core.
From Verif.Base Require Import Py Arr Vec Sums Lstsq.
From Verif.Model Require Shapes.
From Verif.Model Require Import Math Noll Fits PadCrop MaskGen PupilUtil PupilFit MaskFit.
From Verif.Spec Require Import FitsSpec PsfFitSpec MaskGenSpec PupilUtilSpec PupilFitSpec MaskFitSpec RefuseSpec.
From Verif.Proofs Require Import MathP PadCropP FitsP PsfFitP DarkHoleP PupilUtilP PupilUtilN PupilUtilL PupilUtilC PupilFitP PupilFitQ PupilFitO MaskFitP RefuseP.
Import ListNotations.
Open Scope list_scope.
Open Scope Z_scope.

(** ** The search of the magnification *)
Lemma trial_linspace c s d n i : (c + s * Shapes.linspace (- d) d n i)%R = trial_mag c (s * d) n i.
Proof. unfold Shapes.linspace, trial_mag. destruct (n =? 1); [ring|]. unfold Rdiv. ring. Qed.
Lemma argmax1_ok f : forall n, (1 <= n)%nat -> first_largest f (Z.of_nat n) (argmax1 (Vec (Z.of_nat n) f)).
Proof.
  induction n as [|n IH]; intros H; [lia|]. unfold argmax1 in *. cbn [vlen vat] in *. rewrite zrange_S, fold_left_app. cbn [fold_left].
  destruct n as [|n].
  - cbn. destruct (Rlt_dec (f 0) (f 0)); [lra|]. split; [lia|]. split; intros i Hi; [replace i with 0 by lia; lra|lia].
  - specialize (IH ltac:(lia)). set (b := fold_left _ _ 0) in *. destruct IH as (B & M & F). set (k := Z.of_nat (S n)) in *.
    assert (Ek : Z.of_nat (S (S n)) = k + 1) by lia. rewrite Ek. assert (0 < k) by lia. destruct (Rlt_dec (f b) (f k)) as [L|L].
    + split; [lia|]. split; intros i Hi; [destruct (Z.eq_dec i k) as [->|]; [lra|]|]; (assert (Hi' : 0 <= i < k) by lia; pose proof (M i Hi'); lra).
    + split; [lia|]. split; [|exact F]. intros i Hi. destruct (Z.eq_dec i k) as [->|]; [lra|]. apply M. lia.
Qed.
Lemma trials_distinct c w n : 3 <= n -> w <> 0%R -> three_distinct (Vec n (trial_mag c w n)).
Proof.
  intros Hn Hw. exists 0, 1, 2. cbn [vlen vat]. do 3 (split; [lia|]).
  assert (N : (IZR n - 1 <> 0)%R) by (rewrite <- minus_IZR; apply not_0_IZR; lia).
  unfold trial_mag. destruct (Z.eqb_spec n 1); [lia|].
  assert (D : (2 * w / (IZR n - 1) <> 0)%R). { unfold Rdiv. apply Rmult_integral_contrapositive_currified; [lra|]. apply Rinv_neq_0_compat; auto. }
  unfold Rdiv in *. repeat split; intro E; apply D; lra.
Qed.
Lemma vertex_unique g n count v v' : three_distinct (Vec n g) -> vertex_estimate g n count v -> vertex_estimate g n count v' -> v = v'.
Proof.
  intros D (M & p2 & p1 & p0 & (i & Hi & Ei) & Mx & B & Z0 & Z1) (M' & q2 & q1 & q0 & (i' & Hi' & Ei') & Mx' & B' & Y0 & Y1).
  assert (M = M') as <-. { pose proof (Mx i' Hi'). pose proof (Mx' i Hi). lra. }
  destruct (best_parabola_unique _ _ _ _ _ _ _ _ D B B') as (<- & <- & _).
  destruct (Req_EM_T p2 0) as [E|E]; [rewrite Z0, Y0|rewrite Z1, Y1]; auto.
Qed.
Lemma exact_parabola n g y p2 p1 p0 : (forall i, 0 <= i < n -> vat y i = (p2 * g i ^ 2 + p1 * g i + p0)%R) -> best_parabola (Vec n g) y p2 p1 p0.
Proof.
  intros E q2 q1 q0. unfold sq_err at 1. cbn [vlen vat]. rewrite rsum_all_zero.
  - unfold sq_err. apply rsum_nonneg. intros j Hj. apply pow2_ge_0.
  - intros j Hj. rewrite E by exact Hj. ring.
Qed.
(** Counts that fall off linearly from a trial magnification give that magnification. *)
Lemma vertex_cone g n count v k K : three_distinct (Vec n g) -> 0 <= k < n -> (0 < K)%R ->
  (forall i, 0 <= i < n -> count i = (count k - K * Rabs (g i - g k))%R) -> vertex_estimate g n count v -> v = g k.
Proof.
  intros D Hk HK Hc V. apply (vertex_unique g n count v (g k) D V). exists (count k), (K ^ 2)%R, (- 2 * K ^ 2 * g k)%R, (K ^ 2 * g k ^ 2)%R.
  split; [eauto|]. split; [intros i Hi; rewrite Hc by exact Hi; pose proof (Rabs_pos (g i - g k)); nra|]. split; [|split; intros; [exfalso; nra|field; lra]].
  apply exact_parabola. intros i Hi. cbn [squared_deficit vat]. rewrite Hc by exact Hi.
  replace (count k - K * Rabs (g i - g k) - count k)%R with (- K * Rabs (g i - g k))%R by ring.
  rewrite Rpow_mult_distr, RPow_abs, (Rabs_pos_eq ((g i - g k) ^ 2)) by apply pow2_ge_0. ring.
Qed.
(** Equal counts give magnification one, whatever the trials. *)
Lemma vertex_flat g n count v : three_distinct (Vec n g) -> 0 < n -> (forall i j, 0 <= i < n -> 0 <= j < n -> count i = count j) ->
  vertex_estimate g n count v -> v = 1%R.
Proof.
  intros D Hn F V. apply (vertex_unique g n count v 1%R D V). exists (count 0), 0%R, 0%R, 0%R.
  split; [exists 0; split; [lia|reflexivity]|]. split; [intros i Hi; rewrite (F i 0) by lia; lra|]. split; [|split; intros; [reflexivity|lra]].
  apply exact_parabola. intros i Hi. cbn [squared_deficit vat]. rewrite (F i 0) by lia. ring.
Qed.
Lemma first_unique f n k k' : first_largest f n k -> first_largest f n k' -> k = k'.
Proof.
  intros (H & M & F) (H' & M' & F'). destruct (Z.lt_trichotomy k k') as [L|[L|L]]; [|exact L|].
  - pose proof (F' k ltac:(lia)). pose proof (M k' H'). lra.
  - pose proof (F k' ltac:(lia)). pose proof (M' k H). lra.
Qed.
Section Search.
Variables (agree : R -> R -> Prop) (w : R) (n : Z).
Hypothesis single : forall m c c', agree m c -> agree m c' -> c = c'.
Hypothesis (Hn : 3 <= n) (Hw : w <> 0%R).
Lemma step_unique b c v v' : mag_step agree w n b c v -> mag_step agree w n b c v' -> v = v'.
Proof.
  intros (f & F & V) (g & G & V'). assert (E : forall i, 0 <= i < n -> f i = g i) by (intros i Hi; eapply single; eauto). destruct b.
  - destruct V as (k & K & ->), V' as (k' & K' & ->). replace k' with k; [reflexivity|]. apply (first_unique f n); [exact K|].
    destruct K' as (H & M & L). split; [exact H|]. split; intros i Hi; rewrite !E by lia; auto.
  - apply (vertex_unique (trial_mag c w n) n f); [apply trials_distinct; auto|exact V|].
    destruct V' as (M & p2 & p1 & p0 & (i & Hi & Ei) & Mx & B & Z). exists M, p2, p1, p0. split; [exists i; rewrite E by exact Hi; auto|].
    split; [intros j Hj; rewrite E by exact Hj; auto|]. split; [|exact Z]. intros q2 q1 q0.
    assert (Q : forall a b c0, sq_err (Vec n (trial_mag c w n)) (squared_deficit M n f) a b c0 = sq_err (Vec n (trial_mag c w n)) (squared_deficit M n g) a b c0).
    { intros. unfold sq_err. apply rsum_ext. cbn [vlen vat squared_deficit]. intros j Hj. rewrite E by exact Hj. reflexivity. }
    rewrite !Q. apply B.
Qed.
Lemma search_unique k b c v v' : mag_search agree w n k b c v -> mag_search agree w n k b c v' -> v = v'.
Proof.
  intros H. revert v'. induction H as [b c|k b c c1 v St _ IH]; intros v' H'; inversion H'; subst; [reflexivity|]. apply IH.
  match goal with K : mag_step _ _ _ _ _ ?d |- _ => replace c1 with d; [assumption|eapply step_unique; eauto] end.
Qed.
End Search.
Lemma view_aeq rotate spline maskRef clock mag x y h w r r' : reference_view rotate spline maskRef clock mag x y h w r -> reference_view rotate spline maskRef clock mag x y h w r' -> aeq r r'.
Proof.
  intros (p & E & (R1 & R2 & R3)) (p' & E' & (S1 & S2 & S3)). rewrite E in E'. injection E' as <-. split; [congruence|]. split; [congruence|].
  intros i j I. rewrite R3 by exact I. symmetry. apply S3. unfold in_arr in *. rewrite S1, S2, <- R1, <- R2. exact I.
Qed.
Lemma bright_unique a a' q f f' : aeq a a' -> bright_level a q f -> bright_level a' q f' -> f = f'.
Proof.
  intros A (m & E & P) (m' & E' & P'). destruct (ampthresh_aeq_ok _ _ _ _ A E) as (m2 & E2 & Am). rewrite E' in E2. injection E2 as <-.
  destruct (ampthresh_nonempty _ _ _ E) as (_ & _ & M1 & M2).
  rewrite (values_where_aeq a a' (zero_one_of m) (zero_one_of m')) in P; [|exact A|apply aeq_amap, Am|exact M1|exact M2]. eapply percentile_unique; eauto.
Qed.
Lemma agreement_single rotate spline a maskRef scale clock x y q delta mag c c' :
  mag_agreement rotate spline a maskRef scale clock x y q delta mag c -> mag_agreement rotate spline a maskRef scale clock x y q delta mag c' -> c = c'.
Proof.
  intros (r & f & V & B & C) (r' & f' & V' & B' & C'). pose proof (view_aeq _ _ _ _ _ _ _ _ _ _ _ V V') as A.
  assert (Ef : f = f'). { eapply bright_unique; [|exact B|exact B']. apply product_aeq; auto. } subst f'. eapply counts_unique; [exact C|].
  destruct C' as (g & G & ->). exists g. split; [|reflexivity]. intros i j Hi Hj. destruct (G i j Hi Hj) as [G1 G2].
  destruct V as (p & _ & (R1 & R2 & _)). destruct A as (_ & _ & A). rewrite A by (split; congruence || lia). auto.
Qed.

Section Lyot.
Variables (lstsq1 : lstsq1_fun) (lstsq : lstsq_fun) (rotate : rotate_fun) (spline : bispline_fun).
Local Notation fit := (fit_lyot_stop_mag_clocking lstsq1 lstsq rotate spline).
Local Notation viewed := (lyot_reference rotate spline).

Lemma viewed_ok shape p clock mag x y r : wf (l_maskRef p) -> viewed shape p clock mag x y = Ok r ->
  reference_view rotate spline (l_maskRef p) clock (mag * (l_diamPupil p / l_diamHighRes p)) x y (nr shape) (nc shape) r.
Proof.
  intros W H. unfold lyot_reference in H. apply bind_ok in H as (t & Et & H). pose proof (down_wf' _ _ _ _ _ _ _ _ _ _ W Et) as W0.
  destruct (pad_crop_rec2 _ _ _ _ W0 H) as (_ & _ & Rr). exists t. split; [|exact Rr]. rewrite <- Et. f_equal. unfold Rdiv. ring.
Qed.
Lemma viewed_shape a b p clock mag x y : nr a = nr b -> nc a = nc b -> viewed a p clock mag x y = viewed b p clock mag x y.
Proof. intros E1 E2. unfold lyot_reference. rewrite E1, E2. reflexivity. Qed.
Lemma check_lyot_ok p v : check_lyot p = Ok v -> (0 < l_clockMaxDeg p /\ 0 < l_deltaAmpMax p < 1 /\ 0 < l_diamPupil p /\ 0 < l_magShrinkFac p < 1 /\ 0 < l_deltaMag p)%R /\
  0 < l_nClock p /\ 0 < l_nMag p /\ 0 < l_nIterMag p.
Proof.
  unfold check_lyot. intros H. do 10 (apply guard_ok in H as [? H]). repeat match goal with
  | K : Rltb _ _ = true |- _ => apply Rltb_iff in K
  | K : negb (Rleb _ _) = true |- _ => apply negb_true_iff, Rleb_false in K
  | K : (_ <? _) = true |- _ => apply Z.ltb_lt in K end. lra || (repeat split; assumption || lra).
Qed.
Lemma check_lyot_err p e : check_lyot p = Err e -> e = TypeError \/ e = ValueError.
Proof.
  unfold check_lyot, guard. repeat (match goal with |- context [if ?b then _ else _] => destruct b end; cbn [bind]; try (intros H; injection H as <-; auto)); discriminate.
Qed.
Lemma check_lyot_def p : (0 < l_clockMaxDeg p /\ 0 < l_deltaAmpMax p < 1 /\ 0 < l_diamPupil p /\ 0 < l_magShrinkFac p < 1 /\ 0 < l_deltaMag p)%R ->
  0 < l_nClock p -> 0 < l_nMag p -> 0 < l_nIterMag p -> check_lyot p = Ok tt.
Proof.
  intros (H1 & [H2 H3] & H4 & [H5 H6] & H7) H8 H9 H10. unfold check_lyot.
  rewrite !(proj2 (Rltb_iff _ _)) by assumption. rewrite !(proj2 (Rleb_false _ _)) by assumption. rewrite !(proj2 (Z.ltb_lt _ _)) by assumption. reflexivity.
Qed.
(** The fit, step by step. *)
Lemma lyot_inv fuel rnd iu im xP yP p mag clock : fit fuel rnd iu im xP yP p = Some (Ok (mag, clock)) ->
  nr im = nr iu /\ nc im = nc iu /\ check_lyot p = Ok tt /\ exists b f u m r0 mag0 r1 x1 y1 ca cr dy dx,
    ampthresh iu 21 = Ok b /\ compute_norm_factor iu (amap of_bool b) (l_percentile p) = Ok f /\ scaled_image iu f = Ok u /\ scaled_image im f = Ok m /\
    viewed u p 0 1 xP yP = Ok r0 /\ first_magnification u m (amap sqrt u) (amap sqrt m) r0 = Ok mag0 /\ viewed u p 0 mag0 xP yP = Ok r1 /\
    coarsely_locate_pupil_offset fuel rnd (amap sqrt m) (mag0 * l_diamPupil p * l_OD p) 3 = Some (Ok (x1, y1)) /\
    offcenter_crop 0%R (amap sqrt m) (Z.max (nr iu) (nc iu)) (IZR (nr iu / 2 + y1)) (IZR (nc iu / 2 + x1)) = Ok ca /\
    offcenter_crop 0%R (product r1 (amap sqrt u)) (Z.max (nr iu) (nc iu)) (IZR (nr iu / 2 + y1)) (IZR (nc iu / 2 + x1)) = Ok cr /\
    compute_lateral_offsets lstsq fuel rnd ca cr (mag0 * l_diamPupil p) (l_nPhaseSteps p) (l_dPixel p) (l_nPadFFT p) (l_nFocusCrop p) 2 false 0 0 = Some (Ok (dy, dx)) /\
    compute_clocking lstsq1 rotate spline (amap sqrt m) (mag0 * l_diamPupil p) (l_maskRef p) (l_diamHighRes p) (dx + xP) (dy + yP) (l_clockMaxDeg p)
      (l_nClock p) (l_percentile p) (l_deltaAmpMax p) false = Ok clock /\
    mag_passes (mag_pass lstsq1 (mag_overlap rotate spline (amap sqrt m) p clock (dx + xP) (dy + yP)) p) (Z.to_nat (l_nIterMag p)) 0 mag0 = Ok mag.
Proof.
  unfold fit_lyot_stop_mag_clocking. intros H. apply obind_ok in H as ([[am mag0] ar] & E & H). injection E as E.
  apply guard_ok in E as [Sh E]. apply same_shape_iff in Sh as [S1 S2]. apply bind_ok in E as ([] & Ec & E). apply bind_ok in E as (b & Eb & E). apply bind_ok in E as (f & Ef & E).
  apply bind_ok in E as (u & Eu & E). apply bind_ok in E as (m & Em & E). cbv zeta in E. apply bind_ok in E as (r0 & Er0 & E). apply bind_ok in E as (g & Eg & E).
  apply bind_ok in E as (r1 & Er1 & E). injection E as <- <- <-.
  apply obind_ok in H as ([x1 y1] & Eco & H). apply obind_ok in H as ([ca cr] & E & H). injection E as E. apply bind_ok in E as (ca' & Eca & E). apply bind_ok in E as (cr' & Ecr & E).
  injection E as <- <-. cbn [fst snd] in H. apply obind_ok in H as ([dy dx] & El & H). cbn [fst snd] in H. injection H as H. apply bind_ok in H as (ck & Eck & H). apply bind_ok in H as (mg & Emg & H).
  injection H as <- <-. destruct (scaled_ok _ _ _ Eu) as [_ (U1 & U2 & _)]. destruct (scaled_ok _ _ _ Em) as [_ (M1 & M2 & _)].
  cbn [amap nr nc] in Eca, Ecr. rewrite M1, M2, <- S1, <- S2, !(Z.add_comm y1), !(Z.add_comm x1) in Eca, Ecr.
  split; [auto|]. split; [auto|]. split; [exact Ec|]. exists b, f, u, m, r0, g, r1, x1, y1, ca', cr', dy, dx. repeat (split; [assumption|]). assumption.
Qed.
Lemma lyot_intro fuel rnd iu im xP yP p mag clock b f u m r0 mag0 r1 x1 y1 ca cr dy dx : nr im = nr iu -> nc im = nc iu -> check_lyot p = Ok tt ->
    ampthresh iu 21 = Ok b -> compute_norm_factor iu (amap of_bool b) (l_percentile p) = Ok f -> scaled_image iu f = Ok u -> scaled_image im f = Ok m ->
    viewed u p 0 1 xP yP = Ok r0 -> first_magnification u m (amap sqrt u) (amap sqrt m) r0 = Ok mag0 -> viewed u p 0 mag0 xP yP = Ok r1 ->
    coarsely_locate_pupil_offset fuel rnd (amap sqrt m) (mag0 * l_diamPupil p * l_OD p) 3 = Some (Ok (x1, y1)) ->
    offcenter_crop 0%R (amap sqrt m) (Z.max (nr iu) (nc iu)) (IZR (nr iu / 2 + y1)) (IZR (nc iu / 2 + x1)) = Ok ca ->
    offcenter_crop 0%R (product r1 (amap sqrt u)) (Z.max (nr iu) (nc iu)) (IZR (nr iu / 2 + y1)) (IZR (nc iu / 2 + x1)) = Ok cr ->
    compute_lateral_offsets lstsq fuel rnd ca cr (mag0 * l_diamPupil p) (l_nPhaseSteps p) (l_dPixel p) (l_nPadFFT p) (l_nFocusCrop p) 2 false 0 0 = Some (Ok (dy, dx)) ->
    compute_clocking lstsq1 rotate spline (amap sqrt m) (mag0 * l_diamPupil p) (l_maskRef p) (l_diamHighRes p) (dx + xP) (dy + yP) (l_clockMaxDeg p)
      (l_nClock p) (l_percentile p) (l_deltaAmpMax p) false = Ok clock ->
    mag_passes (mag_pass lstsq1 (mag_overlap rotate spline (amap sqrt m) p clock (dx + xP) (dy + yP)) p) (Z.to_nat (l_nIterMag p)) 0 mag0 = Ok mag ->
  fit fuel rnd iu im xP yP p = Some (Ok (mag, clock)).
Proof.
  intros S1 S2 Ec Eb Ef Eu Em Er0 Eg Er1 Eco Eca Ecr El Eck Emg. unfold fit_lyot_stop_mag_clocking.
  rewrite (proj2 (same_shape_iff iu im)) by auto. cbn [guard]. rewrite Ec, Eb. cbn [bind]. rewrite Ef. cbn [bind]. rewrite Eu, Em. cbn [bind]. cbv zeta. rewrite Er0. cbn [bind].
  rewrite Eg. cbn [bind]. rewrite Er1. cbn [bind obind]. rewrite Eco. cbn [obind].
  destruct (scaled_ok _ _ _ Em) as [_ (M1 & M2 & _)]. cbn [amap nr nc]. rewrite M1, M2, S1, S2, !(Z.add_comm y1), !(Z.add_comm x1).
  change (Arr (nr m) (nc m) (fun i j => sqrt (at2 m i j))) with (amap sqrt m). rewrite Eca. cbn [bind]. change (amap2 Rmult r1 (amap sqrt u)) with (product r1 (amap sqrt u)). rewrite Ecr. cbn [bind obind fst snd].
  rewrite El. cbn [obind fst snd]. rewrite Eck. cbn [bind]. rewrite Emg. reflexivity.
Qed.
Lemma first_ok u m au am r mag : nr au = nr u -> nc au = nc u -> nr am = nr m -> nc am = nc m -> first_magnification u m au am r = Ok mag -> starting_magnification u m au am r mag.
Proof.
  intros A1 A2 A3 A4 H. unfold first_magnification in H. apply bind_ok in H as (mm & Em & H). apply bind_ok in H as (mu & Eu & H). cbv zeta in H.
  change (amap2 Rmult au r) with (product au r) in H. rewrite !select_total in H. exists mu, mm. split; [exact Eu|]. split; [exact Em|]. cbv zeta.
  destruct (Req_EM_T _ 0) as [|N]; [discriminate|]. destruct (Rltb _ 0) eqn:L; [discriminate|]. injection H as <-. split; [exact N|]. split; [|reflexivity].
  apply Rnot_lt_le. intros Q. apply Rltb_iff in Q. congruence.
Qed.
Lemma overlap_ok am p clock x y mag c : wf (l_maskRef p) -> mag_overlap rotate spline am p clock x y mag = Ok c ->
  mag_agreement rotate spline am (l_maskRef p) (l_diamPupil p / l_diamHighRes p) clock x y (l_percentile p) (l_deltaAmpMax p) mag c.
Proof.
  intros W H. unfold mag_overlap in H. apply bind_ok in H as (r & Er & H). cbv zeta in H. apply bind_ok in H as (b & Eb & H). apply bind_ok in H as (f & Ef & H). injection H as <-.
  exists r, f. split; [apply viewed_ok; assumption|]. split.
  - replace (product r r) with (amap (fun v => v ^ 2)%R r); [exact (level_ok _ _ _ _ Eb Ef)|]. unfold amap, product. f_equal. extensionality i. extensionality j. ring.
  - apply count_ok. intros i j Hi Hj. cbn [amap at2]. destruct (Req_EM_T f 0) as [Z|N].
    + split; [discriminate|]. intros [Q _]. contradiction.
    + rewrite Rltb_iff. tauto.
Qed.
Hypothesis O1 : is_lstsq_oracle lstsq1.
Lemma pass_ok overlap p k c v (agree : R -> R -> Prop) : 0 < l_nMag p -> (forall mag c, overlap mag = Ok c -> agree mag c) -> mag_pass lstsq1 overlap p k c = Ok v ->
  mag_step agree (l_magShrinkFac p * l_deltaMag p) (l_nMag p) ((k =? 0) && (1 <? l_nIterMag p)) c v.
Proof.
  intros Hn A H. unfold mag_pass in H. cbv zeta in H. apply bind_ok in H as (f & Ef & H). exists f. split.
  - intros i Hi. apply A. pose proof (fill_ok _ _ _ _ Ef i ltac:(lia)) as Q. cbv beta in Q. rewrite trial_linspace in Q. exact Q.
  - destruct ((k =? 0) && (1 <? l_nIterMag p)).
    + injection H as <-. exists (argmax1 (Vec (l_nMag p) f)). split; [|apply trial_linspace]. replace (l_nMag p) with (Z.of_nat (Z.to_nat (l_nMag p))) by lia. apply argmax1_ok. lia.
    + set (M := fold_right Rmax (f 0) (map f (zrange (l_nMag p)))) in *.
      pose proof (rmax_list (f 0) (map f (zrange (l_nMag p)))) as (M0 & M1 & M2). fold M in M0, M1, M2.
      set (q := lstsq1 _ _ _ _) in *. exists M, (q 0), (q 1), (q 2). split; [|split; [|split]].
      * destruct M2 as [->|I]; [exists 0; split; [lia|auto]|]. apply in_map_iff in I as (i & E & I). apply in_zrange in I. exists i. split; auto.
      * intros i Hi. apply M1. apply in_map. apply in_zrange. auto.
      * replace (trial_mag c (l_magShrinkFac p * l_deltaMag p) (l_nMag p)) with (fun i => (c + l_magShrinkFac p * Shapes.linspace (- l_deltaMag p) (l_deltaMag p) (l_nMag p) i)%R)
          by (extensionality i; apply trial_linspace).
        apply (lstsq_parabola (Vec (l_nMag p) (fun i => (c + l_magShrinkFac p * Shapes.linspace (- l_deltaMag p) (l_deltaMag p) (l_nMag p) i)%R)) (squared_deficit M (l_nMag p) f) q). apply O1.
      * destruct (Req_EM_T (q 0) 0); injection H as <-; split; intro; auto; contradiction.
Qed.
Lemma passes_search overlap p (agree : R -> R -> Prop) : 0 < l_nMag p -> (forall mag c, overlap mag = Ok c -> agree mag c) ->
  forall n k c v, mag_passes (mag_pass lstsq1 overlap p) n k c = Ok v -> 0 <= k ->
  mag_search agree (l_magShrinkFac p * l_deltaMag p) (l_nMag p) n ((k =? 0) && (1 <? l_nIterMag p)) c v.
Proof.
  intros Hn A. induction n as [|n IH]; intros k c v H Hk; cbn [mag_passes] in H.
  - injection H as <-. constructor.
  - apply bind_ok in H as (c1 & E & H). econstructor; [eapply pass_ok; eauto|]. apply IH in H; [|lia]. destruct (Z.eqb_spec (k + 1) 0); [lia|]. exact H.
Qed.
Hypothesis O : is_lstsq_oracle lstsq.
Lemma lyot_ok fuel rnd iu im xP yP p mag clock : wf (l_maskRef p) -> fit fuel rnd iu im xP yP p = Some (Ok (mag, clock)) ->
  lyot_fit rotate spline fuel rnd iu im xP yP p mag clock.
Proof.
  intros W H. apply lyot_inv in H as (S1 & S2 & Ec & b & f & u & m & r0 & mag0 & r1 & x1 & y1 & ca & cr & dy & dx & Eb & Ef & Eu & Em & Er0 & Eg & Er1 & Eco & Eca & Ecr & El & Eck & Emg).
  destruct (scaled_ok _ _ _ Eu) as [Nf U]. destruct (scaled_ok _ _ _ Em) as [_ M]. pose proof U as (U1 & U2 & _). pose proof M as (M1 & M2 & _).
  destruct (ampthresh_nonempty _ _ _ Eb) as (P1 & P2 & _). destruct (check_lyot_ok _ _ Ec) as (_ & Q1 & Q2 & Q3).
  pose proof (viewed_ok _ _ _ _ _ _ _ W Er0) as V0. rewrite Rmult_1_l in V0. pose proof (viewed_ok _ _ _ _ _ _ _ W Er1) as V1.
  pose proof V1 as (p1 & _ & (R1 & R2 & _)).
  destruct (lateral_positive _ _ _ _ _ _ _ _ _ _ _ _ _ _ _ _ El) as (L1 & L2 & L3 & L4 & L5 & L6 & _).
  assert (Pn : 0 < Z.max (nr iu) (nc iu)) by lia.
  assert (Hm1 : nr (amap sqrt m) = nr iu) by (cbn; congruence). assert (Hm2 : nc (amap sqrt m) = nc iu) by (cbn; congruence).
  assert (Hp1 : nr (product r1 (amap sqrt u)) = nr iu) by (cbn; congruence). assert (Hp2 : nc (product r1 (amap sqrt u)) = nc iu) by (cbn; congruence).
  assert (Ca : aeq ca (cropped (amap sqrt m) (Z.max (nr iu) (nc iu)) y1 x1)).
  { pose proof Eca as Ec'. rewrite <- Hm1, <- Hm2 in Ec'.
    apply crop_window in Ec' as (_ & C1 & C2 & C3); [|lia|lia]. rewrite Hm1, Hm2 in C1, C2, C3. split; [exact C1|]. split; [exact C2|]. intros i j [I1 I2]. cbn [cropped at2].
    rewrite <- C3 by lia. unfold window. cbv zeta. rewrite C1, C2. set (n := Z.max (nr iu) (nc iu)) in *. replace (n / 2 + 0 + (i - n / 2)) with i by lia. replace (n / 2 + 0 + (j - n / 2)) with j by lia.
    rewrite (proj2 (in_arrb_spec ca i j)) by (split; lia). reflexivity. }
  assert (Cr : aeq cr (cropped (product r1 (amap sqrt u)) (Z.max (nr iu) (nc iu)) y1 x1)).
  { pose proof Ecr as Ec'. rewrite <- Hp1, <- Hp2 in Ec'.
    apply crop_window in Ec' as (_ & C1 & C2 & C3); [|lia|lia]. rewrite Hp1, Hp2 in C1, C2, C3. split; [exact C1|]. split; [exact C2|]. intros i j [I1 I2]. cbn [cropped at2].
    rewrite <- C3 by lia. unfold window. cbv zeta. rewrite C1, C2. set (n := Z.max (nr iu) (nc iu)) in *. replace (n / 2 + 0 + (i - n / 2)) with i by lia. replace (n / 2 + 0 + (j - n / 2)) with j by lia.
    rewrite (proj2 (in_arrb_spec cr i j)) by (split; lia). reflexivity. }
  destruct (lateral_ok lstsq O fuel rnd ca cr (mag0 * l_diamPupil p) (l_nPhaseSteps p) (l_dPixel p) (l_nPadFFT p) (l_nFocusCrop p) 2 false 0 0 0 0 dy dx) as (sx & sy & Ls & Ey & Ex); [| | | |exact El|].
  { destruct Cr as (C1 & C2 & _). cbn [cropped nr nc] in C1, C2. unfold wf. lia. }
  { destruct Ca as (C1 & _). rewrite C1. exact Pn. }
  { destruct Ca as (_ & C2 & _). rewrite C2. exact Pn. }
  { split; symmetry; apply ZnearestE_IZR. }
  rewrite Rplus_0_l in Ey, Ex. subst dy dx. cbv zeta.
  unfold lyot_fit. cbv zeta. exists f, u, m, (amap sqrt u), (amap sqrt m), r0, mag0, r1, x1, y1, sx, sy.
  split; [exact (level_ok _ _ _ _ Eb Ef)|]. split; [exact Nf|]. split; [exact U|]. split; [exact M|]. split; [repeat split|]. split; [repeat split|].
  split; [exact V0|]. split; [apply first_ok; auto|]. split; [exact V1|]. split; [exact Eco|]. rewrite Hm1, Hm2. split; [|split].
  - replace (misfit _ _ _ _) with (misfit (l_nPadFFT p) (l_nFocusCrop p) (window ca (l_nPadFFT p) 0 0) (window cr (l_nPadFFT p) 0 0)); [exact Ls|].
    apply misfit_ext; intros; apply window_aeq; assumption.
  - exact (clocking_ok lstsq1 O1 _ _ _ _ _ _ _ _ _ _ _ _ _ _ W Eck).
  - apply (passes_search _ p _ Q2 (fun mag c => overlap_ok _ _ _ _ _ mag c W) _ _ _ _ Emg). lia.
Qed.
(** ** Exposure *)
Lemma lateral_aeq2 fuel rnd meas meas' ref ref' diamEst n d N nCrop nIter r : wf ref -> 0 < nr meas -> 0 < nc meas -> aeq meas meas' -> aeq ref ref' ->
  compute_lateral_offsets lstsq fuel rnd meas ref diamEst n d N nCrop nIter false 0 0 = Some (Ok r) ->
  compute_lateral_offsets lstsq fuel rnd meas' ref' diamEst n d N nCrop nIter false 0 0 = Some (Ok r).
Proof.
  intros Wr M1 M2 A B H. pose proof A as (A1 & A2 & _). pose proof B as (B1 & B2 & _). destruct r as [y x].
  destruct (lateral_positive _ _ _ _ _ _ _ _ _ _ _ _ _ _ _ _ H) as (L1 & L2 & L3 & L4 & L5 & L6 & _).
  assert (S0 : forall a, starts fuel rnd a diamEst false 0 0 0 0) by (intros a; split; symmetry; apply ZnearestE_IZR).
  rewrite (lateral_unfold lstsq fuel rnd meas ref diamEst _ _ _ _ _ false 0 0 0 0) in H; auto.
  rewrite (lateral_unfold lstsq fuel rnd meas' ref' diamEst _ _ _ _ _ false 0 0 0 0); auto; try (unfold wf in *; lia).
  rewrite <- H. f_equal. f_equal. f_equal. apply misfit_ext; intros; symmetry; apply window_aeq; assumption.
Qed.
Lemma crop_aeq (a a' w : arr R) N yc xc : 0 < nr a -> 0 < nc a -> aeq a a' -> offcenter_crop 0%R a N yc xc = Ok w -> exists w', offcenter_crop 0%R a' N yc xc = Ok w' /\ aeq w w' /\ nr w = N /\ nc w = N /\ 0 < N.
Proof.
  intros P1 P2 (A1 & A2 & A3) E. assert (HN : 0 < N). { unfold offcenter_crop, guard in E. destruct (Z.ltb_spec 0 N); [assumption|discriminate]. }
  destruct (offcenter_crop_ok 0%R a N yc xc P1 P2 HN) as (o & Eo & O3 & O2 & V). rewrite Eo in E. injection E as <-.
  destruct (offcenter_crop_ok 0%R a' N yc xc) as (o' & Eo' & O1' & O2' & V'); [lia|lia|exact HN|]. exists o'. split; [exact Eo'|]. split; [|auto].
  split; [congruence|]. split; [congruence|]. intros i j [I1 I2]. rewrite V, V' by lia. cbv zeta. unfold in_arrb. rewrite <- A1, <- A2.
  match goal with |- context [if ?b then _ else _] => destruct b eqn:B end; [|reflexivity]. apply A3. apply in_arrb_spec. exact B.
Qed.
Lemma mask_total_aeq m m' a a' : aeq m m' -> aeq a a' -> nr m = nr a -> nc m = nc a -> mask_total m a = mask_total m' a'.
Proof.
  intros (M1 & M2 & M3) (A1 & A2 & A3) S1 S2. unfold mask_total. rewrite <- A1, <- A2. apply rsum2_ext. intros i j Hi Hj.
  rewrite M3 by (split; lia). rewrite A3 by (split; lia). reflexivity.
Qed.
Lemma first_aeq u u' m m' r mag : aeq u u' -> aeq m m' -> nr r = nr u -> nc r = nc u -> first_magnification u m (amap sqrt u) (amap sqrt m) r = Ok mag ->
  first_magnification u' m' (amap sqrt u') (amap sqrt m') r = Ok mag.
Proof.
  intros A B R1 R2 H. unfold first_magnification in *. apply bind_ok in H as (mm & Em & H). apply bind_ok in H as (mu & Eu & H).
  destruct (ampthresh_aeq_ok _ _ _ _ B Em) as (mm' & -> & Am). destruct (ampthresh_aeq_ok _ _ _ _ A Eu) as (mu' & -> & Au). cbn [bind]. cbv zeta in *.
  destruct (ampthresh_nonempty _ _ _ Em) as (_ & _ & X1 & X2). destruct (ampthresh_nonempty _ _ _ Eu) as (_ & _ & Y1 & Y2).
  change (amap2 Rmult (amap sqrt u) r) with (product (amap sqrt u) r) in H. change (amap2 Rmult (amap sqrt u') r) with (product (amap sqrt u') r).
  rewrite !select_total in *. rewrite <- (mask_total_aeq mm mm' (amap sqrt m) (amap sqrt m')); [|exact Am|apply aeq_amap, B|exact X1|exact X2].
  rewrite <- (mask_total_aeq mu mu' (product (amap sqrt u) r) (product (amap sqrt u') r)); [exact H|exact Au| |exact Y1|exact Y2].
  apply product_aeq; [apply aeq_amap, A|apply aeq_refl|exact R1|exact R2].
Qed.
Lemma overlap_aeq am am' p clock x y mag : aeq am am' -> mag_overlap rotate spline am p clock x y mag = mag_overlap rotate spline am' p clock x y mag.
Proof.
  intros A. pose proof A as (A1 & A2 & A3). unfold mag_overlap. rewrite (viewed_shape am am') by assumption. destruct (viewed am' p clock mag x y) as [r|]; cbn [bind]; [|reflexivity].
  cbv zeta. destruct (ampthresh _ 21) as [b|]; cbn [bind]; [|reflexivity]. destruct (compute_norm_factor _ _ _) as [f|]; cbn [bind]; [|reflexivity].
  f_equal. unfold count2. rewrite <- A1, <- A2. apply rsum2_ext. intros i j Hi Hj. rewrite A3 by (split; assumption). reflexivity.
Qed.
Lemma passes_ext (f g : Z -> R -> res R) : (forall k c, f k c = g k c) -> forall n k c, mag_passes f n k c = mag_passes g n k c.
Proof. intros E. induction n as [|n IH]; intros k c; cbn [mag_passes]; [reflexivity|]. rewrite E. destruct (g k c); cbn [bind]; auto. Qed.
(** Only the ratio of the images matters. *)
Lemma lyot_exposure fuel rnd iu im xP yP p s r : wf (l_maskRef p) -> (0 < s)%R -> fit fuel rnd iu im xP yP p = Some (Ok r) ->
  fit fuel rnd (amap (fun v => s * v)%R iu) (amap (fun v => s * v)%R im) xP yP p = Some (Ok r).
Proof.
  intros W Hs H. destruct r as [mag clock].
  apply lyot_inv in H as (S1 & S2 & Ec & b & f & u & m & r0 & mag0 & r1 & x1 & y1 & ca & cr & dy & dx & Eb & Ef & Eu & Em & Er0 & Eg & Er1 & Eco & Eca & Ecr & El & Eck & Emg).
  destruct (level_scale iu s _ b f Hs Eb Ef) as (b' & Eb' & _ & Ef').
  destruct (scaled_scale iu _ s f _ u Hs (aeq_refl _) eq_refl Eu) as (u' & Eu' & Au). destruct (scaled_scale im _ s f _ m Hs (aeq_refl _) eq_refl Em) as (m' & Em' & Am).
  pose proof Au as (A1 & A2 & _). destruct (scaled_ok _ _ _ Eu) as [_ (U1 & U2 & _)]. destruct (scaled_ok _ _ _ Em) as [_ (M1 & M2 & _)].
  destruct (ampthresh_nonempty _ _ _ Eb) as (P1 & P2 & _).
  pose proof (viewed_ok _ _ _ _ _ _ _ W Er0) as (q0 & _ & (R1 & R2 & _)). pose proof (viewed_ok _ _ _ _ _ _ _ W Er1) as (q1 & _ & (R3 & R4 & _)).
  assert (Am' : aeq (amap sqrt m) (amap sqrt m')) by (apply aeq_amap, Am). assert (Au' : aeq (amap sqrt u) (amap sqrt u')) by (apply aeq_amap, Au).
  destruct (crop_aeq (amap sqrt m) (amap sqrt m') ca (Z.max (nr iu) (nc iu)) (IZR (nr iu / 2 + y1)) (IZR (nc iu / 2 + x1)) ltac:(cbn; lia) ltac:(cbn; lia) Am' Eca) as (ca' & Eca' & Aca & C1 & C2 & C3).
  assert (Ap : aeq (product r1 (amap sqrt u)) (product r1 (amap sqrt u'))) by (apply product_aeq; [apply aeq_refl|exact Au'|cbn; congruence|cbn; congruence]).
  destruct (crop_aeq (product r1 (amap sqrt u)) (product r1 (amap sqrt u')) cr (Z.max (nr iu) (nc iu)) (IZR (nr iu / 2 + y1)) (IZR (nc iu / 2 + x1)) ltac:(cbn; lia) ltac:(cbn; lia) Ap Ecr) as (cr' & Ecr' & Acr & C4 & C5 & _).
  eapply (lyot_intro fuel rnd (amap (fun v => s * v)%R iu) (amap (fun v => s * v)%R im) xP yP p mag clock b' (s * f) u' m' r0 mag0 r1 x1 y1 ca' cr' dy dx); cbn [amap nr nc]; try assumption.
  - rewrite <- Er0. apply viewed_shape; congruence.
  - eapply first_aeq; eauto; congruence.
  - rewrite <- Er1. apply viewed_shape; congruence.
  - change (Arr (nr m') (nc m') (fun i j => sqrt (at2 m' i j))) with (amap sqrt m'). rewrite <- (coarse_aeq _ _ (amap sqrt m)) by exact Am'. exact Eco.
  - eapply lateral_aeq2; [| | |exact Aca|exact Acr|exact El]; unfold wf; lia.
  - eapply clocking_aeq; [exact Am'|exact Eck].
  - rewrite <- Emg. apply passes_ext. intros k c. unfold mag_pass. cbv zeta. change (Arr (nr m') (nc m') (fun i j => sqrt (at2 m' i j))) with (amap sqrt m').
    replace (mag_overlap rotate spline (amap sqrt m') p clock (dx + xP) (dy + yP)) with (mag_overlap rotate spline (amap sqrt m) p clock (dx + xP) (dy + yP)); [reflexivity|].
    extensionality g. apply overlap_aeq, Am'.
Qed.
Lemma lyot_rejects fuel rnd iu im xP yP p e : refused (lyot_needs iu im p) e -> fit fuel rnd iu im xP yP p = Some (Err e).
Proof.
  unfold fit_lyot_stop_mag_clocking, lyot_needs. intros H. apply refused_iff in H as [[N ->]|[[E1 E2] H]].
  - destruct (same_shape iu im) eqn:E; [apply same_shape_iff in E as [E1 E2]; destruct N; auto|]. reflexivity.
  - rewrite (proj2 (same_shape_iff iu im)) by auto. cbn [guard]. enough (C : check_lyot p = Err e) by (rewrite C; reflexivity). revert H. unfold check_lyot.
    match goal with |- refused ?l e -> ?m = Err e => enough (K : m = Err e <-> refused l e) by (apply K) end.
    assert (N1 : forall x : R, negb (Rleb 1 x) = true <-> (x < 1)%R) by (intros x; rewrite negb_true_iff; apply Rleb_false).
    repeat (apply check_step; [apply Rltb_iff || apply Z.ltb_lt || apply N1|intros _]). rewrite refused_nil. split; [discriminate|tauto].
Qed.
(** The search for the stop ends: with exact arithmetic there is a number of passes that suffices. *)
Lemma lyot_terminates rnd iu im xP yP p : (forall v, rnd v = v) -> exists n, forall fuel, (n <= fuel)%nat -> fit fuel rnd iu im xP yP p <> None.
Proof.
  intros Hr. unfold fit_lyot_stop_mag_clocking. match goal with |- exists n, forall fuel, _ -> obind (Some ?r) _ <> None => destruct r as [[[am mag0] ar]|e] eqn:E end; cbn [obind].
  2:{ exists 0%nat. discriminate. }
  assert (P : 0 < nr am /\ 0 < nc am).
  { apply guard_ok in E as [Sh E]. apply same_shape_iff in Sh as [S1 S2]. apply bind_ok in E as (? & _ & E). apply bind_ok in E as (b & Eb & E). apply bind_ok in E as (f & Ef & E).
    apply bind_ok in E as (u & Eu & E). apply bind_ok in E as (m & Em & E). cbv zeta in E. apply bind_ok in E as (? & _ & E). apply bind_ok in E as (? & _ & E). apply bind_ok in E as (? & _ & E).
    injection E as <- <- <-. destruct (ampthresh_nonempty _ _ _ Eb) as (P1 & P2 & _). destruct (scaled_ok _ _ _ Em) as [_ (M1 & M2 & _)]. cbn [amap nr nc]. lia. }
  set (beam := (mag0 * l_diamPupil p * l_OD p)%R).
  assert (C : exists n, forall fuel, (n <= fuel)%nat -> coarsely_locate_pupil_offset fuel rnd am beam 3 <> None).
  { destruct (Rlt_le_dec 0 beam) as [Hb|Hb].
    - destruct (Z_lt_le_dec 1 (nr am)) as [N1|N1]; [|destruct (Z_lt_le_dec 1 (nc am)) as [N2|N2]].
      1,2: exists (Z.to_nat (Z.max 1 (Zfloor (rnd (beam / 3)%R)))); intros fuel Hf;
        destruct (locate_ok rnd beam 3 (or_introl Hr) Hb ltac:(lra) am ltac:(split; lia) fuel ltac:(lia) Hf) as (x & y & -> & _); discriminate.
      exists 1%nat. intros fuel Hf. rewrite locate_one_pixel by lia. discriminate.
    - exists 0%nat. intros fuel _. rewrite locate_rejects by (left; exact Hb). discriminate. }
  destruct C as (n & C). exists n. intros fuel Hf. specialize (C fuel Hf). destruct (coarsely_locate_pupil_offset fuel rnd am beam 3) as [[[x1 y1]|]|]; cbn [obind]; [|discriminate|contradiction]. cbv beta iota zeta.
  match goal with |- match ?r with _ => _ end <> None => destruct r as [[ca cr]|] end; cbn [fst snd]; [|discriminate].
  match goal with |- obind ?L _ <> None => assert (K : L <> None); [|destruct L as [[]|]; cbn [obind]; [discriminate|discriminate|contradiction]] end.
  unfold compute_lateral_offsets. repeat (match goal with |- (if ?b then _ else _) <> None => destruct b; [discriminate|] end). discriminate.
Qed.
End Lyot.
