(** A scale search that runs to the end, and a usable-pixel mask. *)
From Coq Require Import ZArith Bool List String Reals Lra Lia.
From Verif.Base Require Import Py Arr Vec Sums Lstsq Trig.
From Verif.Model Require Import Math Noll Fits Shapes PadCrop Dm Yaml DarkHole PsfFit PupilUtil Unwrap Occastro DmReg.
From Verif.Spec Require Import FitsSpec DmSpec DarkHoleSpec PsfFitSpec PupilUtilSpec UnwrapSpec DmRegSpec.
From Verif.Proofs Require FresnelP PupilUtilEx.
From Verif.Proofs Require Import PadCropP FitsP DmP ShapesP DarkHoleP PsfFitP UnwrapP QuadFitP PupilUtilC PupilUtilL OccastroP DmRegP DmRegQ DmRegEx.
Import ListNotations.
Open Scope string_scope.
Open Scope Z_scope.

Lemma fill_mat_def f cols : forall rows k, (forall i j, k <= i < k + Z.of_nat rows -> 0 <= j < Z.of_nat cols -> exists v, f i j = Ok v) ->
  exists r, fill_mat f cols k rows = Ok r.
Proof.
  induction rows as [|rows IH]; intros k H; cbn [fill_mat]; [eauto|]. destruct (fill_def (f k) cols 0) as [v ->]; [intros i Hi; apply H; lia|].
  cbn [bind]. destruct (IH (k + 1)) as [r ->]; [intros i j Hi Hj; apply H; lia|]. cbn [bind]. eauto.
Qed.
(** A mirror whose upper right quarter shows a bump of height 1 + (sx - 21/20)^2 + (sy - 19/20)^2 under scale factors (sx, sy). *)
Definition dms : dm_data := DmData gain1 inf1 5 1 (4 / 5) (4 / 5).
Definition bump (sx sy : R) : R := (1 + (sx - 21 / 20) ^ 2 + (sy - 19 / 20) ^ 2)%R.
Definition ops_bump : scipy_ops :=
  ScipyOps (fun _ _ _ Y X => if Rlt_dec 0 X then if Rlt_dec 0 Y then bump (5 / (4 * X)) (5 / (4 * Y)) else 0%R else 0%R) (fun a _ => a) (fun a _ _ => a).
Lemma ops_bump_shape : shape_preserving ops_bump. Proof. split; cbn; auto. Qed.
Lemma bump_pos sx sy : (0 < bump sx sy)%R. Proof. unfold bump. pose proof (pow2_ge_0 (sx - 21 / 20)). pose proof (pow2_ge_0 (sy - 19 / 20)). lra. Qed.
Lemma corner9 lstsq a k w : is_lstsq_oracle lstsq -> nr a = 3 -> nc a = 3 ->
  (forall i j, in_arr a i j -> at2 a i j = (k * if (i =? 2)%Z && (j =? 2)%Z then 2 else 0)%R) ->
  remove_piston_tip_tilt lstsq a one3 = Ok w -> nr w = 3 /\ nc w = 3 /\
  forall i j, 0 <= i < 3 -> 0 <= j < 3 ->
    at2 w i j = (k * ((if (i =? 2)%Z && (j =? 2)%Z then 2 else 0) - (2 / 9 + (IZR i - 1) / 3 + (IZR j - 1) / 3)))%R.
Proof.
  intros O R C V E. destruct (ptt_spec lstsq O a one3) as (o & E' & N1 & N2 & _ & (p & q & r & P) & M0 & M1 & M2);
    [apply same_shape_iff; cbn; auto|apply one3_bool|]. rewrite E in E'. injection E' as <-. split; [lia|]. split; [lia|]. intros i j Hi Hj.
  apply (ptt_unique one3 (at2 w) (fun i j => k * ((if (i =? 2)%Z && (j =? 2)%Z then 2 else 0) - (2 / 9 + (IZR i - 1) / 3 + (IZR j - 1) / 3)))%R
    (p - k / 3) (q - k / 3) (r - k * (2 / 9 - 2 / 3))); auto.
  - intros i' j' I N. rewrite P by auto. rewrite V by (unfold in_arr in *; cbn in *; lia). unfold plane_at. field.
  - change (one3) with (ones 3). rewrite ones_masked. nine_sum.
  - change (one3) with (ones 3). rewrite ones_masked. nine_sum.
  - change (one3) with (ones 3). rewrite ones_masked. nine_sum.
  - split; cbn; lia.
  - cbn. lra.
Qed.
Lemma scost_bump lstsq meas sx sy : is_lstsq_oracle lstsq -> (forall i j, 0 <= i < 3 -> 0 <= j < 3 -> at2 meas i j = 0%R) ->
  (9 / 10 <= sx <= 11 / 10)%R -> (9 / 10 <= sy <= 11 / 10)%R ->
  scale_cost lstsq ops_bump one3 meas rad5 dms 3 3 0 0 0 sx sy = Ok (32 / 9 * bump sx sy)%R.
Proof.
  intros O Hm Hx Hy. unfold scale_cost. cbn [dms d_nact d_inf d_ppd d_cx d_cy].
  destruct (dmhtoph_defined ops_bump 3 3 rad5 5 inf1 1 (sx * (4 / 5)) (sy * (4 / 5)) 0 0 0 false ops_bump_shape) as [s E].
  { unfold dm_args. repeat split; cbn; auto; try lia; lra. }
  { cbn; lia. }
  assert (W : wf inf1) by (split; cbn; lia). rewrite E. cbn [bind].
  pose proof (dmhtoph_shape _ _ _ _ _ _ _ _ _ _ _ _ _ _ W ops_bump_shape E) as [N1 N2].
  assert (V : forall i j, 0 <= i < 3 -> 0 <= j < 3 -> at2 s i j = (if (i =? 2) && (j =? 2) then bump sx sy else 0)%R).
  { intros i j Hi Hj. apply dmhtoph_ok in E as (_ & _ & _ & _ & _ & P); auto. cbn [ops_bump sp_shift sp_rotate] in P.
    pose proof (nxyres_ge 5 (nr inf1) 1 (sx * (4 / 5)) (sy * (4 / 5))) as Kn. 
    apply pad_crop_inv in P as (h & w & Q & _ & _ & _ & _ & P).
    2:{ assert (0 <= nxyres 5 (nr inf1) 1 (sx * (4 / 5)) (sy * (4 / 5))).
        { apply le_IZR. eapply Rle_trans; [|apply Kn]. pose proof sqrt2_ge1. pose proof (Rmax_l (sx * (4 / 5)) (sy * (4 / 5))). cbn. nra. }
        split; cbn; auto. }
    injection Q as <- <-.
    rewrite P by auto. pose proof (resampled_pixel ops_bump 5 (nr inf1) 1 (sx * (4 / 5)) (sy * (4 / 5)) (carr 5 1 rad5 inf1) false i j 3 3) as RP.
    cbn zeta in RP. rewrite RP; try lia; try lra. 2:{ cbn. lia. } clear RP P.
    change (design_size 5 (nr inf1) 1) with 5. cbn [sgn_col]. change (3 / 2) with 1. cbn [ops_bump sp_interp].
    assert (B : forall t, (9 / 10 <= t <= 11 / 10)%R -> (0 < / (t * (4 / 5)) <= 2)%R).
    { intros t Ht. assert (0 < t * (4 / 5))%R by lra. split; [apply Rinv_0_lt_compat; auto|]. replace 2%R with (/ (/ 2))%R by field. apply Rinv_le_contravar; lra. }
    pose proof (B sx Hx) as Bx. pose proof (B sy Hy) as By. unfold Rdiv at 1 3.
    assert (A : forall z t, -1 <= z <= 1 -> (0 < t <= 2)%R -> (Rabs (IZR z * t) <= (5 - 1) / 2 / 1)%R).
    { intros z t Hz Ht. rewrite Rabs_mult, (Rabs_pos_eq t) by lra. rewrite <- abs_IZR. assert (IZR (Z.abs z) <= 1)%R by (apply IZR_le; lia).
      assert (0 <= IZR (Z.abs z))%R by (apply IZR_le; lia). nra. }
    destruct (Rle_dec _ _) as [_|C1]; [|exfalso; apply C1; apply A; [lia|auto]]. 
    destruct (Rle_dec _ _) as [_|C1]; [|exfalso; apply C1; apply A; [lia|auto]]. 
    assert (Sg : forall z t, -1 <= z <= 1 -> (0 < t)%R -> (0 < IZR z / t)%R <-> z = 1).
    { intros z t Hz Ht. assert (0 < / t)%R by (apply Rinv_0_lt_compat; auto). unfold Rdiv. split.
      - intros L. assert (z = -1 \/ z = 0 \/ z = 1) as [-> | [-> | ->]] by lia; auto; exfalso; nra.
      - intros ->. lra. }
    destruct (Rlt_dec _ _) as [L1|L1]; apply Sg in L1 || (rewrite Sg in L1 by (lia || lra)); try lia; try lra.
    - destruct (Rlt_dec _ _) as [L2|L2]; apply Sg in L2 || (rewrite Sg in L2 by (lia || lra)); try lia; try lra.
      + replace i with 2 by lia. replace j with 2 by lia. cbn. unfold bump. field. lra.
      + rewrite (proj2 (Z.eqb_neq i 2)) by lia. reflexivity.
    - rewrite (proj2 (Z.eqb_neq j 2)) by lia. rewrite andb_false_r. reflexivity. }
  destruct (pad_crop_ok (amap (fun v => v * 2)%R s) 3 3 0%R) as (c & Ec & C1 & C2 & Vc); [split; cbn; lia|lia|lia|]. rewrite Ec. cbn [bind].
  assert (Vc' : forall i j, in_arr c i j -> at2 c i j = (bump sx sy * if (i =? 2)%Z && (j =? 2)%Z then 2 else 0)%R).
  { intros i j [Hi Hj]. rewrite Vc by lia. cbn [amap nr nc at2]. rewrite N1, N2. replace (i - 3 / 2 + 3 / 2) with i by ring. replace (j - 3 / 2 + 3 / 2) with j by ring.
    destruct (in_arrb _ _ _) eqn:B; [|apply in_arrb_false in B; exfalso; apply B; split; cbn; lia]. rewrite V by lia. destruct ((i =? 2) && (j =? 2)); ring. }
  destruct (ptt_spec lstsq O c one3) as (w & Ew & _); [apply same_shape_iff; cbn; lia|apply one3_bool|].
  pose proof (corner9 _ _ _ _ O C1 C2 Vc' Ew) as (W1 & W2 & Vw). rewrite Ew. cbn [bind]. f_equal. unfold abs_misfit. cbn [one3 afull nr nc at2].
  pose proof (bump_pos sx sy) as K. set (k := bump sx sy) in *.
  rewrite (rsum2_ext _ (fun i j => k * Rabs ((if (i =? 2)%Z && (j =? 2)%Z then 2 else 0) - (2 / 9 + (IZR i - 1) / 3 + (IZR j - 1) / 3)))%R).
  - unfold rsum2; rewrite ?rsum_three; cbn [Z.eqb Pos.eqb andb]. rabs. field.
  - intros i j Hi Hj. rewrite Hm, Vw by auto. rewrite Rmult_1_l, Rminus_0_l, Rabs_Ropp, Rabs_mult, (Rabs_pos_eq k) by lra. reflexivity.
Qed.
Definition dmrs : yval := YDict [("inffn", YStr "i"); ("nact", YInt 5); ("ppact_d", YInt 1); ("ppact_cx", YReal (4 / 5)); ("ppact_cy", YReal (4 / 5))].
Definition dmys : yval := YDict [("voltages", YDict [("gainfn", YStr "g")]); ("registration", dmrs)].
Definition dmvs : yval := YDict [("dms", YDict [("DM2", dmys)])].
Lemma reads : read_dm getdata5 dmys dmrs = Ok dms.
Proof.
  unfold read_dm.
  change (item dmys "voltages") with (@Ok yval (YDict [("gainfn", YStr "g")])). cbn [bind].
  change (item (YDict [("gainfn", YStr "g")]) "gainfn") with (@Ok yval (YStr "g")). cbn [bind].
  change (getdata5 (YStr "g")) with (@Ok (arr R) gain1). cbn [bind].
  change (item dmrs "inffn") with (@Ok yval (YStr "i")). cbn [bind]. change (getdata5 (YStr "i")) with (@Ok (arr R) inf1). cbn [bind].
  change (item dmrs "nact") with (@Ok yval (YInt 5)). cbn [bind]. change (positive_int_ (YInt 5)) with (@Ok Z 5). cbn [bind].
  change (item dmrs "ppact_d") with (@Ok yval (YInt 1)). cbn [bind]. change (positive_int_ (YInt 1)) with (@Ok Z 1). cbn [bind].
  change (item dmrs "ppact_cx") with (@Ok yval (YReal (4 / 5))). cbn [bind]. change (item dmrs "ppact_cy") with (@Ok yval (YReal (4 / 5))).
  assert (P : positive_scalar_ (YReal (4 / 5)) = Ok (4 / 5)%R) by (apply positive_ok; split; [constructor|lra]).
  rewrite P. cbn [bind]. rewrite P. reflexivity.
Qed.
Definition fits : yval := YDict [("maxDeltaScaleFac", YReal (/ 10)); ("nScale", YInt 3); ("nIter", YInt 1); ("shrinkFac", YReal (/ 2))].
Lemma run_scale : calc_scale lstsq_ref ops_bump getdata5 one3 zero3 one3 zero3 one3 2 poke5 dmvs fits (2 * PI) 0 0 0 = Ok (21 / 25, 19 / 25)%R.
Proof.
  unfold calc_scale. rewrite (proj2 (maps_ok _ _ _ _ _ _ _ _)).
  2:{ unfold maps_valid. pose proof PI_RGT_0. repeat split; auto. lra. }
  cbn [bind].
  change (item fits "maxDeltaScaleFac") with (@Ok yval (YReal (/ 10))). change (item fits "nScale") with (@Ok yval (YInt 3)).
  change (item fits "nIter") with (@Ok yval (YInt 1)). change (item fits "shrinkFac") with (@Ok yval (YReal (/ 2))). cbn [bind].
  change (real_v (YReal (/ 10))) with (@Ok R (/ 10)%R). change (positive_int_v (YInt 3)) with (@Ok Z 3). change (positive_int_v (YInt 1)) with (@Ok Z 1). cbn [bind].
  assert (P : positive_v (YReal (/ 2)) = Ok (/ 2)%R). { unfold positive_v. rewrite (proj2 (positive_ok _ (/ 2)%R)); [reflexivity|split; [constructor|lra]]. }
  rewrite P. cbn [bind]. rewrite (proj2 (Rltb_false _ _)) by lra. cbn [negb guard bind].
  change (registration_of dmvs 2) with (@Ok (yval * yval) (dmys, dmrs)). cbn [bind fst snd]. rewrite reads. cbn [bind].
  change (d_gain dms) with gain1. rewrite rad5_ok. cbn [bind]. destruct (meas_zero _ (@lstsq_ref_ok (Z * Z))) as (meas & Em & _ & _ & Z0). rewrite Em. cbn [bind].
  change (nr one3) with 3. change (nc one3) with 3. change (Z.to_nat 1) with 1%nat. change (1 <? 1) with false.
  cbn [scale_loop]. rewrite scale_vec. change (3 =? 1) with false. cbv iota. set (v := Vec 3 _). change (Z.to_nat 3) with 3%nat.
  assert (T : forall i, 0 <= i < 3 -> (9 / 10 <= vat v i * 1 <= 11 / 10)%R) by (intros i Hi; unfold v; cbn [vat]; nine; lra).
  assert (C : forall i j, 0 <= i < 3 -> 0 <= j < 3 -> scale_cost lstsq_ref ops_bump one3 meas rad5 dms 3 3 0 0 0 (vat v j * 1) (vat v i * 1) = Ok (32 / 9 * bump (vat v j) (vat v i))%R).
  { intros i j Hi Hj. rewrite scost_bump; auto using lstsq_ref_ok. rewrite !Rmult_1_r. reflexivity. }
  destruct (fill_mat_def (fun iy ix => scale_cost lstsq_ref ops_bump one3 meas rad5 dms 3 3 0 0 0 (vat v ix * 1) (vat v iy * 1)) 3 3 0) as [m Em'];
    [intros i j Hi Hj; rewrite C by lia; eauto|]. 
  assert (V : forall i j, 0 <= i < 3 -> 0 <= j < 3 -> m i j = (32 / 9 * bump (vat v j) (vat v i))%R).
  { intros i j Hi Hj. pose proof (fill_mat_inv _ _ _ _ _ Em' i j ltac:(lia) ltac:(lia)) as Q. cbv beta in Q. rewrite C in Q by auto. injection Q as <-. reflexivity. }
  rewrite Em'. cbn [bind].
  rewrite (opt2_exact lstsq_ref lstsq_ref_ok v v (Arr 3 3 m) (afull 3 3 1%R) (32 / 9) 0 (32 / 9) (- (32 / 9 * (21 / 10))) (- (32 / 9 * (19 / 10))) (32 / 9 * (1 + 441 / 400 + 361 / 400))).
  - assert (/ 10 ^ 15 <= 1)%R by (rewrite <- Rinv_1; apply Rinv_le_contravar; [lra|apply pow_R1_Rle; lra]).
    destruct (Rlt_dec _ _) as [L|_].
    { exfalso. rewrite Rabs_left in L by lra. lra. }
    destruct (Rlt_dec _ _) as [L|_].
    { exfalso. rewrite Rabs_pos_eq in L by lra. lra. }
    cbn [bind fst snd dms d_cx d_cy]. f_equal. f_equal; field.
  - apply same_shape_iff; cbn; auto.
  - reflexivity.
  - reflexivity.
  - intros i j _. right. reflexivity.
  - unfold v. apply (grid_unisolvent 3 (/ 10) 1 1); try lia; try lra; intros i Hi; unfold trial; cbn [vat]; rewrite ?minus_IZR; field.
  - intros i j [Hi Hj] _. cbn [afull nr nc at2] in *. rewrite V by lia. unfold quad2, bump. field.
Qed.
(** A mask: two lit pixels, no phase error. *)
Lemma mask_run d : 0 <= d -> exists e, calc_software_mask lstsq_ref (PupilUtilEx.pair5 2) (afull 5 5 0%R) (afull 5 5 0%R) (afull 5 5 0%R) 1 d 1 = Ok e.
Proof.
  intros Hd. apply mask_accepts; [apply lstsq_ref_ok|]. destruct (PupilUtilEx.pair_thresh (PupilUtilEx.pair5 2) 2) as (b & E & _); [lia|reflexivity|reflexivity|auto|].
  repeat split; auto; try lra. exists b. exact E.
Qed.
Lemma describes5 : describes_dm getdata5 dmv5 1 dm5 false (Some 0%R).
Proof.
  destruct (read_dm_ok getdata5 dmv5 1 (dmy5, dmr5) dm5 reg5 read5) as [_ D]. apply (D false (YBool false) 0%R (YReal 0)); [reflexivity|exact (truthy_ok (YBool false))|reflexivity|reflexivity].
Qed.
Lemma overshoots : exists lstsq lstsq1 ops getdata amp ph usable dV dmv fitv lam p dm dmrad meas C,
  is_lstsq_oracle lstsq /\ is_lstsq_oracle lstsq1 /\ shape_preserving ops /\ (forall v a, getdata v = Ok a -> wf a) /\
  describes_fit fitv p /\ describes_dm getdata dmv 1 dm false (Some 0%R) /\ volts_to_dmh (d_gain dm) dV lam = Ok dmrad /\
  measured_phase lstsq ph ph usable meas /\
  (forall x y t, surface_misfit ops usable meas dmrad dm false (nr amp) (nc amp) x y t ((1 + x ^ 2 + y ^ 2) * ((t - C) ^ 2 + 15 / 16))) /\
  calc_translation_clocking lstsq lstsq1 ops getdata amp ph amp ph usable 1 dV 0 0 dmv fitv lam = Ok (0%R, 0%R, (C + / 4)%R).
Proof.
  destruct (meas_zero _ (@lstsq_ref_ok (Z * Z))) as (meas & Em & N1 & N2 & Z0).
  exists lstsq_ref, lstsq_ref, (ops_scale f4), getdata5, one3, zero3, one3, poke5, dmv5, (fit5 1 1 2 (/ 2)), (2 * PI)%R, (FitParams 1 1 3 1 (/ 2) 1 3 2), dm5, rad5, meas, (/ 4)%R.
  split; [apply lstsq_ref_ok|]. split; [apply lstsq_ref_ok|]. split; [apply ops_scale_shape|]. split; [apply getdata5_wf|].
  split; [apply read_fit_ok, fit5_read; (lia || lra)|]. split; [apply describes5|]. split; [apply rad5_ok|]. split; [apply measured_ok; auto|]. split.
  - intros x y t. apply (misfits5 meas Z0). reflexivity.
  - rewrite run5. f_equal. f_equal. field.
Qed.
Lemma turn_truth_case : exists s0 s meas v0 v, simulated ops_turn dm5 bent5 1 5 false 0 0 0 s0 /\ simulated ops_turn dm5 bent5 1 5 false 0 0 180 s /\
  (forall i j, in_arr one15 i j -> at2 one15 i j <> 0%R -> at2 meas i j = (2 * at2 s0 i j)%R) /\
  (rsum2 (fun i j => at2 one15 i j * Rabs (at2 s i j)) (nr one15) (nc one15) <= rsum2 (fun i j => at2 one15 i j * Rabs (at2 s0 i j)) (nr one15) (nc one15))%R /\
  surface_misfit ops_turn one15 meas bent5 dm5 false 1 5 0 0 0 v0 /\ surface_misfit ops_turn one15 meas bent5 dm5 false 1 5 0 0 180 v /\ (v0 < v)%R.
Proof.
  destruct turn_straight as (s & Es & N1 & N2 & V). destruct turn_half as (s' & Es' & N1' & N2' & V').
  exists s, s', (amap (Rmult 2) s), (58 / 10)%R, (174 / 10)%R.
  split; [exact Es|]. split; [exact Es'|]. split; [reflexivity|]. split; [|split; [|split]].
  - unfold rsum2. change (nr one15) with 1. change (nc one15) with 5. rewrite !rsum_one, !rsum_five, !V, !V' by lia. cbn. rabs. lra.
  - exists s. split; [exact Es|]. change (58 / 10 = abs_misfit one15 (amap (Rmult 2) s) s)%R. rewrite misfit15. cbn [amap at2]. rewrite !V by lia. cbn. rabs. field.
  - exists s'. split; [exact Es'|]. change (174 / 10 = abs_misfit one15 (amap (Rmult 2) s) s')%R. rewrite misfit15. cbn [amap at2]. rewrite !V, !V' by lia. cbn. rabs. field.
  - lra.
Qed.
