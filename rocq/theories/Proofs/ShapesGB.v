(** Accuracy of the binary64 pupil, and of the correctly rounding C library. *)
From Coq Require Import ZArith Reals Bool List Lia Lra Psatz Ratan.
From Flocq Require Import Core BinarySingleNaN Mult_error.
From Verif.Base Require Import Py Arr Sums F64.
From Verif.Model Require Import ShapesF ShapesG.
From Verif.Spec Require Import ShapesSpec ShapesFSpec ShapesGSpec ShapesASpec.
From Verif.Proofs Require Import F64P F64N ShapesFP ShapesFQ ShapesFA ShapesGP ShapesGQ PiP ShapesGA LibmRef DarkHoleP.
From Verif.Proofs Require ShapesP.
Import ListNotations.
Local Open Scope R_scope.
Local Notation B := (bpow radix2).
Local Notation u := (B (-53)).

(** ** The reference C library is accurate *)
Lemma angle_polar x y : polar_angle x y (angle y x).
Proof.
  split; [apply angle_bound|]. pose proof PI_RGT_0 as P.
  assert (K : x <> 0 -> forall s, s * s = 1 -> s * x = Rabs x ->
    x = sqrt (x ^ 2 + y ^ 2) * (s * cos (atan (y / x))) /\ y = sqrt (x ^ 2 + y ^ 2) * (s * sin (atan (y / x)))).
  { intros NZ s S1 S2. rewrite cos_atan, sin_atan.
    assert (E : sqrt (x ^ 2 + y ^ 2) = Rabs x * sqrt (1 + (y / x)²)).
    { rewrite <- (sqrt_Rsqr_abs x), <- sqrt_mult_alt by apply Rle_0_sqr. f_equal. unfold Rsqr. field. exact NZ. }
    assert (Q : 0 < sqrt (1 + (y / x)²)) by (apply sqrt_lt_R0; pose proof (Rle_0_sqr (y / x)); lra).
    rewrite E, <- S2. set (r := sqrt (1 + (y / x)²)) in *. clearbody r. split.
    - replace (s * x * r * (s * (1 / r))) with (s * s * x) by (field; apply Rgt_not_eq; exact Q). rewrite S1. ring.
    - replace (s * x * r * (s * (y / x / r))) with (s * s * y) by (field; split; try exact NZ; apply Rgt_not_eq; exact Q). rewrite S1. ring. }
  unfold angle. destruct (Rlt_dec 0 x) as [X|X].
  - destruct (K ltac:(lra) 1 ltac:(lra) ltac:(rewrite Rabs_right; lra)) as [K1 K2]. rewrite Rmult_1_l in K1, K2. auto.
  - destruct (Rlt_dec x 0) as [X2|X2].
    + destruct (K ltac:(lra) (-1) ltac:(lra) ltac:(rewrite Rabs_left; lra)) as [K1 K2].
      destruct (Rle_dec 0 y).
      * rewrite neg_cos, neg_sin. split; [rewrite K1 at 1|rewrite K2 at 1]; ring.
      * replace (cos (atan (y / x) - PI)) with (- cos (atan (y / x))) by (rewrite cos_minus, cos_PI, sin_PI; ring).
        replace (sin (atan (y / x) - PI)) with (- sin (atan (y / x))) by (rewrite sin_minus, cos_PI, sin_PI; ring).
        split; [rewrite K1 at 1|rewrite K2 at 1]; ring.
    + assert (x = 0) as -> by lra. replace (0 ^ 2 + y ^ 2) with (y²) by (unfold Rsqr; ring). rewrite sqrt_Rsqr_abs.
      destruct (Rlt_dec 0 y) as [Y|Y].
      * rewrite cos_PI2, sin_PI2, (Rabs_right y) by lra. lra.
      * destruct (Rlt_dec y 0) as [Y2|Y2].
        -- rewrite cos_neg, sin_neg, cos_PI2, sin_PI2, (Rabs_left y) by lra. lra.
        -- assert (y = 0) as -> by lra. rewrite Rabs_R0. lra.
Qed.
Lemma ref_accurate : accurate_libm libm_ref.
Proof.
  assert (E51 : B (-51) = 4 * u) by (change (-51)%Z with (-53 + 2)%Z; rewrite bpow_plus; change (B 2) with 4; ring).
  assert (E52 : B (-52) = 2 * u) by (change (-52)%Z with (-53 + 1)%Z; rewrite bpow_plus; change (B 1) with 2; ring).
  pose proof u_tiny as U. split.
  - intros t [F _]. cbn [lcos lsin libm_ref]. rewrite F. destruct (trig_1000 (fval t)) as [T1 T2].
    destruct (of_R_spec _ T1) as [V1 F1]. destruct (of_R_spec _ T2) as [V2 F2].
    assert (C : Rabs (cos (fval t)) <= B 0) by (apply Rabs_le; pose proof (COS_bound (fval t)); cbn; lra).
    assert (S : Rabs (sin (fval t)) <= B 0) by (apply Rabs_le; pose proof (SIN_bound (fval t)); cbn; lra).
    pose proof (rnd_err _ 0 ltac:(lia) C) as R1. pose proof (rnd_err _ 0 ltac:(lia) S) as R2. change (B 0) with 1 in R1, R2.
    unfold double_near. rewrite V1, V2, E52. repeat split; auto; lra.
  - intros y x Fy Fx. exists (angle (fval y) (fval x)). split; [apply angle_polar|]. cbn [latan2 libm_ref]. rewrite Fx, Fy. cbn [andb].
    destruct (of_R_spec _ (angle_1000 (fval y) (fval x))) as [V F]. split; auto. rewrite V, E51.
    assert (A : Rabs (angle (fval y) (fval x)) <= B 2) by (change (B 2) with 4; pose proof (angle_bound (fval y) (fval x)); pose proof PI_4; lra).
    exact (rnd_err _ 2 ltac:(lia) A).
Qed.

(** ** Struts *)
Lemma f06_near : within 0 f06 /\ Rabs (fval f06 - 6 / 10) <= u /\ / 2 <= fval f06.
Proof.
  destruct (fofZ_spec 3 ltac:(lia)) as [V3 F3]. destruct (fdiv_int_within 2 (fofZ 3) 5 ltac:(lia) (fofZ_within 2 3 ltac:(lia) ltac:(lia)) ltac:(lia)) as [V [F _]].
  fold f06 in V, F. rewrite V3 in V.
  assert (A : Rabs (3 / 5) <= B 0) by (apply Rabs_le; cbn; lra). pose proof (rnd_err _ 0 ltac:(lia) A) as R1. pose proof (rnd_bpow_le _ 0 ltac:(lia) A) as R2.
  rewrite <- V in R1, R2. change (B 0) with 1 in R1. pose proof u_tiny as U. split; [split; auto|]. apply Rabs_le_inv in R1. split; [apply Rabs_le; lra|lra].
Qed.
(** A product of doubles between 0 and 1. *)
Lemma prod_near a b A C ea eb : unit_f a -> unit_f b -> 0 <= A <= 1 -> 0 <= C <= 1 -> Rabs (fval a - A) <= ea -> Rabs (fval b - C) <= eb ->
  Rabs (fval (fmul a b) - A * C) <= ea + eb + u.
Proof.
  intros [Fa Ia] [Fb Ib] HA HC Na Nb. destruct (fmul_within 0 0 a b ltac:(lia)) as [V _].
  - split; auto. rewrite Rabs_pos_eq; cbn; lra.
  - split; auto. rewrite Rabs_pos_eq; cbn; lra.
  - assert (D : Rabs (fval a * fval b) <= B 0) by (rewrite Rabs_pos_eq; cbn; nra).
    pose proof (rnd_err _ 0 ltac:(lia) D) as R1. change (B 0) with 1 in R1. rewrite <- V in R1.
    pose proof (mult_err A C (fval a) (fval b) ea eb 1 1 Na Nb ltac:(rewrite Rabs_pos_eq; lra) ltac:(rewrite Rabs_pos_eq; lra)) as ME.
    apply Rabs_le_inv in R1, ME. apply Rabs_le. lra.
Qed.
Section Strut.
Variables (M : libm) (w : R) (k nx ny ns : Z) (xo yo dO wd : f64).
Hypothesis (HM : accurate_libm M) (Ew : w = B k) (Hk : (0 <= k <= 35)%Z) (Hn : (1 <= ns <= 2 ^ 26)%Z).
Hypothesis (Hx : (1 < nx <= 2 ^ k)%Z) (Hy : (0 < ny <= 2 ^ k)%Z).
Hypothesis (Wx : within k xo) (Wy : within k yo) (Wd : within k dO) (Ww : within k wd) (Pd : B (-1000) <= fval dO) (Pw : 0 < fval wd).
Lemma height_near : within k (fmul f06 dO) /\ Rabs (fval (fmul f06 dO) - 6 / 10 * fval dO) <= 2 * w * u /\ 0 < fval (fmul f06 dO).
Proof.
  destruct f06_near as (W6 & N6 & L6). destruct (fmul_within 0 k f06 dO ltac:(lia) W6 Wd) as [V W']. cbn [Z.add] in W'.
  assert (A : Rabs (fval f06 * fval dO) <= B k).
  { rewrite Rabs_mult. destruct W6 as [_ A6]. destruct Wd as [_ Ad]. rewrite <- (Rmult_1_l (B k)).
    apply Rmult_le_compat; auto using Rabs_pos. }
  pose proof (rnd_err _ k ltac:(lia) A) as R1. rewrite <- V, <- Ew in R1. split; [exact W'|]. split.
  - assert (Q : Rabs (fval f06 * fval dO - 6 / 10 * fval dO) <= u * w).
    { replace (fval f06 * fval dO - 6 / 10 * fval dO) with ((fval f06 - 6 / 10) * fval dO) by ring. rewrite Rabs_mult.
      apply Rmult_le_compat; auto using Rabs_pos. rewrite Ew. apply Wd. }
    apply Rabs_le_inv in Q, R1. apply Rabs_le. lra.
  - rewrite V. apply Rlt_le_trans with (rnd64 (B (-1001))).
    + rewrite rnd_id; [apply bpow_gt_0|]. apply generic_format_bpow. unfold FLT_exp. lia.
    + apply rnd_mono. replace (B (-1001)) with (/ 2 * B (-1000)) by (change (-1001)%Z with (-1 + -1000)%Z; rewrite bpow_plus; reflexivity).
      apply Rmult_le_compat; auto; try lra. apply bpow_ge_0.
Qed.
Lemma shift_near o c C : within k o -> is_finite c = true -> Rabs C <= 1 -> Rabs (fval c - C) <= 69 * u ->
  within (k + 1) (fadd o (fdiv (fmul c (fmul f06 dO)) (fofZ 2))) /\
  Rabs (fval (fadd o (fdiv (fmul c (fmul f06 dO)) (fofZ 2))) - (fval o + 3 / 10 * fval dO * C)) <= 64 * w * u.
Proof.
  intros Wo Fc HC Nc. destruct height_near as (Wh & Nh & _). set (h := fmul f06 dO) in *. pose proof u_tiny as U.
  assert (W1 : 1 <= w) by (apply (w1 w k Ew); lia).
  assert (UW : 0 < w * u <= w / 1000000) by (split; [apply Rmult_lt_0_compat; lra|unfold Rdiv; apply Rmult_le_compat_l; lra]).
  assert (C2 : Rabs (fval c) <= 2) by (apply Rabs_le_inv in HC, Nc; apply Rabs_le; lra).
  assert (Ah : Rabs (fval h) <= w) by (rewrite Ew; apply Wh). assert (Ad : Rabs (fval dO) <= w) by (rewrite Ew; apply Wd).
  assert (Ao : Rabs (fval o) <= w) by (rewrite Ew; apply Wo).
  pose proof (mult_err C (6 / 10 * fval dO) (fval c) (fval h) _ _ 1 w Nc Nh HC Ah) as ME.
  assert (HB : Rabs (C * (6 / 10 * fval dO)) <= 6 / 10 * w).
  { rewrite !Rabs_mult, (Rabs_right (6 / 10)) by lra. pose proof (Rabs_pos C). pose proof (Rabs_pos (fval dO)).
    apply Rle_trans with (1 * (6 / 10 * w)); [|lra]. apply Rmult_le_compat; auto; lra. }
  assert (E2 : B (k + 1) = 2 * w) by (rewrite bpow_plus, <- Ew; change (B 1) with 2; ring).
  assert (E4 : B (k + 2) = 4 * w) by (rewrite bpow_plus, <- Ew; change (B 2) with 4; ring).
  destruct (fmul_within 1 k c h ltac:(lia) (conj Fc C2) Wh) as [Vm Wm].
  assert (Am : Rabs (fval c * fval h) <= B (k + 1)) by (rewrite E2; apply Rabs_le_inv in ME, HB; apply Rabs_le; lra).
  pose proof (rnd_err _ (k + 1) ltac:(lia) Am) as R1. rewrite <- Vm, E2 in R1.
  destruct (fdiv_int_within (1 + k) (fmul c h) 2 ltac:(lia) Wm ltac:(lia)) as [Vq Wq].
  assert (Aq : Rabs (fval (fmul c h) / 2) <= B (k + 1)) by (rewrite E2; apply Rabs_le_inv in ME, HB, R1; apply Rabs_le; lra).
  pose proof (rnd_err _ (k + 1) ltac:(lia) Aq) as R2. rewrite <- Vq, E2 in R2.
  destruct (fadd_within (1 + k) o _ ltac:(lia) (within_le k (1 + k) _ ltac:(lia) Wo) Wq) as [Va [Fa _]].
  apply Rabs_le_inv in ME, HB, R1, R2. set (q := fdiv (fmul c h) (fofZ 2)) in *.
  assert (Aa : Rabs (fval o + fval q) <= B (k + 2)) by (rewrite E4; apply Rabs_le_inv in Ao; apply Rabs_le; lra).
  pose proof (rnd_err _ (k + 2) ltac:(lia) Aa) as R3. rewrite <- Va, E4 in R3. apply Rabs_le_inv in R3, Ao.
  split; [split; [exact Fa|rewrite E2; apply Rabs_le; lra]|apply Rabs_le; lra].
Qed.
Lemma strut_near ang : within 10 ang -> exists s, strut_f M nx ny xo yo dO wd ns ang = Ok s /\ nr s = ny /\ nc s = nx /\
  forall i j, (0 <= i < ny)%Z -> (0 <= j < nx)%Z -> exists v r,
    strut_cover nx ny (fval xo) (fval yo) (fval dO) (fval wd) ns i j (fval ang) v /\
    strut_rim nx ny (fval xo) (fval yo) (fval dO) (fval wd) ns i j (B (k - 42)) (fval ang) r /\
    Rabs (fval (at2 s i j) - (1 - v)) <= r + B (-52).
Proof.
  intros Wa. unfold strut_f. cbv zeta. change (fdiv (fmul ang fpi) (fofZ 180)) with (rad_f ang). pose proof u_tiny as U.
  destruct (rad_err ang Wa) as (Wr & Er & Dr). destruct HM as [MC _]. destruct (MC _ Wr) as [[Fc Nc] [Fs Ns]].
  assert (E52 : B (-52) = 2 * u) by (change (-52)%Z with (-53 + 1)%Z; rewrite bpow_plus; change (B 1) with 2; ring). rewrite E52 in Nc, Ns.
  set (t := deg (fval ang)) in *.
  assert (Ec : Rabs (fval (lcos M (rad_f ang)) - cos t) <= 69 * u).
  { pose proof (Rle_trans _ _ _ (cos_lip (fval (rad_f ang)) t) Er) as L. apply Rabs_le_inv in Nc, L. apply Rabs_le. lra. }
  assert (Es : Rabs (fval (lsin M (rad_f ang)) - sin t) <= 69 * u).
  { pose proof (Rle_trans _ _ _ (sin_lip (fval (rad_f ang)) t) Er) as L. apply Rabs_le_inv in Ns, L. apply Rabs_le. lra. }
  destruct (shift_near xo _ (cos t) Wx Fc ltac:(apply Rabs_le; pose proof (COS_bound t); lra) Ec) as [Wxs Nxs].
  destruct (shift_near yo _ (sin t) Wy Fs ltac:(apply Rabs_le; pose proof (SIN_bound t); lra) Es) as [Wys Nys].
  destruct height_near as (Wh & Nh & Ph).
  assert (E2 : B (k + 1) = 2 * w) by (rewrite bpow_plus, <- Ew; change (B 1) with 2; ring).
  assert (UW : 0 < w * u) by (apply Rmult_lt_0_compat; [rewrite Ew; apply bpow_gt_0|lra]).
  assert (P2 : (2 ^ k <= 2 ^ (k + 1))%Z) by (apply Z.pow_le_mono_r; lia).
  assert (NH : Rabs (fval (fmul f06 dO) - 6 / 10 * fval dO) <= 8 * B (k + 1) * u) by (rewrite E2; lra).
  assert (NW : Rabs (fval wd - fval wd) <= 8 * B (k + 1) * u) by (rewrite E2, Rminus_diag_eq, Rabs_R0 by reflexivity; lra).
  assert (NX : Rabs (fval (fadd xo (fdiv (fmul (lcos M (rad_f ang)) (fmul f06 dO)) (fofZ 2))) - (fval xo + 3 / 10 * fval dO * cos t)) <= 32 * B (k + 1) * u) by (rewrite E2; lra).
  assert (NY : Rabs (fval (fadd yo (fdiv (fmul (lsin M (rad_f ang)) (fmul f06 dO)) (fofZ 2))) - (fval yo + 3 / 10 * fval dO * sin t)) <= 32 * B (k + 1) * u) by (rewrite E2; lra).
  destruct (rectangle_near M (B (k + 1)) (k + 1) nx ny ns (fmul f06 dO) wd _ _ ang _ _ _ _ HM eq_refl ltac:(lia) Wa Hn ltac:(lia) ltac:(lia)
    (within_le k (k + 1) _ ltac:(lia) Wh) (within_le k (k + 1) _ ltac:(lia) Ww) Wxs Wys NH NW NX NY true Ph Pw) as (s & E & Rs & Cs & P).
  exists s. split; [exact E|]. split; [exact Rs|]. split; [exact Cs|]. intros i j Hi Hj. destruct (P i j Hi Hj) as (v & r & H1 & H2 & H3 & _).
  exists v, r. split; [exact H1|]. split; [|exact H3]. unfold strut_rim.
  replace (B (k - 42)) with (1024 * B (k + 1) * u) by (change 1024 with (B 10); rewrite <- !bpow_plus; f_equal; lia). exact H2.
Qed.
Lemma struts_near angs : Forall (within 10) angs -> forall p, nr p = ny -> nc p = nx -> unit_pixels p ->
  exists m, struts_f M nx ny xo yo dO wd ns angs p = Ok m /\ nr m = ny /\ nc m = nx /\
  forall i j, (0 <= i < ny)%Z -> (0 <= j < nx)%Z -> exists ws rs,
    Forall2 (strut_cover nx ny (fval xo) (fval yo) (fval dO) (fval wd) ns i j) (map fval angs) ws /\
    Forall2 (strut_rim nx ny (fval xo) (fval yo) (fval dO) (fval wd) ns i j (B (k - 42))) (map fval angs) rs /\
    forall A e, 0 <= A <= 1 -> Rabs (fval (at2 p i j) - A) <= e ->
      Rabs (fval (at2 m i j) - A * dim_all ws) <= e + total rs + INR (length angs) * B (-51).
Proof.
  induction 1 as [|a l Ha Hl IH]; intros p Rp Cp Up.
  - exists p. split; [reflexivity|]. split; [exact Rp|]. split; [exact Cp|]. intros i j _ _. exists [], []. split; [constructor|]. split; [constructor|].
    intros A e HA H. cbn [dim_all total fold_right length INR]. rewrite Rmult_1_r. lra.
  - destruct (strut_near a Ha) as (s & Es & Rs & Cs & P). destruct (strut_f_unit _ _ _ _ _ _ _ _ _ _ Es) as (_ & _ & Us). specialize (Us ltac:(lia)).
    destruct (prod_unit p s ltac:(congruence) ltac:(congruence) Up Us) as [U1 _].
    destruct (IH (amap2 fmul p s) Rp Cp U1) as (m & Em & Rm & Cm & Q).
    exists m. split; [cbn [struts_f]; rewrite Es; exact Em|]. split; [exact Rm|]. split; [exact Cm|]. intros i j Hi Hj.
    destruct (P i j Hi Hj) as (v & r & P1 & P2 & P3). destruct (Q i j Hi Hj) as (ws & rs & Q1 & Q2 & Q3).
    exists (v :: ws), (r :: rs). split; [constructor; auto|]. split; [constructor; auto|]. intros A e HA He.
    assert (Pn : (0 < ns)%Z) by lia. pose proof (ShapesP.coverage_range _ _ _ _ _ Pn P1) as Iv.
    assert (I1 : unit_f (at2 p i j)) by (apply Up; unfold in_arr; rewrite Rp, Cp; auto).
    assert (I2 : unit_f (at2 s i j)) by (apply Us; unfold in_arr; rewrite Rs, Cs; auto).
    pose proof (prod_near _ _ A (1 - v) _ _ I1 I2 HA ltac:(lra) He P3) as N1.
    assert (H1 : 0 <= A * (1 - v) <= 1) by nra.
    specialize (Q3 (A * (1 - v)) _ H1 N1). cbn [dim_all total fold_right]. fold (total rs).
    replace (A * ((1 - v) * dim_all ws)) with (A * (1 - v) * dim_all ws) by ring. cbn [length]. rewrite S_INR.
    assert (E51 : B (-51) = 4 * u) by (change (-51)%Z with (-53 + 2)%Z; rewrite bpow_plus; change (B 2) with 4; ring).
    assert (E52 : B (-52) = 2 * u) by (change (-52)%Z with (-53 + 1)%Z; rewrite bpow_plus; change (B 1) with 2; ring).
    rewrite E52 in Q3. rewrite E51 in *. pose proof u_tiny. lra.
Qed.
End Strut.

(** ** The pupil *)
Lemma half_exact z : is_finite z = true -> B (-1000) <= Rabs (fval z) -> Rabs (fval z) <= B 500 -> fval (fdiv z (fofZ 2)) = fval z / 2.
Proof.
  intros F L U. destruct (fdiv_int_within 500 z 2 ltac:(lia) (conj F U) ltac:(lia)) as [V _]. rewrite V.
  assert (Fz : fmt64 (fval z)) by apply fval_format.
  apply rnd_id. replace (fval z / 2) with (fval z * B (-1)) by reflexivity.
  apply mult_bpow_exact_FLT; auto. assert (N : fval z <> 0) by (intros Z; rewrite Z, Rabs_R0 in L; pose proof (bpow_gt_0 radix2 (-1000)); lra).
  pose proof (mag_ge_bpow radix2 (fval z) (-999) ltac:(exact L)). lia.
Qed.
Lemma pupil_f_accurate M k nx ny xo yo dI dO angs wd ns : accurate_libm M -> pupil_args_upto k nx ny xo yo dI dO angs wd ns ->
  exists m, simple_pupil_f M nx ny xo yo dI dO angs wd ns = Ok m /\ nr m = ny /\ nc m = nx /\
  forall i j, (0 <= i < ny)%Z -> (0 <= j < nx)%Z -> exists vo vi ws ro ri rs,
    coverage (disc (fval dO / 2)) ns (px nx (fval xo) j) (px ny (fval yo) i) vo /\
    coverage (rim (fval dO / 2) (B (k - 47))) ns (px nx (fval xo) j) (px ny (fval yo) i) ro /\
    (0 < fval dI -> coverage (disc (fval dI / 2)) ns (px nx (fval xo) j) (px ny (fval yo) i) vi /\
                    coverage (rim (fval dI / 2) (B (k - 47))) ns (px nx (fval xo) j) (px ny (fval yo) i) ri) /\
    (fval dI = 0 -> vi = 0 /\ ri = 0) /\
    (0 < fval wd -> Forall2 (strut_cover nx ny (fval xo) (fval yo) (fval dO) (fval wd) ns i j) (map fval angs) ws /\
                    Forall2 (strut_rim nx ny (fval xo) (fval yo) (fval dO) (fval wd) ns i j (B (k - 42))) (map fval angs) rs) /\
    (fval wd = 0 -> ws = [] /\ rs = []) /\
    Rabs (fval (at2 m i j) - vo * (1 - vi) * dim_all ws) <= ro + ri + total rs + INR (2 + length angs) * B (-51).
Proof.
  intros HM (Hk & Hx & Hy & Hn & Wx & Wy & Wi & Wo & Ww & Wa & Pw & Lt & Po & Pi).
  pose proof (bpow_gt_0 radix2 (-1000)) as Tiny. pose proof u_tiny as U. assert (Pn : (0 < ns)%Z) by lia.
  assert (E51 : B (-51) = 4 * u) by (change (-51)%Z with (-53 + 2)%Z; rewrite bpow_plus; change (B 2) with 4; ring).
  assert (E52 : B (-52) = 2 * u) by (change (-52)%Z with (-53 + 1)%Z; rewrite bpow_plus; change (B 1) with 2; ring).
  assert (B5 : B k <= B 500) by (apply bpow_le; lia).
  assert (HalfC : forall z, double_within k z -> B (-1000) <= fval z -> forall d, exists c, circle_f nx ny (fdiv z (fofZ 2)) xo yo ns d = Ok c /\
    nr c = ny /\ nc c = nx /\ unit_pixels c /\ forall i j, (0 <= i < ny)%Z -> (0 <= j < nx)%Z -> exists v r,
      coverage (disc (fval z / 2)) ns (px nx (fval xo) j) (px ny (fval yo) i) v /\
      coverage (rim (fval z / 2) (B (k - 47))) ns (px nx (fval xo) j) (px ny (fval yo) i) r /\
      Rabs (fval (at2 c i j) - (if d : bool then 1 - v else v)) <= r + B (-52)).
  { intros z [Fz Az] Lz d. assert (Vz : fval (fdiv z (fofZ 2)) = fval z / 2) by (apply half_exact; [exact Fz|rewrite Rabs_right by lra; lra|lra]).
    destruct (fdiv_int_within k z 2 ltac:(lia) (conj Fz Az) ltac:(lia)) as [_ Wz].
    assert (HA : circle_args_upto k nx ny (fdiv z (fofZ 2)) xo yo ns).
    { unfold circle_args_upto. rewrite Vz. repeat split; try lia; try apply Wz; try apply Wx; try apply Wy. lra. }
    destruct (circle_f_accurate k nx ny (fdiv z (fofZ 2)) xo yo ns d HA) as (c & Ec & Rc & Cc & P). rewrite Vz in P.
    destruct (circle_f_inv _ _ _ _ _ _ _ _ Ec) as (_ & _ & _ & _ & _ & _ & Uc).
    exists c. split; [exact Ec|]. split; [exact Rc|]. split; [exact Cc|]. split; [apply Uc; lia|]. intros i j Hi Hj.
    destruct (P i j Hi Hj) as (v & r & P1 & P2 & P3 & _). exists v, r. auto. }
  assert (Pd0 : fval dI = 0 \/ 0 < fval dI) by (destruct Pi; [left; auto|right; lra]).
  unfold simple_pupil_f.
  assert (FI : is_finite dI = true) by apply Wi. assert (FO : is_finite dO = true) by apply Wo. assert (FW : is_finite wd = true) by apply Ww.
  rewrite guard_true by (apply Z.ltb_lt; lia). rewrite guard_true by (apply Z.ltb_lt; lia).
  rewrite guard_true by (apply negb_true_iff; rewrite flt_val by (auto; reflexivity); apply Rlt_bool_false; change (fval fzero) with 0; lra).
  rewrite guard_true by (apply negb_true_iff; rewrite fle_val by (auto; reflexivity); apply Rle_bool_false; change (fval fzero) with 0; lra).
  rewrite guard_true by (apply negb_true_iff; rewrite flt_val by (auto; reflexivity); apply Rlt_bool_false; change (fval fzero) with 0; lra).
  rewrite guard_true by (apply Z.ltb_lt; lia).
  rewrite guard_true by (apply negb_true_iff; rewrite fle_val by auto; apply Rle_bool_false; lra).
  destruct (HalfC dO Wo Po false) as (c & -> & Rc & Cc & Uc & Pc). cbn [bind].
  (* the pupil before the struts *)
  assert (S1 : exists p, (if flt fzero dI then do c0 <- circle_f nx ny (fdiv dI (fofZ 2)) xo yo ns true; Ok (amap2 fmul c c0) else Ok c) = Ok p /\
    nr p = ny /\ nc p = nx /\ unit_pixels p /\ forall i j, (0 <= i < ny)%Z -> (0 <= j < nx)%Z -> exists vo vi ro ri,
      coverage (disc (fval dO / 2)) ns (px nx (fval xo) j) (px ny (fval yo) i) vo /\
      coverage (rim (fval dO / 2) (B (k - 47))) ns (px nx (fval xo) j) (px ny (fval yo) i) ro /\
      (0 < fval dI -> coverage (disc (fval dI / 2)) ns (px nx (fval xo) j) (px ny (fval yo) i) vi /\
                      coverage (rim (fval dI / 2) (B (k - 47))) ns (px nx (fval xo) j) (px ny (fval yo) i) ri) /\
      (fval dI = 0 -> vi = 0 /\ ri = 0) /\ 0 <= vo * (1 - vi) <= 1 /\
      Rabs (fval (at2 p i j) - vo * (1 - vi)) <= ro + ri + 8 * u).
  { rewrite flt_val by (auto; reflexivity). change (fval fzero) with 0. destruct (Rlt_bool_spec 0 (fval dI)) as [L|L].
    - destruct (HalfC dI Wi ltac:(destruct Pi; lra) true) as (d & -> & Rd & Cd & Ud & Pd). cbn [bind]. exists (amap2 fmul c d).
      split; [reflexivity|]. split; [exact Rc|]. split; [exact Cc|]. split; [apply prod_unit; auto; congruence|]. intros i j Hi Hj.
      destruct (Pc i j Hi Hj) as (vo & ro & A1 & A2 & A3). destruct (Pd i j Hi Hj) as (vi & ri & C1 & C2 & C3).
      exists vo, vi, ro, ri. split; [exact A1|]. split; [exact A2|]. split; [auto|]. split; [intros Z; lra|].
      pose proof (ShapesP.coverage_range _ _ _ _ _ Pn A1) as Ivo. pose proof (ShapesP.coverage_range _ _ _ _ _ Pn C1) as Ivi.
      split; [nra|]. cbn [at2 amap2].
      assert (I1 : unit_f (at2 c i j)) by (apply Uc; unfold in_arr; rewrite Rc, Cc; auto).
      assert (I2 : unit_f (at2 d i j)) by (apply Ud; unfold in_arr; rewrite Rd, Cd; auto).
      pose proof (prod_near _ _ vo (1 - vi) _ _ I1 I2 Ivo ltac:(lra) A3 C3) as N. rewrite E52 in N. lra.
    - exists c. split; [reflexivity|]. split; [exact Rc|]. split; [exact Cc|]. split; [exact Uc|]. intros i j Hi Hj.
      destruct (Pc i j Hi Hj) as (vo & ro & A1 & A2 & A3). exists vo, 0, ro, 0. split; [exact A1|]. split; [exact A2|]. split; [intros Z; lra|].
      split; [auto|]. pose proof (ShapesP.coverage_range _ _ _ _ _ Pn A1) as Ivo. rewrite E52 in A3. rewrite Rminus_0_r, Rmult_1_r, Rplus_0_r. split; [exact Ivo|]. lra. }
  destruct S1 as (p & -> & Rp & Cp & Up & Pp). cbn [bind]. rewrite flt_val by (auto; reflexivity). change (fval fzero) with 0.
  destruct (Rlt_bool_spec 0 (fval wd)) as [L|L].
  - destruct (struts_near M (B k) k nx ny ns xo yo dO wd HM eq_refl Hk Hn Hx Hy Wx Wy Wo Ww Po L angs Wa p Rp Cp Up) as (m & Em & Rm & Cm & Q).
    exists m. split; [destruct angs; [cbn [struts_f] in Em|]; exact Em|]. split; [exact Rm|]. split; [exact Cm|]. intros i j Hi Hj.
    destruct (Pp i j Hi Hj) as (vo & vi & ro & ri & A1 & A2 & A3 & A4 & A5 & A6). destruct (Q i j Hi Hj) as (ws & rs & Q1 & Q2 & Q3).
    exists vo, vi, ws, ro, ri, rs. split; [exact A1|]. split; [exact A2|]. split; [exact A3|]. split; [exact A4|]. split; [auto|]. split; [intros Z; lra|].
    specialize (Q3 _ _ A5 A6). rewrite plus_INR. rewrite E51 in *. cbn [INR] in *. lra.
  - rewrite andb_false_r. exists p. split; [reflexivity|]. split; [exact Rp|]. split; [exact Cp|]. intros i j Hi Hj.
    destruct (Pp i j Hi Hj) as (vo & vi & ro & ri & A1 & A2 & A3 & A4 & A5 & A6).
    exists vo, vi, [], ro, ri, []. split; [exact A1|]. split; [exact A2|]. split; [exact A3|]. split; [exact A4|]. split; [intros Z; lra|]. split; [auto|].
    cbn [dim_all total fold_right]. rewrite Rmult_1_r, plus_INR, E51. cbn [INR]. pose proof (pos_INR (length angs)). nra.
Qed.
