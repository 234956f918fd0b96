From Coq Require Import ZArith Reals List String Bool Lia Lra.
From Flocq Require Import Core Mult_error BinarySingleNaN.
From Verif.Base Require Import Py F64 Arr Trig.
From Verif.Model Require Import Math.
From Verif.Spec Require Import MathSpec.
Import ListNotations.
Ltac Zify.zify_post_hook ::= Z.div_mod_to_equations.
Open Scope Z_scope.

Lemma Zceil_bounds x : (x <= IZR (Zceil x) < x + 1)%R.
Proof.
  split; [apply Zceil_ub|]. unfold Zceil. rewrite opp_IZR.
  pose proof (Zfloor_ub (- x)). pose proof (Zfloor_lb (- x)). lra.
Qed.
Lemma Zceil_unique x z : (x <= IZR z < x + 1)%R -> Zceil x = z.
Proof.
  intros [H1 H2]. apply Zceil_imp. rewrite minus_IZR. lra.
Qed.

Lemma ceil_even_ok x :
  Z.Even (ceil_even x) /\ (x <= IZR (ceil_even x) < x + 2)%R /\
  (forall z, Z.Even z -> (x <= IZR z)%R -> ceil_even x <= z).
Proof.
  unfold ceil_even. pose proof (Zceil_bounds (/ 2 * x)) as [B1 B2].
  split; [eexists; reflexivity|]. split.
  - rewrite mult_IZR. lra.
  - intros z [k ->] Hz. rewrite mult_IZR in Hz.
    assert (Zceil (/ 2 * x) <= k); [|lia]. apply Zceil_glb. lra.
Qed.
Lemma ceil_odd_ok x :
  Z.Odd (ceil_odd x) /\ (x <= IZR (ceil_odd x) < x + 2)%R /\
  (forall z, Z.Odd z -> (x <= IZR z)%R -> ceil_odd x <= z).
Proof.
  unfold ceil_odd. pose proof (Zceil_bounds x) as [B1 B2].
  assert (L : forall z, (x <= IZR z)%R -> Zceil x <= z) by (intros; apply Zceil_glb; auto).
  destruct (Z.eqb_spec (Zceil x mod 2) 0) as [E|E].
  - split; [exists (Zceil x / 2); lia|]. split; [rewrite plus_IZR; lra|].
    intros z [k ->] Hz. apply L in Hz. lia.
  - split; [exists (Zceil x / 2); lia|]. split; [lra|]. intros z _ Hz. auto.
Qed.
Lemma ceil_even_mono x y : (x <= y)%R -> ceil_even x <= ceil_even y.
Proof.
  intros H. destruct (ceil_even_ok x) as (_ & _ & M), (ceil_even_ok y) as (E & B & _).
  apply M; auto. lra.
Qed.
Lemma ceil_odd_mono x y : (x <= y)%R -> ceil_odd x <= ceil_odd y.
Proof.
  intros H. destruct (ceil_odd_ok x) as (_ & _ & M), (ceil_odd_ok y) as (E & B & _).
  apply M; auto. lra.
Qed.
Lemma ceil_even_fix z : Z.Even z -> ceil_even (IZR z) = z.
Proof.
  intros E. destruct (ceil_even_ok (IZR z)) as (_ & B & M).
  specialize (M z E (Rle_refl _)). destruct B as [B _]. apply le_IZR in B. lia.
Qed.
Lemma ceil_odd_fix z : Z.Odd z -> ceil_odd (IZR z) = z.
Proof.
  intros E. destruct (ceil_odd_ok (IZR z)) as (_ & B & M).
  specialize (M z E (Rle_refl _)). destruct B as [B _]. apply le_IZR in B. lia.
Qed.

(** ** binary64 *)
Lemma round_FIX0 rnd x : round radix2 (FIX_exp 0) rnd x = IZR (rnd x).
Proof.
  unfold round, scaled_mantissa, cexp, FIX_exp, F2R. cbn [Fnum Fexp Z.opp bpow].
  rewrite !Rmult_1_r. reflexivity.
Qed.
Lemma fceil_spec x : fval (fceil x) = IZR (Zceil (fval x)) /\ is_finite (fceil x) = is_finite x.
Proof.
  destruct (Bnearbyint_correct prec emax Hmax mode_UP x) as (A & B & _). split; [|exact B].
  rewrite round_FIX0 in A. exact A.
Qed.
Lemma Btrunc_IZR (x : f64) z : fval x = IZR z -> Btrunc x = z.
Proof.
  intros H. apply eq_IZR. rewrite (Btrunc_correct prec emax Hmax). rewrite round_FIX0.
  change (B2R x) with (fval x). rewrite H. rewrite Ztrunc_IZR. reflexivity.
Qed.
Lemma int_of_float_IZR (x : f64) z : is_finite x = true -> fval x = IZR z -> int_of_float x = Ok z.
Proof.
  intros F H. unfold int_of_float. destruct x; try discriminate; rewrite (Btrunc_IZR _ z H); reflexivity.
Qed.

Lemma ceil_odd_f_ok x : is_finite x = true -> ceil_odd_f x = Ok (ceil_odd (fval x)).
Proof.
  intros F. unfold ceil_odd_f, ceil_odd. destruct (fceil_spec x) as [A B].
  rewrite (int_of_float_IZR _ (Zceil (fval x))); [reflexivity|congruence|exact A].
Qed.

Lemma fhalf_spec : fval fhalf = (/ 2)%R /\ is_finite fhalf = true.
Proof.
  destruct (fofZ_spec 1 ltac:(lia)) as [A1 A2]. destruct (fofZ_spec 2 ltac:(lia)) as [B1 B2].
  assert (G : fmt64 (1 / 2)%R).
  { replace (1 / 2)%R with (bpow radix2 (-1)) by (cbn; lra). apply generic_format_bpow.
    unfold FLT_exp. lia. }
  assert (E : (rnd64 (fval (fofZ 1) / fval (fofZ 2)) = 1 / 2)%R).
  { rewrite A1, B1. apply round_generic; [apply valid_rnd_N|exact G]. }
  destruct (fdiv_spec (fofZ 1) (fofZ 2)) as [C D]; auto.
  - rewrite B1. lra.
  - rewrite E. rewrite Rabs_right by lra. apply Rlt_trans with 1%R; [lra|].
    change 1%R with (bpow radix2 0). apply bpow_lt. lia.
  - split; [|exact D]. unfold fhalf. rewrite C, E. lra.
Qed.

Lemma half_ceil x : fmt64 x -> x <> bpow radix2 (-1074) ->
  Zceil (rnd64 (/ 2 * x)) = Zceil (/ 2 * x).
Proof.
  intros F N. destruct (Req_dec x 0) as [->|Nz].
  { rewrite Rmult_0_r, round_0 by apply valid_rnd_N. reflexivity. }
  destruct (Rle_or_lt (bpow radix2 (-1000)) (Rabs x)) as [L|L].
  - rewrite round_generic; [reflexivity|apply valid_rnd_N|].
    replace (/ 2 * x)%R with (x * bpow radix2 (-1))%R by (cbn; lra).
    apply mult_bpow_exact_FLT; auto.
    assert (-1000 < mag radix2 x)%Z; [|lia]. apply mag_gt_bpow. exact L.
  - assert (S : (bpow radix2 (-1000) <= bpow radix2 (-1))%R) by (apply bpow_le; lia).
    change (bpow radix2 (-1)) with (/ 2)%R in S.
    assert (Gh : fmt64 (/ 2)%R).
    { change (/ 2)%R with (bpow radix2 (-1)). apply generic_format_bpow. unfold FLT_exp. lia. }
    apply Rabs_def2 in L. destruct L as [L1 L2].
    assert (U : (rnd64 (/ 2 * x) <= / 2)%R).
    { apply round_le_generic; [apply FLT_exp_valid; reflexivity|apply valid_rnd_N|auto|lra]. }
    assert (V : (- / 2 <= rnd64 (/ 2 * x))%R).
    { apply round_ge_generic; [apply FLT_exp_valid; reflexivity|apply valid_rnd_N| |lra].
      apply generic_format_opp; auto. }
    destruct (Rlt_le_dec 0 x) as [P|P].
    + assert (Q : (bpow radix2 (-1073) <= x)%R).
      { replace (bpow radix2 (-1073)) with (succ radix2 flt_exp (bpow radix2 (-1074))).
        - apply succ_le_lt; auto.
          + apply FLT_exp_valid; reflexivity.
          + apply generic_format_bpow. unfold FLT_exp. lia.
          + assert (T : (bpow radix2 (-1074) <= x)%R).
            { destruct (Rle_or_lt (bpow radix2 (-1074)) x) as [?|T]; auto. exfalso.
              assert (x = 0)%R; [|lra].
              apply (FLT_format_generic radix2 (-1074) 53) in F. destruct F as [f E1 E2 E3].
              rewrite E1 in T, P |- *. unfold F2R in *.
              assert (bpow radix2 (-1074) <= bpow radix2 (Fexp f))%R by (apply bpow_le; auto).
              assert (0 < Fnum f)%Z.
              { apply lt_IZR. apply (Rmult_lt_reg_r (bpow radix2 (Fexp f))); [apply bpow_gt_0|lra]. }
              assert (1 <= IZR (Fnum f))%R by (apply IZR_le; lia).
              pose proof (bpow_gt_0 radix2 (Fexp f)). nra. }
            lra.
        - rewrite succ_eq_pos by apply bpow_ge_0. rewrite ulp_bpow.
          replace (flt_exp (-1074 + 1)) with (-1074)%Z by (unfold FLT_exp; lia).
          replace (-1073)%Z with (-1074 + 1)%Z by lia. rewrite bpow_plus_1.
          change (IZR radix2) with 2%R. ring. }
      assert (W : (bpow radix2 (-1074) <= rnd64 (/ 2 * x))%R).
      { apply round_ge_generic; [apply FLT_exp_valid; reflexivity|apply valid_rnd_N| |].
        - apply generic_format_bpow. unfold FLT_exp. lia.
        - replace (-1073)%Z with (-1074 + 1)%Z in Q by lia. rewrite bpow_plus_1 in Q.
          change (IZR radix2) with 2%R in Q. lra. }
      pose proof (bpow_gt_0 radix2 (-1074)).
      rewrite (Zceil_unique (rnd64 (/ 2 * x)) 1) by lra. symmetry. apply Zceil_unique. lra.
    + assert (W : (rnd64 (/ 2 * x) <= 0)%R).
      { apply round_le_generic; [apply FLT_exp_valid; reflexivity|apply valid_rnd_N| |lra].
        apply generic_format_0. }
      rewrite (Zceil_unique (rnd64 (/ 2 * x)) 0) by lra. symmetry. apply Zceil_unique. lra.
Qed.

Lemma abs_half_lt x : (Rabs x < bpow radix2 1024)%R -> fmt64 x ->
  (Rabs (rnd64 (/ 2 * x)) < bpow radix2 1024)%R.
Proof.
  intros H F. apply Rle_lt_trans with (Rabs x); auto.
  rewrite <- round_NE_abs by (apply FLT_exp_valid; reflexivity).
  apply round_le_generic; [apply FLT_exp_valid; reflexivity|apply valid_rnd_N| |].
  - apply generic_format_abs; auto.
  - rewrite Rabs_mult, (Rabs_right (/ 2)) by lra. pose proof (Rabs_pos x). lra.
Qed.

Lemma double_fceil_ok (h : f64) : is_finite h = true ->
  (Rabs (2 * IZR (Zceil (fval h))) < bpow radix2 1024)%R ->
  fval (fmul (fofZ 2) (fceil h)) = IZR (2 * Zceil (fval h)) /\
  is_finite (fmul (fofZ 2) (fceil h)) = true.
Proof.
  intros F B. destruct (fofZ_spec 2 ltac:(lia)) as [B1 B2]. destruct (fceil_spec h) as [C1 C2].
  assert (G : fmt64 (2 * IZR (Zceil (fval h)))%R).
  { destruct (Req_dec (IZR (Zceil (fval h))) 0) as [E|E].
    - rewrite E, Rmult_0_r. apply generic_format_0.
    - replace (2 * IZR (Zceil (fval h)))%R with (IZR (Zceil (fval h)) * bpow radix2 1)%R by (cbn; lra).
      apply mult_bpow_exact_FLT.
      + rewrite <- C1. apply fval_format.
      + assert (0 < mag radix2 (IZR (Zceil (fval h))))%Z; [|lia].
        apply mag_gt_bpow. cbn. rewrite <- abs_IZR. apply IZR_le.
        assert (Zceil (fval h) <> 0)%Z by (intros E'; apply E; rewrite E'; reflexivity). lia. }
  assert (E : rnd64 (fval (fofZ 2) * fval (fceil h)) = (2 * IZR (Zceil (fval h)))%R).
  { rewrite B1, C1. apply round_generic; [apply valid_rnd_N|auto]. }
  destruct (fmul_spec (fofZ 2) (fceil h)) as [D1 D2]; auto; try congruence.
  split; auto. rewrite D1, E, mult_IZR. reflexivity.
Qed.

Lemma ceil_even_f_ok x : is_finite x = true -> fval x <> bpow radix2 (-1074) ->
  ceil_even_f x = Ok (ceil_even (fval x)).
Proof.
  intros F N. destruct fhalf_spec as [H1 H2].
  pose proof (fval_format x) as Fx. pose proof (fval_bound x) as Bx.
  pose proof (abs_half_lt _ Bx Fx) as Bh.
  destruct (fmul_spec fhalf x) as [M1 M2]; auto; [rewrite H1; auto|].
  rewrite H1 in M1. unfold ceil_even_f, ceil_even.
  assert (EC : Zceil (fval (fmul fhalf x)) = Zceil (/ 2 * fval x)).
  { rewrite M1. apply half_ceil; auto. }
  destruct (double_fceil_ok (fmul fhalf x) M2) as [D1 D2].
  - rewrite EC. pose proof (Zceil_bounds (/ 2 * fval x)) as [K1 K2].
    assert (Bp : (Rabs (fval x) <= bpow radix2 1024 - bpow radix2 971)%R).
    { pose proof (abs_B2R_le_emax_minus_prec prec emax Hprec x) as K.
      change (emax - prec)%Z with 971%Z in K. exact K. }
    assert ((2 < bpow radix2 971)%R).
    { change 2%R with (bpow radix2 1). apply bpow_lt. lia. }
    apply Rabs_def1; [|pose proof (bpow_gt_0 radix2 1024)];
      unfold Rabs in Bp; destruct (Rcase_abs (fval x)); lra.
  - apply int_of_float_IZR; auto. rewrite D1, EC. reflexivity.
Qed.

(** The smallest subnormal is the one exception. *)
Definition fmin : f64 := @B754_finite prec emax false 1 (-1074) eq_refl.
Lemma ceil_even_f_subnormal : fval fmin = bpow radix2 (-1074) /\ ceil_even_f fmin = Ok 0.
Proof.
  split; [unfold fval, fmin; cbn [B2R]; unfold F2R; cbn [Fnum Fexp cond_Zopp]; lra|].
  vm_compute. reflexivity.
Qed.
Lemma ceil_f_nonfinite x : is_finite x = false ->
  ceil_even_f x = Err (if is_nan x then ValueError else Custom "OverflowError") /\
  ceil_odd_f x = Err (if is_nan x then ValueError else Custom "OverflowError").
Proof. destruct x as [|[|]| |]; try discriminate; intros _; split; vm_compute; reflexivity. Qed.

(** ** rms *)
Lemma sum_list_nonneg l : (forall a, In a l -> 0 <= a)%R -> (0 <= sum_list l)%R.
Proof.
  induction l as [|a l IH]; cbn; intros H; [lra|].
  pose proof (H a (or_introl eq_refl)). pose proof (IH (fun b Hb => H b (or_intror Hb))).
  unfold sum_list in *. lra.
Qed.
Lemma sum_list_zero l : (forall a, In a l -> 0 <= a)%R -> sum_list l = 0%R ->
  forall a, In a l -> a = 0%R.
Proof.
  induction l as [|a l IH]; cbn; intros H E; [tauto|].
  pose proof (H a (or_introl eq_refl)).
  pose proof (sum_list_nonneg l (fun b Hb => H b (or_intror Hb))). unfold sum_list in *.
  intros b [<-|Hb]; [lra|]. apply IH; auto. lra.
Qed.
Lemma sum_list_scal c l : sum_list (map (fun a => c * a)%R l) = (c * sum_list l)%R.
Proof. induction l as [|a l IH]; cbn; [ring|]. unfold sum_list in *. rewrite IH. ring. Qed.
Lemma sum_list_le_const c l : (forall a, In a l -> a <= c)%R ->
  (sum_list l <= INR (List.length l) * c)%R.
Proof.
  induction l as [|a l IH]; intros H; [cbn; lra|]. cbn [sum_list fold_right List.length map].
  rewrite S_INR. pose proof (H a (or_introl eq_refl)).
  pose proof (IH (fun b Hb => H b (or_intror Hb))). unfold sum_list in *. lra.
Qed.

Definition sq_mean (l : list R) := (sum_list (map (fun a => (a ^ 2)%R) l) / INR (List.length l))%R.
Lemma rms_some l : l <> [] -> rms l = Some (sqrt (sq_mean l)).
Proof. destruct l; [congruence|reflexivity]. Qed.
Lemma len_pos {A} (l : list A) : l <> [] -> (0 < INR (List.length l))%R.
Proof. intros H. apply lt_0_INR. destruct l; [congruence|cbn; lia]. Qed.
Lemma sq_mean_nonneg l : l <> [] -> (0 <= sq_mean l)%R.
Proof.
  intros H. apply Rmult_le_pos; [|left; apply Rinv_0_lt_compat, len_pos; auto].
  apply sum_list_nonneg. intros a Ha. apply in_map_iff in Ha. destruct Ha as (b & <- & _).
  apply pow2_ge_0.
Qed.

Lemma rms_ok l : l <> [] -> exists r, rms l = Some r /\ (0 <= r)%R /\
  (INR (List.length l) * r ^ 2 = sum_list (map (fun a => (a ^ 2)%R) l))%R /\
  (r = 0%R <-> forall a, In a l -> a = 0%R) /\
  (forall M, (forall a, In a l -> Rabs a <= M)%R -> (r <= M)%R).
Proof.
  intros H. exists (sqrt (sq_mean l)). rewrite rms_some by auto.
  pose proof (len_pos l H) as L. pose proof (sq_mean_nonneg l H) as P.
  split; [reflexivity|]. split; [apply sqrt_pos|].
  assert (E : (INR (List.length l) * sqrt (sq_mean l) ^ 2
               = sum_list (map (fun a => (a ^ 2)%R) l))%R).
  { rewrite pow2_sqrt by auto. unfold sq_mean. field. lra. }
  split; [exact E|]. split; [split|].
  - intros Z a Ha. rewrite Z in E.
    assert (a ^ 2 = 0)%R.
    { apply (sum_list_zero (map (fun a => (a ^ 2)%R) l)).
      - intros b Hb. apply in_map_iff in Hb. destruct Hb as (c & <- & _). apply pow2_ge_0.
      - rewrite <- E. ring.
      - apply in_map_iff. eauto. }
    cbn in H0. nra.
  - intros Z. replace (sq_mean l) with 0%R; [apply sqrt_0|]. unfold sq_mean.
    replace (sum_list (map (fun a => (a ^ 2)%R) l)) with 0%R; [unfold Rdiv; ring|].
    clear -Z. induction l as [|a l IH]; [reflexivity|]. cbn [map sum_list fold_right].
    rewrite (Z a) by (cbn; auto). unfold sum_list in IH. rewrite <- IH by (intros; apply Z; cbn; auto). ring.
  - intros M HM.
    assert (M0 : (0 <= M)%R).
    { destruct l as [|a l]; [congruence|]. pose proof (HM a (or_introl eq_refl)).
      pose proof (Rabs_pos a). lra. }
    rewrite <- (sqrt_pow2 M) by auto. apply sqrt_le_1_alt. unfold sq_mean.
    apply (Rmult_le_reg_r (INR (List.length l))); auto.
    replace (sum_list (map (fun a => (a ^ 2)%R) l) / INR (List.length l) * INR (List.length l))%R
      with (sum_list (map (fun a => (a ^ 2)%R) l)) by (field; lra).
    assert (K : (sum_list (map (fun a => (a ^ 2)%R) l)
                 <= INR (List.length (map (fun a => (a ^ 2)%R) l)) * M ^ 2)%R).
    { apply sum_list_le_const. intros b Hb. apply in_map_iff in Hb. destruct Hb as (c & <- & Hc).
      rewrite <- (pow2_abs c). apply pow_incr. split; [apply Rabs_pos|auto]. }
    rewrite map_length in K. lra.
Qed.

Lemma rms_scal c l r : rms l = Some r -> rms (map (fun a => (c * a)%R) l) = Some (Rabs c * r)%R.
Proof.
  destruct l as [|a l]; [discriminate|]. remember (a :: l) as L eqn:EL.
  assert (N : L <> []) by (subst; discriminate). clear EL.
  intros H. rewrite rms_some in H by auto. injection H as <-.
  rewrite rms_some by (destruct L; [congruence|discriminate]). f_equal.
  replace (sq_mean (map (fun a => (c * a)%R) L)) with (Rsqr c * sq_mean L)%R.
  - rewrite sqrt_mult_alt by apply Rle_0_sqr. rewrite sqrt_Rsqr_abs. reflexivity.
  - unfold sq_mean. rewrite map_length, map_map.
    rewrite (map_ext (fun x => ((c * x) ^ 2)%R) (fun a => (Rsqr c * a ^ 2)%R)) by (intros; cbv beta; unfold Rsqr; ring).
    rewrite <- (map_map (fun a => (a ^ 2)%R) (fun a => (Rsqr c * a)%R)), sum_list_scal.
    unfold Rdiv. ring.
Qed.

(** ** cart2pol *)
Lemma polar_ok x y : polar_of x y (sqrt (x ^ 2 + y ^ 2)) (arctan2 y x).
Proof.
  unfold polar_of. replace (x ^ 2 + y ^ 2)%R with (x * x + y * y)%R by ring.
  pose proof (arctan2_range y x). repeat split; try lra.
  - apply sqrt_pos.
  - apply polar_cos.
  - apply polar_sin.
Qed.
Lemma polar_unique x y r t r' t' : (x <> 0 \/ y <> 0)%R -> polar_of x y r t -> polar_of x y r' t' ->
  r = r' /\ t = t'.
Proof.
  intros N (A1 & A2 & A3 & A4) (B1 & B2 & B3 & B4).
  assert (Q : forall r t, (r * cos t = x)%R -> (r * sin t = y)%R -> (r * r = x * x + y * y)%R).
  { intros a b <- <-. pose proof (sin2_cos2 b) as K. unfold Rsqr in K.
    transitivity (a * a * (sin b * sin b + cos b * cos b))%R; [rewrite K; ring|ring]. }
  pose proof (Q _ _ A3 A4) as QA. pose proof (Q _ _ B3 B4) as QB.
  pose proof (sqrt_sq_sum_pos x y N) as P.
  assert (E : r = r') by (apply Rsqr_inj; auto; unfold Rsqr; lra). split; auto. subst r'.
  assert (r <> 0)%R by (intros ->; lra).
  apply sin_cos_inj; auto; apply (Rmult_eq_reg_l r); auto; congruence.
Qed.

Lemma cart2pol_scalar x y : exists rho theta,
  cart2pol (Scal x) (Scal y) = Ok (Scal rho, Scal theta) /\ polar_of x y rho theta.
Proof. eexists _, _. split; [reflexivity|apply polar_ok]. Qed.
Lemma cart2pol_array (a b : arr R) : nr a = nr b -> nc a = nc b -> exists rho theta,
  cart2pol (Arr2 a) (Arr2 b) = Ok (Arr2 rho, Arr2 theta) /\
  nr rho = nr a /\ nc rho = nc a /\ nr theta = nr a /\ nc theta = nc a /\
  forall i j, in_arr a i j -> polar_of (at2 a i j) (at2 b i j) (at2 rho i j) (at2 theta i j).
Proof.
  intros H1 H2. eexists _, _. split.
  - cbn. unfold guard, same_shape. rewrite H1, H2, !Z.eqb_refl. reflexivity.
  - cbn. repeat split; auto; apply polar_ok.
Qed.
Lemma cart2pol_errors :
  (forall a b : arr R, nr a <> nr b \/ nc a <> nc b -> cart2pol (Arr2 a) (Arr2 b) = Err ValueError) /\
  (forall (a : arr R) y, cart2pol (Arr2 a) (Scal y) = Err TypeError) /\
  (forall x (b : arr R), cart2pol (Scal x) (Arr2 b) = Err TypeError).
Proof.
  split; [|split; reflexivity]. intros a b H. cbn. unfold guard, same_shape.
  destruct (Z.eqb_spec (nr a) (nr b)), (Z.eqb_spec (nc a) (nc b)); cbn; auto. lia.
Qed.

Lemma ceil_even_f_refuted :
  exists x : f64, is_finite x = true /\ (0 < fval x)%R /\ ceil_even_f x = Ok 0.
Proof.
  exists fmin. destruct ceil_even_f_subnormal as [A B]. split; [reflexivity|]. split; auto.
  rewrite A. apply bpow_gt_0.
Qed.
