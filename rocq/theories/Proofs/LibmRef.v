(** A C library that rounds correctly: it meets every hypothesis put on the one the shapes call. *)
From Coq Require Import ZArith Reals Bool Lia Lra Ratan.
From Flocq Require Import Core BinarySingleNaN.
From Verif.Base Require Import Py Arr F64.
From Verif.Model Require Import ShapesG.
From Verif.Spec Require Import ShapesGSpec.
From Verif.Proofs Require Import F64P F64N ShapesGP.
Local Open Scope R_scope.
Local Notation B := (bpow radix2).

(** The double nearest to a real number. *)
Definition of_R (x : R) : f64 :=
  binary_normalize prec emax Hprec Hmax mode_NE (Ztrunc (scaled_mantissa radix2 flt_exp (rnd64 x))) (cexp radix2 flt_exp (rnd64 x)) false.
Lemma of_R_spec x : Rabs x <= B 1000 -> fval (of_R x) = rnd64 x /\ is_finite (of_R x) = true.
Proof.
  intros H. set (y := rnd64 x).
  assert (Fy : fmt64 y) by (apply generic_format_round; auto with typeclass_instances).
  assert (E : F2R (Float radix2 (Ztrunc (scaled_mantissa radix2 flt_exp y)) (cexp radix2 flt_exp y)) = y) by (symmetry; exact Fy).
  pose proof (binary_normalize_correct prec emax Hprec Hmax mode_NE (Ztrunc (scaled_mantissa radix2 flt_exp y)) (cexp radix2 flt_exp y) false) as C.
  cbv zeta in C. rewrite E in C. change (round radix2 (SpecFloat.fexp prec emax) (round_mode mode_NE) y) with (rnd64 y) in C.
  rewrite (rnd_id y Fy) in C. rewrite Rlt_bool_true in C.
  - split; apply C.
  - apply Rle_lt_trans with (B 1000); [|apply bpow_lt; reflexivity]. unfold y. apply rnd_bpow_le; [lia|exact H].
Qed.
(** Angle of a point, in (-pi, pi]. *)
Definition angle (y x : R) : R :=
  if Rlt_dec 0 x then atan (y / x)
  else if Rlt_dec x 0 then (if Rle_dec 0 y then atan (y / x) + PI else atan (y / x) - PI)
  else if Rlt_dec 0 y then PI / 2 else if Rlt_dec y 0 then - (PI / 2) else 0.
Definition libm_ref : libm := {|
  lcos t := if is_finite t then of_R (cos (fval t)) else fnan;
  lsin t := if is_finite t then of_R (sin (fval t)) else fnan;
  latan2 y x := if is_finite y && is_finite x then of_R (angle (fval y) (fval x)) else fnan;
  lpow2 x := if is_finite x && negb (is_finite (fmul x x)) then None else Some (fmul x x) |}.

Lemma angle_opp y x : y <> 0 -> angle (- y) x = - angle y x.
Proof.
  intros H. unfold angle. replace (- y / x) with (- (y / x)) by (unfold Rdiv; ring). rewrite atan_opp.
  destruct (Rlt_dec 0 x); auto. destruct (Rlt_dec x 0).
  - destruct (Rle_dec 0 y), (Rle_dec 0 (- y)); lra.
  - destruct (Rlt_dec 0 y), (Rlt_dec 0 (- y)), (Rlt_dec y 0), (Rlt_dec (- y) 0); lra.
Qed.
Lemma angle_bound y x : Rabs (angle y x) <= PI.
Proof.
  pose proof (atan_bound (y / x)) as A. pose proof PI_RGT_0. unfold angle. apply Rabs_le.
  destruct (Rlt_dec 0 x); [lra|]. destruct (Rlt_dec x 0) as [X|X]; [|destruct (Rlt_dec 0 y), (Rlt_dec y 0); lra].
  destruct (Rle_dec 0 y) as [Y|Y].
  - assert (y / x <= 0) by (unfold Rdiv; assert (/ x < 0) by (apply Rinv_lt_0_compat; auto); nra).
    assert (atan (y / x) <= 0) by (destruct (Req_dec (y / x) 0) as [E|E]; [rewrite E, atan_0; lra|rewrite <- atan_0; left; apply atan_increasing; lra]). lra.
  - assert (0 <= y / x) by (unfold Rdiv; assert (/ x < 0) by (apply Rinv_lt_0_compat; auto); nra).
    assert (0 <= atan (y / x)) by (destruct (Req_dec (y / x) 0) as [E|E]; [rewrite E, atan_0; lra|rewrite <- atan_0; left; apply atan_increasing; lra]). lra.
Qed.
Lemma small_1000 x : Rabs x <= 4 -> Rabs x <= B 1000.
Proof. intros H. apply Rle_trans with (B 2); [exact H|apply bpow_le; lia]. Qed.
Lemma trig_1000 t : Rabs (cos t) <= B 1000 /\ Rabs (sin t) <= B 1000.
Proof. split; apply small_1000, Rabs_le; [pose proof (COS_bound t)|pose proof (SIN_bound t)]; lra. Qed.
Lemma angle_1000 y x : Rabs (angle y x) <= B 1000.
Proof. apply small_1000. pose proof (angle_bound y x). pose proof PI_4. lra. Qed.

Lemma ref_symmetric : symmetric_libm libm_ref.
Proof.
  split.
  - intros t t' N. cbn [lcos lsin libm_ref]. rewrite (neg_fin _ _ N), (neg_val _ _ N). destruct (is_finite t).
    + rewrite cos_neg, sin_neg. split; [reflexivity|]. destruct (of_R_spec (sin (fval t))) as [V F]; [apply trig_1000|].
      destruct (of_R_spec (- sin (fval t))) as [V' F']; [rewrite Rabs_Ropp; apply trig_1000|].
      apply fin_neg; auto. rewrite V, V'. apply rnd_opp.
    + split; [reflexivity|]. left. reflexivity.
  - intros y x Z. cbn [latan2 libm_ref]. rewrite fin_opp. destruct (is_finite y) eqn:Fy; [destruct (is_finite x)|].
    + cbn [andb]. rewrite fval_opp, angle_opp.
      * destruct (of_R_spec (angle (fval y) (fval x))) as [V F]; [apply angle_1000|].
        destruct (of_R_spec (- angle (fval y) (fval x))) as [V' F']; [rewrite Rabs_Ropp; apply angle_1000|].
        apply fin_neg; auto. rewrite V, V'. apply rnd_opp.
      * intros E. apply Z, fin_val_zero; auto.
    + left. reflexivity.
    + left. reflexivity.
Qed.
Lemma ref_zero : exact_at_zero libm_ref.
Proof.
  intros t [s ->]. cbn [lcos lsin libm_ref is_finite]. change (fval (B754_zero s)) with 0. rewrite cos_0, sin_0. split.
  - destruct (of_R_spec 1) as [V F]; [apply small_1000; rewrite Rabs_R1; lra|]. destruct (fofZ_spec 1 ltac:(lia)) as [V' F'].
    rewrite (rnd_IZR 1) in V by lia. apply fin_eq; auto; rewrite V; [symmetry; exact V'|lra].
  - destruct (of_R_spec 0) as [V F]; [apply small_1000; rewrite Rabs_R0; lra|]. rewrite rnd_0 in V. apply fin_val_zero; auto.
Qed.
