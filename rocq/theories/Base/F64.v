(** IEEE-754 binary64 arithmetic (round to nearest even) from Flocq, one NaN. *)
From Coq Require Import ZArith Reals Bool Lia Lra.
From Flocq Require Import Core BinarySingleNaN.
Open Scope Z_scope.

Definition prec := 53%Z.
Definition emax := 1024%Z.
#[global] Instance Hprec : Prec_gt_0 prec. Proof. reflexivity. Qed.
#[global] Instance Hmax : Prec_lt_emax prec emax. Proof. reflexivity. Qed.

Definition f64 := binary_float prec emax.
Definition fmul (x y : f64) : f64 := Bmult mode_NE x y.
Definition fadd (x y : f64) : f64 := Bplus mode_NE x y.
Definition fsub (x y : f64) : f64 := Bminus mode_NE x y.
Definition fdiv (x y : f64) : f64 := Bdiv mode_NE x y.
Definition fsqrt (x : f64) : f64 := Bsqrt mode_NE x.
Definition fopp (x : f64) : f64 := Bopp x.
(** Conversion of an integer to the nearest double. *)
Definition fofZ (z : Z) : f64 := binary_normalize prec emax Hprec Hmax mode_NE z 0 false.
Definition fnan : f64 := B754_nan.
Definition fzero : f64 := B754_zero false.
(** Python comparisons: false as soon as an operand is NaN. *)
Definition flt (x y : f64) : bool := Bltb x y.
Definition fle (x y : f64) : bool := Bleb x y.
Definition feq (x y : f64) : bool := Beqb x y.
Definition fisnan (x : f64) : bool := is_nan x.
Definition fval (x : f64) : R := B2R x.

(** ** Lemmas *)
Notation flt_exp := (FLT_exp (-1074) 53).
Notation rnd64 := (round radix2 flt_exp ZnearestE).
Notation fmt64 := (generic_format radix2 flt_exp).

Lemma fval_format (x : f64) : fmt64 (fval x).
Proof. exact (generic_format_B2R prec emax x). Qed.
Lemma fval_bound (x : f64) : (Rabs (fval x) < bpow radix2 1024)%R.
Proof. exact (abs_B2R_lt_emax prec emax x). Qed.

Section Ops.
Local Open Scope R_scope.
Lemma fmul_spec (x y : f64) : is_finite x = true -> is_finite y = true ->
  Rabs (rnd64 (fval x * fval y)) < bpow radix2 1024 ->
  fval (fmul x y) = rnd64 (fval x * fval y) /\ is_finite (fmul x y) = true.
Proof.
  intros Hx Hy H. pose proof (Bmult_correct prec emax Hprec Hmax mode_NE x y) as C.
  change (round radix2 (SpecFloat.fexp prec emax) (round_mode mode_NE) (B2R x * B2R y))
    with (rnd64 (fval x * fval y)) in C.
  rewrite Rlt_bool_true in C by exact H. destruct C as (C1 & C2 & _).
  split; [exact C1|]. unfold fmul. rewrite C2, Hx, Hy. reflexivity.
Qed.
Lemma fadd_spec (x y : f64) : is_finite x = true -> is_finite y = true ->
  Rabs (rnd64 (fval x + fval y)) < bpow radix2 1024 ->
  fval (fadd x y) = rnd64 (fval x + fval y) /\ is_finite (fadd x y) = true.
Proof.
  intros Hx Hy H. pose proof (Bplus_correct prec emax Hprec Hmax mode_NE x y Hx Hy) as C.
  change (round radix2 (SpecFloat.fexp prec emax) (round_mode mode_NE) (B2R x + B2R y))
    with (rnd64 (fval x + fval y)) in C.
  rewrite Rlt_bool_true in C by exact H. destruct C as (C1 & C2 & _). auto.
Qed.
Lemma fsub_spec (x y : f64) : is_finite x = true -> is_finite y = true ->
  Rabs (rnd64 (fval x - fval y)) < bpow radix2 1024 ->
  fval (fsub x y) = rnd64 (fval x - fval y) /\ is_finite (fsub x y) = true.
Proof.
  intros Hx Hy H. pose proof (Bminus_correct prec emax Hprec Hmax mode_NE x y Hx Hy) as C.
  change (round radix2 (SpecFloat.fexp prec emax) (round_mode mode_NE) (B2R x - B2R y))
    with (rnd64 (fval x - fval y)) in C.
  rewrite Rlt_bool_true in C by exact H. destruct C as (C1 & C2 & _). auto.
Qed.
Lemma fdiv_spec (x y : f64) : is_finite x = true -> fval y <> 0 ->
  Rabs (rnd64 (fval x / fval y)) < bpow radix2 1024 ->
  fval (fdiv x y) = rnd64 (fval x / fval y) /\ is_finite (fdiv x y) = true.
Proof.
  intros Hx Hy H. pose proof (Bdiv_correct prec emax Hprec Hmax mode_NE x y Hy) as C.
  change (round radix2 (SpecFloat.fexp prec emax) (round_mode mode_NE) (B2R x / B2R y))
    with (rnd64 (fval x / fval y)) in C.
  rewrite Rlt_bool_true in C by exact H. destruct C as (C1 & C2 & _).
  split; [exact C1|]. unfold fdiv. rewrite C2. exact Hx.
Qed.
Lemma fsqrt_spec (x : f64) : fval (fsqrt x) = rnd64 (sqrt (fval x)).
Proof. exact (proj1 (Bsqrt_correct prec emax Hprec Hmax mode_NE x)). Qed.

Lemma fmt_IZR z : (Z.abs z <= 2 ^ 53)%Z -> fmt64 (IZR z).
Proof.
  intros H. apply generic_format_FLT.
  destruct (Z.eq_dec (Z.abs z) (2 ^ 53)) as [E|E].
  - exists (Float radix2 (Z.sgn z * 2 ^ 52) 1); cbn [Fnum Fexp].
    + unfold F2R; cbn [Fnum Fexp]. change (bpow radix2 1) with (IZR 2). rewrite <- mult_IZR. f_equal.
      assert (z = Z.sgn z * Z.abs z)%Z by (destruct z; cbn; lia). rewrite E in H0. lia.
    + rewrite Z.abs_mul. change (Z.abs (2 ^ 52)) with (2 ^ 52)%Z. change (radix2 ^ 53)%Z with (2 ^ 53)%Z.
      assert (Z.abs (Z.sgn z) <= 1)%Z by (destruct z; cbn; lia). lia.
    + lia.
  - exists (Float radix2 z 0); cbn [Fnum Fexp].
    + unfold F2R; cbn [Fnum Fexp]. cbn. ring.
    + change (radix2 ^ 53)%Z with (2 ^ 53)%Z. lia.
    + lia.
Qed.
Lemma fofZ_spec z : (Z.abs z <= 2 ^ 53)%Z -> fval (fofZ z) = IZR z /\ is_finite (fofZ z) = true.
Proof.
  intros H. pose proof (binary_normalize_correct prec emax Hprec Hmax mode_NE z 0 false) as C.
  assert (E : F2R (Float radix2 z 0) = IZR z) by (unfold F2R; cbn; ring).
  rewrite E in C. cbn [round_mode] in C.
  change (SpecFloat.fexp prec emax) with flt_exp in C.
  rewrite round_generic in C; [|apply valid_rnd_N|apply fmt_IZR; auto].
  rewrite Rlt_bool_true in C.
  - destruct C as (C1 & C2 & _). auto.
  - rewrite <- abs_IZR. apply Rle_lt_trans with (IZR (2 ^ 53)); [apply IZR_le; auto|].
    change 2%Z with (radix_val radix2). rewrite IZR_Zpower by lia. apply bpow_lt. reflexivity.
Qed.
End Ops.
