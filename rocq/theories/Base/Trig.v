(** numpy.arctan2 on reals, and the polar form. *)
From Coq Require Import Reals Lra Lia ZArith.
Open Scope R_scope.

(** numpy.arctan2(y, x) for finite real arguments (signed zeros identified with +0). *)
Definition arctan2 (y x : R) : R :=
  if Rlt_dec 0 x then atan (y / x)
  else if Rlt_dec x 0 then
    (if Rle_dec 0 y then atan (y / x) + PI else atan (y / x) - PI)
  else if Rlt_dec 0 y then PI / 2
  else if Rlt_dec y 0 then - (PI / 2)
  else 0.

Lemma atan_neg_arg a : a < 0 -> atan a < 0.
Proof. intros H. rewrite <- atan_0. apply atan_increasing; auto. Qed.
Lemma atan_pos_arg a : 0 < a -> 0 < atan a.
Proof. intros H. rewrite <- atan_0. apply atan_increasing; auto. Qed.

Lemma arctan2_range y x : - PI < arctan2 y x <= PI.
Proof.
  pose proof PI_RGT_0. unfold arctan2.
  pose proof (atan_bound (y / x)) as B.
  destruct (Rlt_dec 0 x); [lra|]. destruct (Rlt_dec x 0).
  - destruct (Rle_dec 0 y) as [Hy|Hy].
    + destruct (Req_dec y 0) as [->|N].
      * replace (0 / x) with 0 by (field; lra). rewrite atan_0. lra.
      * assert (y / x < 0) by (apply Ropp_lt_cancel; rewrite Ropp_0; replace (- (y / x)) with (y * / - x) by (field; lra);
          apply Rmult_lt_0_compat; [lra|apply Rinv_0_lt_compat; lra]).
        pose proof (atan_neg_arg _ H0). lra.
    + assert (0 < y / x).
      { replace (y / x) with ((- y) * / (- x)) by (field; lra).
        apply Rmult_lt_0_compat; [lra|apply Rinv_0_lt_compat; lra]. }
      pose proof (atan_pos_arg _ H0). lra.
  - repeat destruct Rlt_dec; lra.
Qed.

Lemma sqrt_sq_sum_pos x y : x <> 0 \/ y <> 0 -> 0 < x * x + y * y.
Proof. intros [H|H]; pose proof (Rsqr_pos_lt _ H) as K; unfold Rsqr in K;
  pose proof (Rle_0_sqr x) as A; pose proof (Rle_0_sqr y) as B; unfold Rsqr in A, B; lra. Qed.

Lemma cos_atan_pos a : 0 < cos (atan a).
Proof. pose proof (atan_bound a). apply cos_gt_0; lra. Qed.
Lemma cos_atan a : cos (atan a) = / sqrt (1 + a * a).
Proof.
  pose proof (cos_atan_pos a) as P.
  assert (S : sin (atan a) = a * cos (atan a)).
  { pose proof (atan_right_inv a) as T. unfold tan in T.
    rewrite <- T at 2. field. lra. }
  pose proof (sin2_cos2 (atan a)) as Q. unfold Rsqr in Q. rewrite S in Q.
  assert (E : (1 + a * a) * (cos (atan a) * cos (atan a)) = 1) by lra.
  assert (D : 0 < 1 + a * a) by (pose proof (Rle_0_sqr a) as K; unfold Rsqr in K; lra).
  assert (Hs : sqrt (1 + a * a) * cos (atan a) = 1).
  { apply Rsqr_inj; [apply Rmult_le_pos; [apply sqrt_pos|lra]|lra|]. unfold Rsqr.
    transitivity ((sqrt (1 + a * a) * sqrt (1 + a * a)) * (cos (atan a) * cos (atan a))); [ring|].
    rewrite sqrt_sqrt by lra. lra. }
  assert (0 < sqrt (1 + a * a)) by (apply sqrt_lt_R0; auto).
  apply (Rmult_eq_reg_l (sqrt (1 + a * a))); [|lra]. rewrite Hs. field. lra.
Qed.
Lemma sin_atan a : sin (atan a) = a * / sqrt (1 + a * a).
Proof.
  rewrite <- cos_atan. pose proof (atan_right_inv a) as T. unfold tan in T.
  pose proof (cos_atan_pos a). rewrite <- T at 2. field. lra.
Qed.

Lemma rho_scale x y : x <> 0 -> sqrt (x * x + y * y) = Rabs x * sqrt (1 + (y / x) * (y / x)).
Proof.
  intros H. replace (x * x + y * y) with (Rsqr x * (1 + y / x * (y / x))).
  - rewrite sqrt_mult_alt by apply Rle_0_sqr. rewrite sqrt_Rsqr_abs. reflexivity.
  - unfold Rsqr. field. auto.
Qed.

Lemma polar_cos x y : sqrt (x * x + y * y) * cos (arctan2 y x) = x.
Proof.
  unfold arctan2.
  assert (P : 0 < sqrt (1 + y / x * (y / x))).
  { apply sqrt_lt_R0. pose proof (Rle_0_sqr (y / x)) as K. unfold Rsqr in K. lra. }
  destruct (Rlt_dec 0 x).
  - rewrite rho_scale, cos_atan, Rabs_right by lra. field. lra.
  - destruct (Rlt_dec x 0).
    + assert (E : forall t, t = PI \/ t = - PI -> cos (atan (y / x) + t) = - cos (atan (y / x))).
      { intros t [->| ->]; [rewrite neg_cos; auto|].
        replace (atan (y / x) + - PI) with (- (- atan (y / x) + PI)) by ring.
        rewrite cos_neg, neg_cos, cos_neg. auto. }
      destruct Rle_dec; unfold Rminus; rewrite E by auto;
        rewrite rho_scale, cos_atan, Rabs_left by lra; field; lra.
    + replace x with 0 by lra. destruct Rlt_dec; [rewrite cos_PI2; ring|].
      destruct Rlt_dec; [rewrite cos_neg, cos_PI2; ring|].
      replace y with 0 by lra. replace (0 * 0 + 0 * 0) with 0 by ring. rewrite sqrt_0. ring.
Qed.
Lemma polar_sin x y : sqrt (x * x + y * y) * sin (arctan2 y x) = y.
Proof.
  unfold arctan2.
  assert (P : 0 < sqrt (1 + y / x * (y / x))).
  { apply sqrt_lt_R0. pose proof (Rle_0_sqr (y / x)) as K. unfold Rsqr in K. lra. }
  destruct (Rlt_dec 0 x).
  - rewrite rho_scale, sin_atan, Rabs_right by lra. field. lra.
  - destruct (Rlt_dec x 0).
    + assert (E : forall t, t = PI \/ t = - PI -> sin (atan (y / x) + t) = - sin (atan (y / x))).
      { intros t [->| ->]; [rewrite neg_sin; auto|].
        replace (atan (y / x) + - PI) with (- (- atan (y / x) + PI)) by ring.
        rewrite sin_neg, neg_sin, sin_neg. ring. }
      destruct Rle_dec; unfold Rminus; rewrite E by auto;
        rewrite rho_scale, sin_atan, Rabs_left by lra; field; lra.
    + replace x with 0 by lra. replace (0 * 0 + y * y) with (Rsqr y) by (unfold Rsqr; ring).
      rewrite sqrt_Rsqr_abs. destruct Rlt_dec; [rewrite sin_PI2, Rabs_right; lra|].
      destruct Rlt_dec; [rewrite sin_neg, sin_PI2, Rabs_left; lra|].
      replace y with 0 by lra. rewrite sin_0. ring.
Qed.

(** Uniqueness of polar coordinates. *)
Lemma sin_cos_inj a b : - PI < a <= PI -> - PI < b <= PI -> cos a = cos b -> sin a = sin b -> a = b.
Proof.
  intros Ha Hb Hc Hs. pose proof PI_RGT_0.
  assert (C : cos (a - b) = 1).
  { rewrite cos_minus, Hc, Hs. pose proof (sin2_cos2 b) as K. unfold Rsqr in K. lra. }
  assert (S : sin (a - b) = 0).
  { rewrite sin_minus, Hc, Hs. ring. }
  destruct (sin_eq_0_0 _ S) as (k & Hk).
  assert (-2 < IZR k < 2) by (split; apply (Rmult_lt_reg_r PI); lra).
  destruct H0 as [H1 H2]. apply lt_IZR in H1. apply lt_IZR in H2.
  assert (k = -1 \/ k = 0 \/ k = 1)%Z as [->|[->| ->]] by lia.
  - rewrite Hk in C. replace (-1 * PI) with (- PI) in C by ring. rewrite cos_neg, cos_PI in C. lra.
  - lra.
  - rewrite Hk in C. replace (1 * PI) with PI in C by ring. rewrite cos_PI in C. lra.
Qed.
