(** Further lemmas on binary64 arithmetic: exact cases, comparisons, monotonicity, results away from overflow. *)
From Coq Require Import ZArith Reals Bool Lia Lra.
From Flocq Require Import Core BinarySingleNaN Relative.
From Verif.Base Require Import F64.
Local Open Scope R_scope.
Local Notation B := (bpow radix2).

Lemma fle_val (x y : f64) : is_finite x = true -> is_finite y = true -> fle x y = Rle_bool (fval x) (fval y).
Proof. intros Hx Hy. exact (Bleb_correct prec emax x y Hx Hy). Qed.
Lemma flt_val (x y : f64) : is_finite x = true -> is_finite y = true -> flt x y = Rlt_bool (fval x) (fval y).
Proof. intros Hx Hy. exact (Bltb_correct prec emax x y Hx Hy). Qed.
Lemma feq_val (x y : f64) : is_finite x = true -> is_finite y = true -> feq x y = Req_bool (fval x) (fval y).
Proof. intros Hx Hy. exact (Beqb_correct prec emax x y Hx Hy). Qed.

Lemma rnd_mono x y : x <= y -> rnd64 x <= rnd64 y.
Proof. apply round_le; auto with typeclass_instances. Qed.
Lemma rnd_id x : fmt64 x -> rnd64 x = x.
Proof. apply round_generic; auto with typeclass_instances. Qed.
Lemma rnd_opp x : rnd64 (- x) = - rnd64 x.
Proof. apply round_NE_opp. Qed.
Lemma rnd_bpow_le x k : (-1074 <= k)%Z -> Rabs x <= B k -> Rabs (rnd64 x) <= B k.
Proof.
  intros Hk H. assert (F : fmt64 (B k)).
  { apply generic_format_bpow. unfold FLT_exp. lia. }
  apply abs_round_le_generic; auto with typeclass_instances.
Qed.
Lemma rnd_small x k : (-1074 <= k < 1024)%Z -> Rabs x <= B k -> Rabs (rnd64 x) <= B k /\ Rabs (rnd64 x) < B 1024.
Proof.
  intros Hk H. pose proof (rnd_bpow_le x k (proj1 Hk) H) as R. split; auto.
  eapply Rle_lt_trans; [exact R|]. apply bpow_lt. lia.
Qed.
Lemma rnd_0 : rnd64 0 = 0.
Proof. apply round_0; auto with typeclass_instances. Qed.
Lemma rnd_nonneg x : 0 <= x -> 0 <= rnd64 x.
Proof. intros H. rewrite <- rnd_0. apply rnd_mono; auto. Qed.
Lemma rnd_IZR z : (Z.abs z <= 2 ^ 53)%Z -> rnd64 (IZR z) = IZR z.
Proof. intros H. apply rnd_id, fmt_IZR, H. Qed.
Lemma fmt_half z : (Z.abs z < 2 ^ 53)%Z -> fmt64 (IZR z / 2).
Proof.
  intros H. apply generic_format_FLT. exists (Float radix2 z (-1)); cbn [Fnum Fexp].
  - unfold F2R; cbn [Fnum Fexp]. change (B (-1)) with (/ 2). reflexivity.
  - exact H.
  - lia.
Qed.
Lemma rnd_half z : (Z.abs z < 2 ^ 53)%Z -> rnd64 (IZR z / 2) = IZR z / 2.
Proof. intros H. apply rnd_id, fmt_half, H. Qed.

(** Finite and at most 2^k in absolute value. *)
Definition within (k : Z) (x : f64) : Prop := is_finite x = true /\ Rabs (fval x) <= B k.
Lemma within_le k m x : (k <= m)%Z -> within k x -> within m x.
Proof. intros H [F W]. split; auto. eapply Rle_trans; [exact W|]. apply bpow_le, H. Qed.

Lemma fadd_within k x y : (-1074 <= k < 1023)%Z -> within k x -> within k y ->
  fval (fadd x y) = rnd64 (fval x + fval y) /\ within (k + 1) (fadd x y).
Proof.
  intros Hk [Fx Wx] [Fy Wy]. assert (A : Rabs (fval x + fval y) <= B (k + 1)).
  { eapply Rle_trans; [apply Rabs_triang|]. rewrite bpow_plus. change (B 1) with 2. lra. }
  destruct (rnd_small _ (k + 1) ltac:(lia) A) as [R1 R2].
  destruct (fadd_spec x y Fx Fy R2) as [V F]. split; auto. split; auto. rewrite V. exact R1.
Qed.
Lemma fsub_within k x y : (-1074 <= k < 1023)%Z -> within k x -> within k y ->
  fval (fsub x y) = rnd64 (fval x - fval y) /\ within (k + 1) (fsub x y).
Proof.
  intros Hk [Fx Wx] [Fy Wy]. assert (A : Rabs (fval x - fval y) <= B (k + 1)).
  { unfold Rminus. eapply Rle_trans; [apply Rabs_triang|]. rewrite Rabs_Ropp, bpow_plus. change (B 1) with 2. lra. }
  destruct (rnd_small _ (k + 1) ltac:(lia) A) as [R1 R2].
  destruct (fsub_spec x y Fx Fy R2) as [V F]. split; auto. split; auto. rewrite V. exact R1.
Qed.
Lemma fmul_within k m x y : (-1074 <= k + m < 1024)%Z -> within k x -> within m y ->
  fval (fmul x y) = rnd64 (fval x * fval y) /\ within (k + m) (fmul x y).
Proof.
  intros Hk [Fx Wx] [Fy Wy]. assert (A : Rabs (fval x * fval y) <= B (k + m)).
  { rewrite Rabs_mult, bpow_plus. apply Rmult_le_compat; auto; apply Rabs_pos. }
  destruct (rnd_small _ (k + m) ltac:(lia) A) as [R1 R2].
  destruct (fmul_spec x y Fx Fy R2) as [V F]. split; auto. split; auto. rewrite V. exact R1.
Qed.
Lemma fdiv_int_within k x n : (-1074 <= k < 1024)%Z -> within k x -> (1 <= n <= 2 ^ 53)%Z ->
  fval (fdiv x (fofZ n)) = rnd64 (fval x / IZR n) /\ within k (fdiv x (fofZ n)).
Proof.
  intros Hk [Fx Wx] Hn. destruct (fofZ_spec n ltac:(lia)) as [Vn Fn].
  assert (Pn : 1 <= IZR n) by (apply IZR_le; lia).
  assert (A : Rabs (fval x / IZR n) <= B k).
  { unfold Rdiv. rewrite Rabs_mult, (Rabs_right (/ IZR n)) by (apply Rle_ge, Rlt_le, Rinv_0_lt_compat; lra).
    apply Rmult_le_reg_r with (IZR n); [lra|]. rewrite Rmult_assoc, Rinv_l, Rmult_1_r by lra.
    pose proof (bpow_ge_0 radix2 k). nra. }
  destruct (rnd_small _ k Hk A) as [R1 R2].
  destruct (fdiv_spec x (fofZ n) Fx) as [V F]; rewrite ?Vn; auto; [lra|].
  rewrite Vn in V. split; auto. split; auto. rewrite V. exact R1.
Qed.
Lemma fofZ_within k z : (0 <= k <= 53)%Z -> (Z.abs z <= 2 ^ k)%Z -> within k (fofZ z).
Proof.
  intros Hk H. assert (P : (2 ^ k <= 2 ^ 53)%Z) by (apply Z.pow_le_mono_r; lia).
  destruct (fofZ_spec z ltac:(lia)) as [V F]. split; auto. rewrite V, <- abs_IZR.
  rewrite <- (IZR_Zpower radix2) by lia. apply IZR_le. exact H.
Qed.
Lemma fsqrt_within k x : (0 <= k < 512)%Z -> within (2 * k) x -> 0 <= fval x ->
  fval (fsqrt x) = rnd64 (sqrt (fval x)) /\ within k (fsqrt x).
Proof.
  intros Hk [Fx Wx] Px. split; [apply fsqrt_spec|]. split.
  - destruct (Bsqrt_correct prec emax Hprec Hmax mode_NE x) as (_ & F & _). unfold fsqrt. rewrite F.
    destruct x as [s|s| |s m e H]; auto; try discriminate. destruct s; auto. exfalso.
    apply (Rlt_irrefl 0). eapply Rle_lt_trans; [exact Px|]. apply F2R_lt_0. reflexivity.
  - rewrite fsqrt_spec. apply rnd_bpow_le; [lia|]. rewrite Rabs_right by (apply Rle_ge, sqrt_pos).
    rewrite Rabs_right in Wx by lra. rewrite <- (sqrt_Rsqr (B k)) by apply bpow_ge_0.
    apply sqrt_le_1_alt. unfold Rsqr. rewrite <- bpow_plus. replace (k + k)%Z with (2 * k)%Z by lia. exact Wx.
Qed.
