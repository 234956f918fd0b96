(** The offset estimates as functions of the ratio, in double precision. *)
From Coq Require Import ZArith Reals Bool List Lia Lra Psatz.
From Flocq Require Import Core BinarySingleNaN Relative.
From Verif.Base Require Import Py Arr Sums F64.
From Verif.Model Require Import ShapesF FocalFitF.
From Verif.Spec Require Import BrightFSpec FocalFitFSpec.
From Verif.Proofs Require Import F64P F64N ShapesFA BrightFP FocalFitFP FocalFitFQ FocalFitFR.
Import ListNotations.
Local Open Scope R_scope.
Local Notation B := (bpow radix2).

Lemma fdiv_within k n x y : (-1074 <= k - n < 1024)%Z -> within k x -> B n <= fval y ->
  fval (fdiv x y) = rnd64 (fval x / fval y) /\ within (k - n) (fdiv x y).
Proof.
  intros Hk [Fx Wx] Hy. pose proof (bpow_gt_0 radix2 n) as Pn. assert (A : Rabs (fval x / fval y) <= B (k - n)).
  { unfold Rdiv. rewrite Rabs_mult. unfold Zminus. rewrite bpow_plus, bpow_opp. apply Rmult_le_compat; try apply Rabs_pos; auto.
    rewrite Rabs_right by (apply Rle_ge, Rlt_le, Rinv_0_lt_compat; lra). apply Rinv_le_contravar; auto. }
  destruct (rnd_small _ (k - n) Hk A) as [R1 R2]. destruct (fdiv_spec x y Fx) as [V F]; auto; [lra|].
  split; auto. split; auto. rewrite V. exact R1.
Qed.

(** The rounded root of the rounded square is not below the number. *)
Lemma root_of_square c : fmt64 c -> B (-100) <= c <= B 100 -> c <= rnd64 (sqrt (rnd64 (c * c))).
Proof.
  intros Fc Hc. assert (Pc : 0 < c) by (pose proof (bpow_gt_0 radix2 (-100)); lra).
  destruct (mag radix2 c) as [e He]. specialize (He ltac:(lra)). rewrite Rabs_right in He by lra.
  assert (He' : (-100 < e)%Z) by (apply lt_bpow with radix2; lra).
  assert (Me : mag radix2 c = e :> Z) by (apply mag_unique_pos; lra).
  destruct (Req_dec c (B (e - 1))) as [E|E].
  - assert (Sq : c * c = B (e - 1 + (e - 1))) by (rewrite bpow_plus, E; reflexivity).
    rewrite (rnd_id (c * c)) by (rewrite Sq; apply fmt_pow; lia). rewrite sqrt_square by lra. rewrite rnd_id by auto. lra.
  - assert (Ul : ulp radix2 flt_exp c = B (e - 53)).
    { rewrite ulp_neq_0 by lra. unfold cexp. rewrite Me. f_equal. unfold FLT_exp. lia. }
    assert (Pr : pred radix2 flt_exp c = c - B (e - 53)).
    { rewrite pred_eq_pos by lra. unfold pred_pos. rewrite Me. rewrite Req_bool_false by exact E. rewrite Ul. reflexivity. }
    apply round_N_ge_midp; auto with typeclass_instances. rewrite Pr. set (w := B (e - 53)) in *.
    assert (Pw : 0 < w) by apply bpow_gt_0.
    assert (Cu : c <= B e - w).
    { assert (X : c <= pred radix2 flt_exp (B e)) by (apply pred_ge_gt; auto with typeclass_instances; [apply fmt_pow; lia|lra]).
      assert (Y : pred radix2 flt_exp (B e) = B e - w).
      { rewrite pred_bpow. unfold w, FLT_exp. rewrite Z.max_l by lia. reflexivity. }
      lra. }
    assert (Rel : c * c - B (-53) * (c * c) <= rnd64 (c * c)).
    { pose proof (relative_error_N_FLT radix2 (-1074) 53 eq_refl (fun x => negb (Z.even x)) (c * c)) as H.
      assert (N : B (-1074 + 53 - 1) <= Rabs (c * c)).
      { rewrite Rabs_right by nra. apply Rle_trans with (B (-100) * B (-100)); [rewrite <- bpow_plus; apply bpow_le; lia|]. pose proof (bpow_gt_0 radix2 (-100)). nra. }
      specialize (H N). rewrite (Rabs_right (c * c)) in H by nra.
      change (rnd64 (c * c)) with (round radix2 flt_exp (Znearest (fun x => negb (Z.even x))) (c * c)).
      replace (/ 2 * B (- (53) + 1)) with (B (-53)) in H by (change (- (53) + 1)%Z with (1 + -53)%Z; rewrite bpow_plus; change (B 1) with 2; field).
      apply Rabs_le_inv in H. lra. }
    assert (Ew : B (-53) * B e = w) by (unfold w; rewrite <- bpow_plus; f_equal; lia).
    assert (Eh : B (-53) * B (e - 1) = w / 2).
    { unfold w. rewrite <- bpow_plus. replace (-53 + (e - 1))%Z with (e - 53 + -1)%Z by lia. rewrite bpow_plus. change (B (-1)) with (/ 2). field. }
    set (u := B (-53)) in *. assert (Pu : 0 < u) by apply bpow_gt_0. set (z := rnd64 (c * c)) in *.
    assert (Uc : u * c <= w - u * w) by nra. assert (Uc' : w / 2 <= u * c) by nra.
    assert (Lt : ((c + (c - w)) / 2) * ((c + (c - w)) / 2) < z) by nra.
    assert (Cw : w <= c) by (assert (u <= 1) by (change 1 with (B 0); unfold u; apply bpow_le; lia); nra).
    rewrite <- (sqrt_square ((c + (c - w)) / 2)) by lra. apply sqrt_lt_1_alt. split; [nra|exact Lt].
Qed.

(** What an estimator does with a ratio not below one. *)
Record good (G : R -> R) : Prop := Good { good_mono : forall q q', 1 <= q -> q <= q' -> G q <= G q'; good_nonneg : forall q, 1 <= q -> 0 <= G q }.
Definition fold_at (G : R -> R) (r : R) : R := if Rlt_bool r 1 then - G (rnd64 (1 / r)) else G r.
Lemma inv_ge_one r : 0 < r -> r < 1 -> 1 <= rnd64 (1 / r).
Proof.
  intros P H. apply Rle_trans with (rnd64 1); [right; symmetry; exact (rnd_IZR 1 ltac:(lia))|]. apply rnd_mono. apply Rmult_le_reg_r with r; auto. unfold Rdiv. rewrite Rmult_assoc, Rinv_l by lra. lra.
Qed.
Lemma fold_mono G r r' : good G -> 0 < r -> r <= r' -> fold_at G r <= fold_at G r'.
Proof.
  intros [M N] P L. unfold fold_at. destruct (Rlt_bool_spec r 1) as [H|H], (Rlt_bool_spec r' 1) as [H'|H']; try lra.
  - apply Ropp_le_contravar. apply M; [apply inv_ge_one; lra|]. apply rnd_mono. unfold Rdiv. rewrite !Rmult_1_l. apply Rinv_le_contravar; auto.
  - pose proof (N _ (inv_ge_one r P H)). pose proof (N _ H'). lra.
  - apply M; auto.
Qed.
Definition ratio_like (r : f64) : Prop := is_finite r = true /\ B (-460) <= fval r <= B 460.
Definition estimator (E : f64 -> res f64) (G : R -> R) : Prop :=
  good G /\ forall r, ratio_like r -> exists v, E r = Ok v /\ within 800 v /\ fval v = fold_at G (fval r).

Lemma one_val : fval (fofZ 1) = 1 /\ is_finite (fofZ 1) = true. Proof. apply fofZ_spec. lia. Qed.
Lemma folded_ok r : ratio_like r -> fle r fzero = false /\
  exists q s, folded_f r = (q, s) /\ is_finite q = true /\ 1 <= fval q <= B 460 /\
   ((fval r < 1 /\ fval q = rnd64 (1 / fval r) /\ s = fofZ (-1)) \/ (1 <= fval r /\ q = r /\ s = fofZ 1)).
Proof.
  intros [F H]. pose proof (bpow_gt_0 radix2 (-460)) as P. destruct one_val as [V1 F1].
  split; [rewrite fle_val by auto; apply Rle_bool_false; change (fval fzero) with 0; lra|].
  unfold folded_f. rewrite flt_val, V1 by auto. destruct (Rlt_bool_spec (fval r) 1) as [L|L].
  - destruct (fdiv_within 0 (-460) (fofZ 1) r ltac:(lia) (fofZ_within 0 1 ltac:(lia) ltac:(lia)) (proj1 H)) as [V W]. rewrite V1 in V.
    exists (fdiv (fofZ 1) r), (fofZ (-1)). split; auto. split; [apply W|]. split; [|left; auto].
    split; [rewrite V; apply inv_ge_one; lra|]. destruct W as [_ W]. apply Rabs_le_inv in W. change (0 - -460)%Z with 460%Z in W. lra.
  - exists r, (fofZ 1). split; auto. split; auto. split; [lra|]. right. auto.
Qed.
Lemma mul_one x : is_finite x = true -> fval (fmul (fofZ 1) x) = fval x /\ is_finite (fmul (fofZ 1) x) = true.
Proof.
  intros F. destruct one_val as [V1 F1]. destruct (fmul_spec (fofZ 1) x F1 F) as [V W].
  - rewrite V1, Rmult_1_l, rnd_id by apply fval_format. apply fval_bound.
  - rewrite V1, Rmult_1_l, rnd_id in V by apply fval_format. auto.
Qed.
Lemma mul_minus x : is_finite x = true -> fval (fmul (fofZ (-1)) x) = - fval x /\ is_finite (fmul (fofZ (-1)) x) = true.
Proof. intros F. rewrite fmul_comm, neg_one, fval_opp, fin_opp. auto. Qed.

Definition lin_G (c1 q : R) : R := rnd64 (rnd64 (q - 1) / c1).
Lemma lin_good c1 : 0 < c1 -> good (lin_G c1).
Proof.
  intros P. assert (0 < / c1) by (apply Rinv_0_lt_compat, P). split; unfold lin_G.
  - intros q q' Hq L. apply rnd_mono. apply Rmult_le_compat_r; [lra|]. apply rnd_mono. lra.
  - intros q Hq. apply rnd_nonneg. apply Rmult_le_pos; [apply rnd_nonneg; lra|lra].
Qed.
Lemma linear_estimator c1 : ordinary c1 -> estimator (offset_linear_f c1) (lin_G (fval c1)).
Proof.
  intros [Fc Hc]. pose proof (bpow_gt_0 radix2 (-100)) as P. split; [apply lin_good; lra|]. intros r Hr.
  destruct (folded_ok r Hr) as (Pz & q & s & E & Fq & Hq & Cs). unfold offset_linear_f, positive_f. rewrite Pz. cbn [negb guard bind]. rewrite E. cbn [fst snd].
  destruct one_val as [V1 F1]. assert (P460 : 1 <= B 460) by (change 1 with (B 0); apply bpow_le; lia).
  destruct (fsub_within 460 q (fofZ 1) ltac:(lia)) as [V W]; [split; auto; rewrite Rabs_right; lra|apply within_le with 0%Z; [lia|apply fofZ_within; lia]|]. rewrite V1 in V.
  assert (K : forall x, is_finite x = true -> Rabs (fval x) = Rabs (fval (fsub q (fofZ 1))) -> fval (fdiv x c1) = rnd64 (fval x / fval c1) /\ within 800 (fdiv x c1)).
  { intros x Fx Ax. destruct (fdiv_within 461 (-100) x c1 ltac:(lia)) as [V' W']; [split; auto; rewrite Ax; apply W|apply Hc|]. split; auto. apply within_le with (2 := W'). lia. }
  eexists. split; [reflexivity|]. unfold fold_at. destruct Cs as [(L & Vq & ->)|(L & -> & ->)].
  - destruct (mul_minus _ (proj1 W)) as [Vm Fm]. destruct (K _ Fm) as [V' W']; [rewrite Vm; apply Rabs_Ropp|]. split; [exact W'|].
    rewrite V', Vm, V, Rlt_bool_true by auto. unfold lin_G. rewrite Vq. unfold Rdiv at 1. rewrite Ropp_mult_distr_l_reverse. apply rnd_opp.
  - destruct (mul_one _ (proj1 W)) as [Vm Fm]. destruct (K _ Fm) as [V' W']; [rewrite Vm; reflexivity|]. split; [exact W'|].
    rewrite V', Vm, V, Rlt_bool_false by auto. reflexivity.
Qed.

Definition quad_disc (c1 c2 q : R) : R := rnd64 (rnd64 (c1 * c1) - rnd64 (rnd64 (4 * c2) * rnd64 (1 - q))).
Definition quad_G (c1 c2 q : R) : R := rnd64 (rnd64 (- c1 + rnd64 (sqrt (quad_disc c1 c2 q))) / rnd64 (2 * c2)).
Lemma disc_mono c1 c2 q q' : 0 < c2 -> q <= q' -> quad_disc c1 c2 q <= quad_disc c1 c2 q'.
Proof.
  intros P L. unfold quad_disc. apply rnd_mono. apply Rplus_le_compat_l, Ropp_le_contravar, rnd_mono.
  apply Rmult_le_compat_l; [apply rnd_nonneg; lra|]. apply rnd_mono. lra.
Qed.
Lemma disc_one c1 c2 q : 0 < c2 -> 1 <= q -> rnd64 (c1 * c1) <= quad_disc c1 c2 q.
Proof.
  intros P H. apply Rle_trans with (quad_disc c1 c2 1); [|apply disc_mono; lra]. unfold quad_disc. replace (1 - 1) with 0 by ring.
  rewrite rnd_0, Rmult_0_r, rnd_0, Rminus_0_r. right. symmetry. apply rnd_id. apply generic_format_round; auto with typeclass_instances.
Qed.
Lemma two_pos c2 : B (-100) <= c2 -> B (-99) <= rnd64 (2 * c2).
Proof.
  intros H. rewrite <- (rnd_id (B (-99))) by (apply fmt_pow; lia). apply rnd_mono.
  change (-99)%Z with (1 + -100)%Z. rewrite bpow_plus. change (B 1) with 2. lra.
Qed.
Lemma quad_good c1 c2 : fmt64 c1 -> B (-100) <= c1 <= B 100 -> B (-100) <= c2 -> good (quad_G c1 c2).
Proof.
  intros Fc H1 H2. pose proof (bpow_gt_0 radix2 (-100)). pose proof (two_pos c2 H2). pose proof (bpow_gt_0 radix2 (-99)).
  assert (Pi : 0 < / rnd64 (2 * c2)) by (apply Rinv_0_lt_compat; lra). split; unfold quad_G.
  - intros q q' Hq L. apply rnd_mono. apply Rmult_le_compat_r; [lra|]. apply rnd_mono. apply Rplus_le_compat_l, rnd_mono, sqrt_le_1_alt, disc_mono; lra.
  - intros q Hq. apply rnd_nonneg. apply Rmult_le_pos; [apply rnd_nonneg|lra].
    pose proof (root_of_square c1 Fc H1) as Rt. assert (S : rnd64 (sqrt (rnd64 (c1 * c1))) <= rnd64 (sqrt (quad_disc c1 c2 q))).
    { apply rnd_mono, sqrt_le_1_alt, disc_one; lra. }
    lra.
Qed.
Lemma quad_estimator c1 c2 : ordinary c1 -> ordinary c2 -> estimator (offset_quadratic_f c1 c2) (quad_G (fval c1) (fval c2)).
Proof.
  intros [F1 H1] [F2 H2]. pose proof (bpow_gt_0 radix2 (-100)) as P. split; [apply quad_good; auto; [apply fval_format|lra]|]. intros r Hr.
  destruct (folded_ok r Hr) as (Pz & q & s & E & Fq & Hq & Cs). unfold offset_quadratic_f, positive_f. rewrite Pz. cbn [negb guard bind]. rewrite E. cbn [fst snd].
  destruct one_val as [V1 G1]. destruct (fofZ_spec 4 ltac:(lia)) as [V4 _]. destruct (fofZ_spec 2 ltac:(lia)) as [V2 _].
  assert (W1 : within 100 c1) by (split; auto; rewrite Rabs_right; lra). assert (W2 : within 100 c2) by (split; auto; rewrite Rabs_right; lra).
  assert (P460 : 1 <= B 460) by (change 1 with (B 0); apply bpow_le; lia).
  destruct (fsub_within 460 (fofZ 1) q ltac:(lia)) as [Va Wa]; [apply within_le with 0%Z; [lia|apply fofZ_within; lia]|split; auto; rewrite Rabs_right; lra|].
  destruct (fmul_within 2 100 (fofZ 4) c2 ltac:(lia) (fofZ_within 2 4 ltac:(lia) ltac:(lia)) W2) as [Vb Wb].
  destruct (fmul_within (2 + 100) (460 + 1) _ _ ltac:(lia) Wb Wa) as [Vc Wc].
  destruct (fmul_within 100 100 c1 c1 ltac:(lia) W1 W1) as [Vd Wd].
  destruct (fsub_within 563 (fmul c1 c1) _ ltac:(lia) (within_le (100 + 100) 563 _ ltac:(lia) Wd) (within_le (2 + 100 + (460 + 1)) 563 _ ltac:(lia) Wc)) as [Ve We].
  set (disc := fsub (fmul c1 c1) _) in *. assert (Vdisc : fval disc = quad_disc (fval c1) (fval c2) (fval q)).
  { rewrite Ve, Vd, Vc, Vb, Va, V4, V1. reflexivity. }
  assert (N0 : 0 <= fval disc). { rewrite Vdisc. apply Rle_trans with (rnd64 (fval c1 * fval c1)); [apply rnd_nonneg; nra|apply disc_one; lra]. }
  destruct (fsqrt_within 282 disc ltac:(lia) We N0) as [Vs Ws].
  assert (Wo : within 282 (fopp c1)) by (split; [rewrite fin_opp; auto|rewrite fval_opp, Rabs_Ropp; apply Rle_trans with (B 100); [apply W1|apply bpow_le; lia]]).
  destruct (fadd_within 282 (fopp c1) (fsqrt disc) ltac:(lia) Wo Ws) as [Vt Wt]. rewrite fval_opp in Vt.
  destruct (fmul_within 1 100 (fofZ 2) c2 ltac:(lia) (fofZ_within 1 2 ltac:(lia) ltac:(lia)) W2) as [Vu Wu]. rewrite V2 in Vu.
  destruct (fdiv_within (282 + 1) (-99) (fadd (fopp c1) (fsqrt disc)) (fmul (fofZ 2) c2) ltac:(lia) Wt) as [Vv Wv]; [rewrite Vu; apply two_pos; lra|].
  set (v := fdiv _ _) in *. assert (Vval : fval v = quad_G (fval c1) (fval c2) (fval q)). { rewrite Vv, Vt, Vs, Vu, Vdisc. reflexivity. }
  assert (Wv' : within 800 v) by (apply within_le with (2 := Wv); lia).
  eexists. split; [reflexivity|]. unfold fold_at. destruct Cs as [(L & Vq & ->)|(L & -> & ->)].
  - destruct (mul_minus v (proj1 Wv')) as [Vm Fm]. split; [split; [exact Fm|rewrite Vm, Rabs_Ropp; apply Wv']|].
    rewrite Vm, Rlt_bool_true, Vval, Vq by auto. reflexivity.
  - destruct (mul_one v (proj1 Wv')) as [Vm Fm]. split; [split; [exact Fm|rewrite Vm; apply Wv']|].
    rewrite Vm, Rlt_bool_false by auto. exact Vval.
Qed.
