(** Witnesses for the binary64 sampling computation. *)
From Coq Require Import ZArith Bool String Reals Lia Lra.
From Flocq Require Import Core BinarySingleNaN.
From Verif.Base Require Import Py F64.
From Verif.Model Require Import Math MaskGenF.
From Verif.Spec Require Import MaskGenFSpec.
From Verif.Proofs Require Import F64P MathP PlateSolvEx MaskGenFP.

Definition wave := fdiv (fofZ 575) (fofZ 1000000000).
Definition micron := fdiv (fofZ 1) (fofZ 1000000).
Lemma int_double z : (1 <= z <= 100)%Z -> positive_double (fofZ z) /\ fval (fofZ z) = IZR z.
Proof.
  intros H. destruct (fofZ_spec z ltac:(lia)) as [V F]. split; auto. split; auto. rewrite V. apply IZR_lt. lia.
Qed.
Ltac value x := erewrite (fval_sf x); [|vm_compute; reflexivity]; unfold SF2R, F2R; cbn [Fnum Fexp cond_Zopp];
  match goal with |- context[bpow radix2 (Zneg ?p)] => let v := eval vm_compute in (Z.pow_pos 2 p) in change (bpow radix2 (Zneg p)) with (/ IZR v)%R end.
Lemma wave_bounds : is_finite wave = true /\ (574 / 1000000000 < fval wave < 576 / 1000000000)%R.
Proof. split; [vm_compute; reflexivity|]. value wave. lra. Qed.
Lemma micron_bounds : is_finite micron = true /\ (999 / 1000000000 < fval micron < 1001 / 1000000000)%R.
Proof. split; [vm_compute; reflexivity|]. value micron. lra. Qed.
Lemma coarse_ex p : (1 <= p <= 5)%Z -> coarse_request (fofZ 28) wave micron (fofZ p) wave (fofZ 20) (fofZ 8).
Proof.
  intros Hp. destruct wave_bounds as [Fw Bw]. destruct micron_bounds as [Fm Bm].
  destruct (int_double 28 ltac:(lia)) as [P1 V1]. destruct (int_double p ltac:(lia)) as [P2 V2].
  destruct (int_double 20 ltac:(lia)) as [P3 V3]. destruct (int_double 8 ltac:(lia)) as [P4 V4].
  assert (Hr : (IZR p <= 5)%R) by (apply IZR_le; lia).
  assert (Q : (16 <= fval (fofZ 28) * fval wave / fval micron)%R).
  { rewrite V1. apply Rmult_le_reg_r with (fval micron); [lra|]. field_simplify; lra. }
  unfold coarse_request. rewrite V2, V4.
  split; auto. split; [split; auto; lra|]. split; [split; auto; lra|]. do 2 (split; [first [exact P2 | split; auto; lra]|]).
  do 2 (split; auto). split; [lra|]. split; [lra|].
  replace (IZR p * (fval wave / fval wave))%R with (IZR p) by (field; lra). lra.
Qed.
Lemma upsampling_reported scale :
  hlc_magnification_f (fofZ 28) wave micron (fofZ 5) wave (fofZ 20) (fofZ 8) scale = Err TypeError.
Proof. destruct scale; vm_compute; reflexivity. Qed.
Lemma half_not_near : ~ nearly_integer (7 / 2 * IZR 3).
Proof.
  intros (M & H1 & H2). assert (S : (bpow radix2 (-52) <= / 1000)%R).
  { apply Rle_trans with (bpow radix2 (-10)); [apply bpow_le; lia|]. cbn. lra. }
  pose proof (bpow_gt_0 radix2 (-52)) as P. apply Rabs_le_inv in H2.
  assert (M0 : (0 < IZR M)%R) by (apply IZR_lt; lia).
  assert (K : (bpow radix2 (-52) * IZR M <= / 1000 * IZR M)%R) by (apply Rmult_le_compat_r; lra).
  destruct (Z_le_gt_dec M 10) as [L|L].
  - apply IZR_le in L. lra.
  - assert (L2 : (11 <= IZR M)%R) by (apply IZR_le; lia). lra.
Qed.
Lemma ordinary_int z : (1 <= z <= 100)%Z -> ordinary (fofZ z) /\ fval (fofZ z) = IZR z.
Proof.
  intros H. destruct (fofZ_spec z ltac:(lia)) as [V F]. split; auto. split; auto. rewrite V. split.
  - apply Rle_trans with (bpow radix2 0); [apply bpow_le; lia|]. cbn. apply (IZR_le 1). lia.
  - apply Rle_trans with (bpow radix2 7); [|apply bpow_le; lia]. cbn. apply (IZR_le z 128). lia.
Qed.

(** ** Resolutions too small for a double *)
Local Open Scope R_scope.
Lemma rnd_tiny x : 0 <= x <= bpow radix2 (-1075) -> rnd64 x = 0.
Proof.
  intros H. destruct (Req_dec x 0) as [->|N]; [apply rnd_0|].
  assert (E : cexp radix2 flt_exp x = (-1074)%Z).
  { unfold cexp. assert (mag radix2 x <= -1074)%Z.
    { apply mag_le_bpow; auto. rewrite Rabs_pos_eq by lra. eapply Rle_lt_trans; [apply H|]. apply bpow_lt. lia. }
    unfold FLT_exp. lia. }
  unfold round, F2R. rewrite E. cbn [Fnum Fexp].
  replace (ZnearestE (scaled_mantissa radix2 flt_exp x)) with 0%Z; [ring|].
  unfold scaled_mantissa. rewrite E. change (- (-1074))%Z with 1074%Z.
  assert (B : 0 <= x * bpow radix2 1074 <= / 2).
  { split; [apply Rmult_le_pos; [lra|apply bpow_ge_0]|].
    replace (/ 2) with (bpow radix2 (-1075) * bpow radix2 1074) by (rewrite <- bpow_plus; reflexivity).
    apply Rmult_le_compat_r; [apply bpow_ge_0|apply H]. }
  destruct (Rle_lt_or_eq_dec _ _ (proj2 B)) as [L|E2].
  - symmetry. apply Znearest_imp. rewrite Rminus_0_r, Rabs_pos_eq; lra.
  - rewrite E2. unfold Znearest. rewrite (Zfloor_imp 0) by (split; cbn [IZR]; simpl; lra).
    simpl IZR. rewrite Rcompare_Eq by lra. reflexivity.
Qed.
Lemma fzero_val : fval fzero = 0 /\ is_finite fzero = true.
Proof. split; reflexivity. Qed.
Lemma zero_feq x : is_finite x = true -> fval x = 0 -> feq x fzero = true.
Proof. intros F V. rewrite feq_val by auto. rewrite V, (proj1 fzero_val). apply Req_bool_true. reflexivity. Qed.
Lemma B1024 : 0 < bpow radix2 1024. Proof. apply bpow_gt_0. Qed.
Lemma fmul_zero_l x y : is_finite x = true -> is_finite y = true -> fval x = 0 -> fval (fmul x y) = 0 /\ is_finite (fmul x y) = true.
Proof.
  intros Fx Fy V. pose proof (fmul_spec x y Fx Fy) as H. rewrite V, Rmult_0_l, rnd_0, Rabs_R0 in H. exact (H B1024).
Qed.
Lemma fmul_zero_r x y : is_finite x = true -> is_finite y = true -> fval y = 0 -> fval (fmul x y) = 0 /\ is_finite (fmul x y) = true.
Proof.
  intros Fx Fy V. pose proof (fmul_spec x y Fx Fy) as H. rewrite V, Rmult_0_r, rnd_0, Rabs_R0 in H. exact (H B1024).
Qed.
Lemma vanishing_request FN lam0 dx ppl lam rOcc oversize : positive_double lam0 -> positive_double lam -> positive_double ppl ->
  ordinary rOcc -> ordinary oversize -> fval lam0 / fval lam <= bpow radix2 (-1075) ->
  hlc_magnification_f FN lam0 dx ppl lam rOcc oversize true = Err ZeroDivisionError.
Proof.
  intros [F0 P0] [F1 P1] [Fp Pp] [Fr Br] [Fo Bo] H. unfold hlc_magnification_f.
  assert (Q : 0 <= fval lam0 / fval lam) by (apply Rlt_le, Rdiv_lt_0_compat; auto).
  destruct (fdiv_spec lam0 lam F0 ltac:(lra)) as [V F]. { rewrite rnd_tiny, Rabs_R0 by auto. exact B1024. }
  rewrite rnd_tiny in V by auto.
  destruct (fmul_zero_l _ ppl F Fp V) as [Ve Fe].
  destruct (fofZ_spec 2 ltac:(lia)) as [V2 F2].
  destruct (fmul_spec (fofZ 2) rOcc F2 Fr) as [_ Fd].
  { rewrite V2. apply Rle_lt_trans with (bpow radix2 101); [|apply bpow_lt; lia]. apply rnd_bpow_le; [lia|].
    assert (0 < bpow radix2 (-100)) by apply bpow_gt_0.
    change (bpow radix2 101) with (bpow radix2 (1 + 100)). rewrite bpow_plus. change (bpow radix2 1) with 2. rewrite Rabs_pos_eq; lra. }
  destruct (fmul_zero_r _ _ Fd Fe Ve) as [Va Fa]. destruct (fmul_zero_l _ oversize Fa Fo Va) as [Vb Fb].
  destruct (fceil_spec (fmul (fmul (fmul (fofZ 2) rOcc) (fmul (fdiv lam0 lam) ppl)) oversize)) as [Vc Fc].
  rewrite (int_of_float_IZR _ 0); [| |].
  - cbn [bind]. unfold magnification_f. rewrite (zero_feq _ Fe Ve). reflexivity.
  - rewrite Fc. exact Fb.
  - rewrite Vc, Vb. f_equal. apply Zceil_IZR.
Qed.
Lemma vanishing_design pplStart pplEnd N : is_finite pplStart = true -> fval pplStart = 0 -> positive_double pplEnd ->
  (1 <= N <= 2 ^ 50)%Z -> magnification_f pplStart pplEnd N = Err ZeroDivisionError.
Proof.
  intros Fs Vs [Fe Pe] HN. unfold magnification_f.
  assert (Q : feq pplEnd fzero = false).
  { rewrite feq_val by auto. rewrite (proj1 fzero_val). apply Req_bool_false. lra. }
  rewrite Q. cbn [negb guard bind].
  pose proof (fdiv_spec pplStart pplEnd Fs ltac:(lra)) as D. rewrite Vs in D. unfold Rdiv in D. rewrite Rmult_0_l, rnd_0, Rabs_R0 in D.
  destruct (D B1024) as [Vd Fd]. destruct (fofZ_spec N ltac:(lia)) as [VN FN]. destruct (fmul_zero_l _ _ Fd FN Vd) as [Vm Fm].
  destruct (ffloor_spec (fmul (fdiv pplStart pplEnd) (fofZ N))) as [Vf Ff].
  rewrite (int_of_float_IZR _ 0).
  - cbn [bind]. destruct (N =? 0)%Z eqn:E; [lia|]. cbn [negb guard bind]. rewrite (zero_feq _ Fs Vs). reflexivity.
  - rewrite Ff. exact Fm.
  - rewrite Vf, Vm. f_equal. apply Zfloor_IZR.
Qed.

Definition power_of_two (e : Z) : f64 := binary_normalize prec emax Hprec Hmax mode_NE 1 e false.
Lemma tiny_val : fval (power_of_two (-1000)) = bpow radix2 (-1000) /\ fval (power_of_two 100) = bpow radix2 100.
Proof.
  split; (erewrite fval_sf; [|vm_compute; reflexivity]); unfold SF2R, F2R; cbn [Fnum Fexp cond_Zopp];
    change 4503599627370496%Z with (2 ^ 52)%Z; change 2%Z with (radix_val radix2); rewrite IZR_Zpower by lia; rewrite <- bpow_plus; reflexivity.
Qed.
Lemma vanishing_ex : positive_double (power_of_two (-1000)) /\ positive_double (power_of_two 100) /\ positive_double (fofZ 5) /\ ordinary (fofZ 20) /\ ordinary (fofZ 8) /\ fval (power_of_two (-1000)) / fval (power_of_two 100) <= bpow radix2 (-1075).
Proof.
  destruct tiny_val as [A B]. split; [split; [vm_compute; reflexivity|rewrite A; apply bpow_gt_0]|].
  split; [split; [vm_compute; reflexivity|rewrite B; apply bpow_gt_0]|]. split; [apply int_double; lia|].
  split; [apply ordinary_int; lia|]. split; [apply ordinary_int; lia|].
  rewrite A, B. unfold Rdiv. rewrite <- bpow_opp, <- bpow_plus. apply bpow_le. lia.
Qed.
