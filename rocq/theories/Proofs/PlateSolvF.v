(** The binary64 trial grid of the plate-scale search. *)
From Coq Require Import ZArith Reals Bool List Lia Lra Psatz.
From Flocq Require Import Core BinarySingleNaN.
From Verif.Base Require Import Py Arr F64.
From Verif.Model Require Import PlateSolv.
From Verif.Spec Require Import PlateSolvSpec PlateSolvFSpec.
From Verif.Proofs Require Import F64P ShapesFA.
Local Open Scope R_scope.
Local Notation B := (bpow radix2).
Local Notation u := (B (-53)).

Section grid.
Variable G : R.
Hypothesis HG : B (-20) <= G <= B 20.
Lemma G_pos : 0 < G. Proof. pose proof (bpow_gt_0 radix2 (-20)). lra. Qed.
Lemma tiny_G : B (-1075) <= G * u.
Proof. apply Rle_trans with (B (-20) * u); [rewrite <- bpow_plus; apply bpow_le; lia|]. pose proof (bpow_gt_0 radix2 (-53)). nra. Qed.
Lemma rnd_near x c : 0 <= c <= 100 -> Rabs x <= c * G ->
  Rabs (rnd64 x) < B 1024 /\ Rabs (rnd64 x - x) <= (c + 1) * (G * u).
Proof.
  intros Hc H. split.
  - apply (rnd_small x 30); [lia|]. eapply Rle_trans; [exact H|]. apply Rle_trans with (B 10 * B 20); [|rewrite <- bpow_plus; right; reflexivity].
    pose proof G_pos. change (B 10) with 1024. nra.
  - eapply Rle_trans; [apply rnd_err_rel|]. pose proof tiny_G. pose proof (bpow_gt_0 radix2 (-53)). nra.
Qed.
Lemma add_near x y c : 0 <= c <= 100 -> is_finite x = true -> is_finite y = true -> Rabs (fval x + fval y) <= c * G ->
  is_finite (fadd x y) = true /\ Rabs (fval (fadd x y) - (fval x + fval y)) <= (c + 1) * (G * u).
Proof. intros Hc Fx Fy H. destruct (rnd_near _ c Hc H) as [A E]. destruct (fadd_spec x y Fx Fy A) as [V F]. rewrite V. auto. Qed.
Lemma sub_near x y c : 0 <= c <= 100 -> is_finite x = true -> is_finite y = true -> Rabs (fval x - fval y) <= c * G ->
  is_finite (fsub x y) = true /\ Rabs (fval (fsub x y) - (fval x - fval y)) <= (c + 1) * (G * u).
Proof. intros Hc Fx Fy H. destruct (rnd_near _ c Hc H) as [A E]. destruct (fsub_spec x y Fx Fy A) as [V F]. rewrite V. auto. Qed.
Lemma mul_near x y c : 0 <= c <= 100 -> is_finite x = true -> is_finite y = true -> Rabs (fval x * fval y) <= c * G ->
  is_finite (fmul x y) = true /\ Rabs (fval (fmul x y) - (fval x * fval y)) <= (c + 1) * (G * u).
Proof. intros Hc Fx Fy H. destruct (rnd_near _ c Hc H) as [A E]. destruct (fmul_spec x y Fx Fy A) as [V F]. rewrite V. auto. Qed.
Lemma div_near x y c : 0 <= c <= 100 -> is_finite x = true -> fval y <> 0 -> Rabs (fval x / fval y) <= c * G ->
  is_finite (fdiv x y) = true /\ Rabs (fval (fdiv x y) - (fval x / fval y)) <= (c + 1) * (G * u).
Proof. intros Hc Fx Fy H. destruct (rnd_near _ c Hc H) as [A E]. destruct (fdiv_spec x y Fx Fy A) as [V F]. rewrite V. auto. Qed.
Lemma T_small : 0 < G * u /\ G * u <= G * B (-20) * B (-33).
Proof. pose proof G_pos. pose proof (bpow_gt_0 radix2 (-53)). split; [nra|]. rewrite Rmult_assoc, <- bpow_plus. right. reflexivity. Qed.
End grid.

Lemma half_exact n N : is_finite n = true -> fval n = IZR N -> (1 <= N <= 1024)%Z ->
  fval (fdiv n (fofZ 2)) = IZR N / 2 /\ is_finite (fdiv n (fofZ 2)) = true.
Proof.
  intros F V H. destruct (fofZ_spec 2 ltac:(lia)) as [V2 F2].
  assert (E : rnd64 (fval n / fval (fofZ 2)) = IZR N / 2) by (rewrite V, V2; apply rnd_half; lia).
  destruct (fdiv_spec n (fofZ 2) F) as [A C].
  - rewrite V2. lra.
  - rewrite E. apply Rle_lt_trans with (B 10); [|apply bpow_lt; lia]. change (B 10) with 1024.
    assert (1 <= IZR N <= 1024) by (split; apply IZR_le; lia). rewrite Rabs_pos_eq; lra.
  - rewrite A, E. auto.
Qed.


Lemma near_le x y d : Rabs (x - y) <= d -> y - d <= x <= y + d.
Proof. intros H. apply Rabs_le_inv in H. lra. Qed.
Lemma trials_close g w n N : search_settings g w n N ->
  let l := trials_f64 g w n in
  (Z.of_nat (length l) = N \/ Z.of_nat (length l) = N + 1)%Z /\
  forall i x, nth_error l i = Some x ->
    is_finite x = true /\ 0 < fval x /\
    Rabs (fval x - trial_scale (fval g) (fval w) (IZR N) (Z.of_nat i)) <= fval g * IZR (N + 1) * B (-48).
Proof.
  intros (Fg & Fw & Fn & HG & HW & Vn & HN). cbv zeta.
  destruct (half_exact n N Fn Vn HN) as [Vh Fh].
  assert (HK : 1 <= IZR N <= 1024) by (split; apply IZR_le; lia).
  pose proof (G_pos _ HG) as Gp. pose proof (proj1 (T_small _ HG)) as Tp.
  assert (Ts : fval g * u <= fval g * / 9000000000000000).
  { apply Rmult_le_compat_l; [lra|]. change u with (/ 9007199254740992). apply Rinv_le; lra. }
  remember (fval g * u) as T eqn:ET.
  assert (HP : fval g * / 1024 <= fval g * fval w <= fval g * (99 / 100)) by (split; apply Rmult_le_compat_l; lra).
  destruct (mul_near _ HG g w 1 ltac:(lra) Fg Fw) as [Fa Ea]; [rewrite Rabs_pos_eq; nra|]. rewrite <- ET in Ea. apply near_le in Ea.
  unfold trials_f64. set (a := fmul g w) in *. remember (fval g * fval w) as P eqn:EP.
  destruct (sub_near _ HG g a 1 ltac:(lra) Fg Fa) as [Fs Es]; [apply Rabs_le; lra|]. rewrite <- ET in Es. apply near_le in Es.
  set (start := fsub g a) in *.
  destruct (add_near _ HG g a 2 ltac:(lra) Fg Fa) as [Ft Et]; [apply Rabs_le; lra|]. rewrite <- ET in Et. apply near_le in Et.
  set (stop := fadd g a) in *.
  set (h := fdiv n (fofZ 2)) in *.
  remember (2 * P / IZR N) as s eqn:Esv.
  assert (Hs : s * IZR N = 2 * P) by (subst s; field; lra).
  assert (Hs1 : fval g * / 1048576 <= s <= 2 * fval g).
  { split; [|nra]. apply Rmult_le_reg_r with (IZR N); [lra|]. rewrite Hs. nra. }
  assert (Eq : s - 4 * T <= fval a / fval h <= s + 4 * T).
  { rewrite Vh. replace (fval a / (IZR N / 2)) with (s + 2 * (fval a - P) * / IZR N) by (subst s; field; lra).
    assert (Hi : 0 < / IZR N <= 1) by (split; [apply Rinv_0_lt_compat; lra|rewrite <- Rinv_1; apply Rinv_le; lra]). nra. }
  destruct (div_near _ HG a h 3 ltac:(lra) Fa ltac:(rewrite Vh; lra)) as [Fd Ed]; [apply Rabs_le; lra|]. rewrite <- ET in Ed. apply near_le in Ed.
  set (step := fdiv a h) in *.
  assert (Dstep : s - 8 * T <= fval step <= s + 8 * T) by lra.
  destruct (sub_near _ HG stop start 3 ltac:(lra) Ft Fs) as [Fnum Enum]; [apply Rabs_le; lra|]. rewrite <- ET in Enum. apply near_le in Enum.
  set (num := fsub stop start) in *.
  assert (Dnum : 2 * P - 13 * T <= fval num <= 2 * P + 13 * T) by lra.
  destruct (add_near _ HG start step 4 ltac:(lra) Fs Fd) as [F1 E1]; [apply Rabs_le; lra|]. rewrite <- ET in E1. apply near_le in E1.
  set (x1 := fadd start step) in *.
  destruct (sub_near _ HG x1 start 4 ltac:(lra) F1 Fs) as [Fl El]; [apply Rabs_le; lra|]. rewrite <- ET in El. apply near_le in El.
  set (delta := fsub x1 start) in *.
  assert (Ddelta : s - 18 * T <= fval delta <= s + 18 * T) by lra.
  assert (Q : IZR N - / 2 <= fval num / fval step <= IZR N + / 2).
  { assert (0 < fval step) by lra.
    assert (ND : IZR N * s - 8192 * T <= IZR N * fval step <= IZR N * s + 8192 * T).
    { assert (A1 : IZR N * T <= 1024 * T) by (apply Rmult_le_compat_r; lra).
      assert (A2 : IZR N * fval step <= IZR N * (s + 8 * T)) by (apply Rmult_le_compat_l; lra).
      assert (A3 : IZR N * (s - 8 * T) <= IZR N * fval step) by (apply Rmult_le_compat_l; lra). lra. }
    split; apply Rmult_le_reg_r with (fval step); try lra; replace (fval num / fval step * fval step) with (fval num) by (field; lra); lra. }
  assert (QR : IZR N - / 2 <= rnd64 (fval num / fval step) <= IZR N + / 2).
  { assert (HL : rnd64 (IZR N - / 2) = IZR N - / 2).
    { replace (IZR N - / 2) with (IZR (2 * N - 1) / 2) by (rewrite minus_IZR, mult_IZR; lra). apply rnd_half. lia. }
    assert (HU : rnd64 (IZR N + / 2) = IZR N + / 2).
    { replace (IZR N + / 2) with (IZR (2 * N + 1) / 2) by (rewrite plus_IZR, mult_IZR; lra). apply rnd_half. lia. }
    rewrite <- HL at 1. rewrite <- HU. split; apply rnd_mono; lra. }
  destruct (fdiv_spec num step Fnum ltac:(lra)) as [Vq Fq].
  { apply Rle_lt_trans with (B 11); [|apply bpow_lt; lia]. change (B 11) with 2048. apply Rabs_le. lra. }
  set (q := fdiv num step) in *.
  assert (Hc : (Zceil (fval q) = N \/ Zceil (fval q) = N + 1)%Z).
  { rewrite Vq. destruct (Rle_or_lt (rnd64 (fval num / fval step)) (IZR N)).
    - left. apply Zceil_imp. rewrite minus_IZR. lra.
    - right. apply Zceil_imp. rewrite minus_IZR, plus_IZR. lra. }
  split.
  { rewrite map_length, length_zrange; [exact Hc|]. destruct Hc as [-> | ->]; lia. }
  intros i x Hx. rewrite nth_error_map in Hx. unfold zrange in Hx. rewrite nth_error_map in Hx.
  destruct (nth_error (seq 0 (Z.to_nat (Zceil (fval q)))) i) as [j|] eqn:Ej; [|discriminate]. cbn [option_map] in Hx. injection Hx as Hx.
  assert (Hi : (i < Z.to_nat (Zceil (fval q)))%nat) by (rewrite <- (seq_length (Z.to_nat (Zceil (fval q))) 0); apply nth_error_Some; congruence).
  assert (Hj : j = i).
  { apply (nth_error_nth _ _ 0%nat) in Ej. rewrite seq_nth in Ej by exact Hi. lia. }
  subst j. clear Ej. assert (HI : (0 <= Z.of_nat i <= N)%Z) by lia. set (I := Z.of_nat i) in *.
  assert (HI' : 0 <= IZR I <= IZR N) by (split; apply IZR_le; lia).
  assert (Ideal : trial_scale (fval g) (fval w) (IZR N) I = fval g - P + s * IZR I) by (unfold trial_scale; subst s P; field; lra).
  rewrite Ideal.
  assert (Hb : fval g * IZR (N + 1) * B (-48) = 32 * (IZR N + 1) * T).
  { subst T. rewrite plus_IZR. change (-48)%Z with (-53 + 5)%Z. rewrite bpow_plus. change (B 5) with 32. ring. }
  rewrite Hb.
  assert (Main : is_finite x = true /\ Rabs (fval x - (fval g - P + s * IZR I)) <= 32 * (IZR N + 1) * T).
  { destruct (Z.eqb_spec I 0) as [E0|E0]; [|destruct (Z.eqb_spec I 1) as [E1'|E1']].
    - subst x. split; auto. rewrite E0. assert (0 <= IZR N * T) by (apply Rmult_le_pos; lra). apply Rabs_le. lra.
    - subst x. split; auto. rewrite E1'. assert (0 <= IZR N * T) by (apply Rmult_le_pos; lra). apply Rabs_le. lra.
    - destruct (fofZ_spec I ltac:(lia)) as [VI FI].
      assert (Hm : s * IZR I - 18 * IZR N * T <= IZR I * fval delta <= s * IZR I + 18 * IZR N * T).
      { assert (A1 : IZR I * T <= IZR N * T) by (apply Rmult_le_compat_r; lra).
        assert (A2 : IZR I * fval delta <= IZR I * (s + 18 * T)) by (apply Rmult_le_compat_l; lra).
        assert (A3 : IZR I * (s - 18 * T) <= IZR I * fval delta) by (apply Rmult_le_compat_l; lra). lra. }
      assert (HsI : 0 <= s * IZR I <= 2 * P).
      { split; [apply Rmult_le_pos; lra|]. rewrite <- Hs. apply Rmult_le_compat_l; lra. }
      assert (HNT : IZR N * T <= 1024 * T) by (apply Rmult_le_compat_r; lra). assert (0 <= IZR N * T) by (apply Rmult_le_pos; lra).
      destruct (mul_near _ HG (fofZ I) delta 3 ltac:(lra) FI Fl) as [Fm Em]; [rewrite VI; apply Rabs_le; lra|]. rewrite <- ET, VI in Em. apply near_le in Em.
      set (m := fmul (fofZ I) delta) in *.
      destruct (add_near _ HG start m 4 ltac:(lra) Fs Fm) as [Fx Ex]; [apply Rabs_le; lra|]. rewrite <- ET in Ex. apply near_le in Ex.
      subst x. split; auto. apply Rabs_le. lra. }
  destruct Main as [M1 M2]. split; [exact M1|]. split; [|exact M2].
  apply near_le in M2. assert (0 <= s * IZR I) by (apply Rmult_le_pos; lra). assert (IZR N * T <= 1024 * T) by (apply Rmult_le_compat_r; lra). lra.
Qed.
Lemma trials_increase g w n N i j x y : search_settings g w n N -> (i < j)%nat ->
  nth_error (trials_f64 g w n) i = Some x -> nth_error (trials_f64 g w n) j = Some y -> fval x < fval y.
Proof.
  intros HS Hij Hx Hy. destruct (trials_close g w n N HS) as [_ A].
  destruct (A i x Hx) as (_ & _ & X). destruct (A j y Hy) as (_ & _ & Y). apply near_le in X, Y.
  destruct HS as (_ & _ & _ & HG & HW & _ & HN). pose proof (G_pos _ HG) as Gp.
  assert (HK : 1 <= IZR N <= 1024) by (split; apply IZR_le; lia).
  unfold trial_scale in X, Y. rewrite plus_IZR in X, Y.
  set (s := 2 * fval g * fval w / IZR N) in *.
  assert (Hs : fval g * / 524288 <= s).
  { apply Rmult_le_reg_r with (IZR N); [lra|]. replace (s * IZR N) with (2 * (fval g * fval w)) by (unfold s; field; lra).
    assert (fval g * / 1024 <= fval g * fval w) by (apply Rmult_le_compat_l; lra).
    assert (fval g * / 524288 * IZR N <= fval g * / 524288 * 1024) by (apply Rmult_le_compat_l; lra). lra. }
  assert (Hj : s * IZR (Z.of_nat i) + s <= s * IZR (Z.of_nat j)).
  { replace (s * IZR (Z.of_nat i) + s) with (s * IZR (Z.of_nat i + 1)) by (rewrite plus_IZR; ring).
    apply Rmult_le_compat_l; [lra|apply IZR_le; lia]. }
  assert (He : fval g * (IZR N + 1) * B (-48) <= fval g * 1025 * / 250000000000000).
  { apply Rmult_le_compat; try lra.
    - apply Rmult_le_pos; lra.
    - apply bpow_ge_0.
    - apply Rmult_le_compat_l; lra.
    - change (B (-48)) with (/ 281474976710656). apply Rinv_le; lra. }
  lra.
Qed.
(** The shipped half-width and number of trials around a guess of 7/2. *)
Lemma shipped_settings : search_settings (fdiv (fofZ 7) (fofZ 2)) (fdiv (fofZ 1) (fofZ 5)) (fofZ 10) 10.
Proof.
  assert (A : fval (fdiv (fofZ 7) (fofZ 2)) = 7 / 2 /\ is_finite (fdiv (fofZ 7) (fofZ 2)) = true).
  { apply (half_exact (fofZ 7) 7); try apply fofZ_spec; lia. }
  destruct (fofZ_spec 1 ltac:(lia)) as [V1 F1]. destruct (fofZ_spec 5 ltac:(lia)) as [V5 F5].
  destruct (fdiv_spec (fofZ 1) (fofZ 5) F1) as [V F].
  - rewrite V5. lra.
  - rewrite V1, V5. apply (rnd_small (1 / 5) 0); [lia|]. cbn. rewrite Rabs_pos_eq; lra.
  - repeat split; try apply A; try apply fofZ_spec; try lia; try exact F.
    + destruct A as [-> _]. apply Rle_trans with (B 0); [apply bpow_le; lia|cbn; lra].
    + destruct A as [-> _]. apply Rle_trans with (B 2); [cbn; lra|apply bpow_le; lia].
    + rewrite V, V1, V5. pose proof (rnd_err (1 / 5) 0 ltac:(lia) ltac:(cbn; rewrite Rabs_pos_eq; lra)) as E.
      pose proof u_tiny. change (B 0) with 1 in E. apply near_le in E. lra.
    + rewrite V, V1, V5. pose proof (rnd_err (1 / 5) 0 ltac:(lia) ltac:(cbn; rewrite Rabs_pos_eq; lra)) as E.
      pose proof u_tiny. change (B 0) with 1 in E. apply near_le in E. lra.
Qed.
