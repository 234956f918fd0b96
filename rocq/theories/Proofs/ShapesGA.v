(** Accuracy of the binary64 rectangle. *)
From Coq Require Import ZArith Reals Bool Lia Lra Psatz.
From Flocq Require Import Core BinarySingleNaN.
From Verif.Base Require Import Py Arr Sums F64.
From Verif.Model Require Import ShapesF ShapesG.
From Verif.Spec Require Import ShapesSpec ShapesFSpec ShapesGSpec ShapesASpec.
From Verif.Proofs Require Import F64P F64N ShapesFP ShapesFQ ShapesFA ShapesGP PiP.
Local Open Scope R_scope.
Local Notation B := (bpow radix2).
Local Notation u := (B (-53)).

(** ** Angles *)
Lemma mult_err a b a' b' da db A D : Rabs (a' - a) <= da -> Rabs (b' - b) <= db -> Rabs a <= A -> Rabs b' <= D ->
  Rabs (a' * b' - a * b) <= da * D + A * db.
Proof.
  intros H1 H2 H3 H4. replace (a' * b' - a * b) with ((a' - a) * b' + a * (b' - b)) by ring.
  eapply Rle_trans; [apply Rabs_triang|]. rewrite !Rabs_mult.
  apply Rplus_le_compat; apply Rmult_le_compat; auto using Rabs_pos.
Qed.
Lemma pi_bounds : 3 <= PI <= 32 / 10.
Proof.
  destruct fpi_near as [N _]. rewrite fpi_val in N. pose proof u_tiny as U.
  assert (E52 : B (-52) = 2 * u) by (change (-52)%Z with (-53 + 1)%Z; rewrite bpow_plus; change (B 1) with 2; ring).
  rewrite E52 in N. apply Rabs_le_inv in N. rewrite (pow_IZR 2 51) in N. change (2 ^ Z.of_nat 51)%Z with 2251799813685248%Z in N. lra.
Qed.
Definition rad_f (rot : f64) : f64 := fdiv (fmul rot fpi) (fofZ 180).
Lemma rad_err rot : within 10 rot -> within 5 (rad_f rot) /\ Rabs (fval (rad_f rot) - deg (fval rot)) <= 67 * u /\ Rabs (deg (fval rot)) <= 20.
Proof.
  intros [F H]. pose proof u_tiny as U. pose proof pi_bounds as P. destruct fpi_near as [N Fp].
  assert (E52 : B (-52) = 2 * u) by (change (-52)%Z with (-53 + 1)%Z; rewrite bpow_plus; change (B 1) with 2; ring).
  rewrite E52 in N. assert (Wp : within 2 fpi).
  { split; auto. apply Rabs_le_inv in N. apply Rabs_le. change (B 2) with 4. lra. }
  destruct (fmul_within 10 2 rot fpi ltac:(lia) (conj F H) Wp) as [V W].
  change (B 10) with 1024 in H.
  assert (Q : Rabs (fval rot * fval fpi - fval rot * PI) <= 2048 * u).
  { replace (fval rot * fval fpi - fval rot * PI) with (fval rot * (fval fpi - PI)) by ring. rewrite Rabs_mult.
    apply Rle_trans with (1024 * (2 * u)); [|lra]. apply Rmult_le_compat; auto using Rabs_pos. }
  assert (Q2 : Rabs (fval rot * PI) <= 32768 / 10).
  { rewrite Rabs_mult, (Rabs_right PI) by lra. apply Rle_trans with (1024 * (32 / 10)); [|lra].
    apply Rmult_le_compat; auto using Rabs_pos; lra. }
  assert (Q3 : Rabs (fval rot * fval fpi) <= B 12).
  { apply Rabs_le_inv in Q, Q2. apply Rabs_le. change (B 12) with 4096. lra. }
  pose proof (rnd_err _ 12 ltac:(lia) Q3) as R1. change (B 12) with 4096 in R1. rewrite <- V in R1.
  destruct (fdiv_int_within 12 _ 180 ltac:(lia) W ltac:(lia)) as [V2 [F2 _]]. fold (rad_f rot) in V2, F2.
  unfold deg. set (a := fval (fmul rot fpi)) in *. set (b := fval rot * PI) in *.
  assert (AB : Rabs (a - b) <= 6144 * u) by (apply Rabs_le_inv in R1, Q; apply Rabs_le; lra).
  assert (A5 : Rabs (a / 180) <= B 5).
  { apply Rabs_le_inv in AB, Q2. apply Rabs_le. change (B 5) with 32. lra. }
  pose proof (rnd_err _ 5 ltac:(lia) A5) as R2. pose proof (rnd_bpow_le _ 5 ltac:(lia) A5) as R3. rewrite <- V2 in R2, R3.
  change (B 5) with 32 in R2. split; [split; auto|].
  apply Rabs_le_inv in R2, AB, Q2. split; apply Rabs_le; lra.
Qed.
Lemma cos_lip a b : Rabs (cos a - cos b) <= Rabs (a - b).
Proof.
  rewrite form2. rewrite !Rabs_mult. replace (Rabs (-2)) with 2 by (rewrite Rabs_left; lra).
  assert (S : forall t, Rabs (sin t) <= 1) by (intros t; apply Rabs_le; pose proof (SIN_bound t); lra).
  assert (L : Rabs (sin ((a - b) / 2)) <= Rabs ((a - b) / 2)).
  { set (t := (a - b) / 2). destruct (Rle_or_lt 0 t) as [T|T].
    - rewrite (Rabs_right t) by lra. destruct (Req_dec t 0) as [->|NZ]; [rewrite sin_0, Rabs_R0; lra|].
      destruct (Rle_or_lt t 1) as [T1|T1].
      + assert (0 < sin t) by (apply sin_gt_0; pose proof PI_RGT_0; pose proof pi_bounds; lra). rewrite Rabs_right by lra. apply Rlt_le, sin_lt_x. lra.
      + pose proof (S t). lra.
    - rewrite (Rabs_left t) by lra. rewrite <- (Rabs_Ropp (sin t)), <- sin_neg.
      destruct (Rle_or_lt (- t) 1) as [T1|T1].
      + assert (0 < sin (- t)) by (apply sin_gt_0; pose proof pi_bounds; lra). rewrite Rabs_right by lra. apply Rlt_le, sin_lt_x. lra.
      + pose proof (S (- t)). lra. }
  unfold Rdiv in L at 2. rewrite Rabs_mult, (Rabs_right (/ 2)) in L by lra.
  pose proof (S ((a + b) / 2)). pose proof (Rabs_pos (sin ((a - b) / 2))). pose proof (Rabs_pos (sin ((a + b) / 2))). pose proof (Rabs_pos (a - b)). nra.
Qed.
Lemma sin_lip a b : Rabs (sin a - sin b) <= Rabs (a - b).
Proof.
  rewrite <- (cos_shift a), <- (cos_shift b). eapply Rle_trans; [apply cos_lip|]. right.
  replace (PI / 2 - a - (PI / 2 - b)) with (b - a) by ring. apply Rabs_minus_sym.
Qed.

(** ** Rotated coordinates *)
Section Turn.
Variables (M : libm) (w : R) (k : Z) (rot : f64).
Hypothesis (HM : accurate_libm M) (Ew : w = B k) (Hk : (0 <= k <= 36)%Z) (Wr : within 10 rot).
Let t := deg (fval rot).
Lemma w1 : 1 <= w.
Proof. rewrite Ew. change 1 with (B 0). apply bpow_le. lia. Qed.
Lemma turn_err x y : is_finite x = true -> is_finite y = true -> Rabs (fval x) <= 4 * w -> Rabs (fval y) <= 4 * w ->
  (is_finite (rect_u_f M (rad_f rot) x y) = true /\
   Rabs (fval (rect_u_f M (rad_f rot) x y) - (fval x * cos t + fval y * sin t)) <= 720 * w * u) /\
  (is_finite (rect_v_f M (rad_f rot) x y) = true /\
   Rabs (fval (rect_v_f M (rad_f rot) x y) - (fval y * cos t - fval x * sin t)) <= 720 * w * u).
Proof.
  intros Fx Fy Hx Hy. pose proof u_tiny as U. pose proof w1 as W1. pose proof pi_bounds as PB. destruct HM as [MC MA].
  destruct (MA y x Fy Fx) as (a & (Pa & Px & Py) & Fa & Na). fold (hyp (fval x) (fval y)) in Px, Py.
  destruct (rad_err rot Wr) as ((Fr & Br) & Er & Dr). fold t in Er, Dr.
  assert (E51 : B (-51) = 4 * u) by (change (-51)%Z with (-53 + 2)%Z; rewrite bpow_plus; change (B 2) with 4; ring).
  assert (E52 : B (-52) = 2 * u) by (change (-52)%Z with (-53 + 1)%Z; rewrite bpow_plus; change (B 1) with 2; ring).
  rewrite E51 in Na. set (th := latan2 M y x) in *. set (r := rad_f rot) in *.
  assert (Wt : within 5 th).
  { split; auto. apply Rabs_le_inv in Na, Pa. apply Rabs_le. change (B 5) with 32. lra. }
  destruct (fsub_within 5 th r ltac:(lia) Wt (conj Fr Br)) as [Vs [Fs _]].
  assert (A5 : Rabs (fval th - fval r) <= B 5).
  { apply Rabs_le_inv in Na, Pa, Er, Dr. apply Rabs_le. change (B 5) with 32. lra. }
  pose proof (rnd_err _ 5 ltac:(lia) A5) as R1. pose proof (rnd_bpow_le _ 5 ltac:(lia) A5) as R2. rewrite <- Vs in R1, R2.
  change (B 5) with 32 in R1. set (d := fsub th r) in *.
  assert (Ed : Rabs (fval d - (a - t)) <= 103 * u) by (apply Rabs_le_inv in R1, Na, Er; apply Rabs_le; lra).
  destruct (MC d (conj Fs R2)) as [[Fc Nc] [Fn Nn]]. rewrite E52 in Nc, Nn.
  assert (Ec : Rabs (fval (lcos M d) - cos (a - t)) <= 105 * u).
  { pose proof (cos_lip (fval d) (a - t)) as L. apply Rabs_le_inv in Nc. pose proof (Rle_trans _ _ _ L Ed) as L2. apply Rabs_le_inv in L2. apply Rabs_le. lra. }
  assert (En : Rabs (fval (lsin M d) - sin (a - t)) <= 105 * u).
  { pose proof (sin_lip (fval d) (a - t)) as L. apply Rabs_le_inv in Nn. pose proof (Rle_trans _ _ _ L Ed) as L2. apply Rabs_le_inv in L2. apply Rabs_le. lra. }
  assert (W403 : forall z, is_finite z = true -> Rabs (fval z) <= 4 * w -> within 403 z).
  { intros z Fz Hz. split; auto. eapply Rle_trans; [exact Hz|]. rewrite Ew. change 4 with (B 2). rewrite <- bpow_plus. apply bpow_le. lia. }
  destruct (rho_val x y (W403 x Fx Hx) (W403 y Fy Hy)) as [Vr [Frho _]].
  assert (K40 : exists k, (0 <= k <= 40)%Z /\ w = B k) by (exists k; split; [lia|exact Ew]).
  pose proof (dist_err (fval x) (fval y) w W1 K40 Hx Hy) as De. rewrite <- Vr in De.
  assert (H6 : 0 <= hyp (fval x) (fval y) <= 6 * w).
  { split; [apply hyp_nonneg|]. unfold hyp. rewrite <- (sqrt_Rsqr (6 * w)) by lra. apply sqrt_le_1_alt. unfold Rsqr.
    rewrite <- (pow2_abs (fval x)), <- (pow2_abs (fval y)). pose proof (pow_incr (Rabs (fval x)) (4 * w) 2 (conj (Rabs_pos _) Hx)).
    pose proof (pow_incr (Rabs (fval y)) (4 * w) 2 (conj (Rabs_pos _) Hy)). nra. }
  set (rho := rho_f x y) in *. set (h := hyp (fval x) (fval y)) in *.
  assert (T16 : B (k + 4) = 16 * w) by (rewrite bpow_plus, <- Ew; change (B 4) with 16; ring).
  assert (S1 : forall c, Rabs (fval c - 0) <= 1 + 105 * u -> Rabs (fval c) <= 2) by (intros c H; rewrite Rminus_0_r in H; lra).
  assert (KK : forall c C, is_finite c = true -> Rabs C <= 1 -> Rabs (fval c - C) <= 105 * u ->
     is_finite (fmul rho c) = true /\ Rabs (fval (fmul rho c) - h * C) <= 712 * w * u).
  { intros c C Fc' HC Hc.
    assert (C2 : Rabs (fval c) <= 2) by (apply Rabs_le_inv in HC, Hc; apply Rabs_le; lra).
    pose proof (mult_err h C (fval rho) (fval c) _ _ (6 * w) 2 De Hc ltac:(rewrite Rabs_right; lra) C2) as ME.
    assert (UW : 0 <= w * u <= w / 1000000) by (split; [apply Rmult_le_pos; lra|unfold Rdiv; apply Rmult_le_compat_l; lra]).
    assert (HB : Rabs (h * C) <= 6 * w).
    { rewrite Rabs_mult, (Rabs_right h) by lra. pose proof (Rabs_pos C). nra. }
    assert (A : Rabs (fval rho * fval c) <= B (k + 4)).
    { rewrite T16. apply Rabs_le_inv in ME, HB. apply Rabs_le. split; nra. }
    pose proof (rnd_err _ (k + 4) ltac:(lia) A) as R3. rewrite T16 in R3.
    assert (Wrho : within (k + 3) rho).
    { split; auto. replace (B (k + 3)) with (8 * w) by (rewrite bpow_plus, <- Ew; change (B 3) with 8; ring).
      apply Rabs_le_inv in De. apply Rabs_le. nra. }
    destruct (fmul_within (k + 3) 1 rho c ltac:(lia) Wrho (conj Fc' C2)) as [Vm [Fm _]].
    split; auto. rewrite Vm. apply Rabs_le_inv in ME, R3. apply Rabs_le. nra. }
  split.
  - destruct (KK (lcos M d) (cos (a - t)) Fc ltac:(apply Rabs_le; pose proof (COS_bound (a - t)); lra) Ec) as [F E]. split; [exact F|].
    replace (fval x * cos t + fval y * sin t) with (h * cos (a - t)) by (rewrite cos_minus; rewrite Px, Py at 1; ring).
    unfold rect_u_f. fold th r d rho. apply Rabs_le_inv in E. apply Rabs_le. nra.
  - destruct (KK (lsin M d) (sin (a - t)) Fn ltac:(apply Rabs_le; pose proof (SIN_bound (a - t)); lra) En) as [F E]. split; [exact F|].
    replace (fval y * cos t - fval x * sin t) with (h * sin (a - t)) by (rewrite sin_minus; rewrite Px, Py at 1; ring).
    unfold rect_v_f. fold th r d rho. apply Rabs_le_inv in E. apply Rabs_le. nra.
Qed.
End Turn.

(** ** One pixel *)
Lemma edge_rounded one zero inside upf ns x y (ins rim : Z -> Z -> bool) : (1 <= ns <= 2 ^ 26)%Z ->
  (forall p q, (0 <= p < ns)%Z -> (0 <= q < ns)%Z -> rim p q = false -> inside (fadd (upf q) x) (fadd (upf p) y) = ins p q) ->
  (zero x y = true -> forall p q, (0 <= p < ns)%Z -> (0 <= q < ns)%Z -> ins p q = false) ->
  (one x y = true -> forall p q, (0 <= p < ns)%Z -> (0 <= q < ns)%Z -> ins p q = true) ->
  exists v, fval (edge_f one zero inside upf ns x y) = rnd64 v /\ is_finite (edge_f one zero inside upf ns x y) = true /\
    0 <= v <= 1 /\ Rabs (v - frac ns ins) <= frac ns rim.
Proof.
  intros Hn HI H0 H1. pose proof (ns_pos ns Hn) as P.
  assert (Z0 : frac ns (fun _ _ => false) = 0) by (unfold frac; rewrite rsum2_zero; unfold Rdiv; ring).
  assert (Z1 : frac ns (fun _ _ => true) = 1).
  { unfold frac. rewrite rsum2_const by lia. field. pose proof (IZR_lt 0 ns ltac:(lia)). lra. }
  assert (G : forall c : bool, (forall p q, (0 <= p < ns)%Z -> (0 <= q < ns)%Z -> ins p q = c) -> Rabs (frac ns (fun _ _ => c) - frac ns ins) <= frac ns rim).
  { intros c H. apply frac_diff; auto. intros p q Hp Hq _. symmetry. auto. }
  unfold edge_f. destruct (zero x y).
  - exists 0. rewrite rnd_0. split; [reflexivity|]. split; [reflexivity|]. split; [lra|]. rewrite <- Z0 at 1. apply (G false). auto.
  - destruct (one x y).
    + destruct (fofZ_spec 1 ltac:(lia)) as [V F]. exists 1. rewrite (rnd_IZR 1) by lia. split; [exact V|]. split; [exact F|]. split; [lra|].
      rewrite <- Z1 at 1. apply (G true). auto.
    + rewrite gray_count. set (c := fun p q => inside (fadd (upf q) x) (fadd (upf p) y)).
      pose proof (zcount_range c ns ltac:(lia)) as C. destruct (frac_val _ ns Hn C) as [V F].
      exists (frac ns c). split; [|split; [exact F|split]].
      * rewrite V. f_equal. unfold frac. rewrite zcount_R, mult_IZR. reflexivity.
      * unfold frac. rewrite <- zcount_R. destruct C as [C1 C2].
        apply IZR_le in C1, C2. rewrite mult_IZR in C2. split.
        -- apply Rmult_le_pos; auto. apply Rlt_le, Rinv_0_lt_compat, P.
        -- apply Rmult_le_reg_r with (IZR ns * IZR ns); auto. unfold Rdiv. rewrite Rmult_assoc, Rinv_l by lra. lra.
      * apply frac_diff; auto.
Qed.
Lemma dark_rounded (isDark : bool) e v fi ft : fval e = rnd64 v -> is_finite e = true -> 0 <= v <= 1 -> Rabs (v - fi) <= ft ->
  Rabs (fval (dark_f isDark e) - (if isDark then 1 - fi else fi)) <= ft + B (-52) /\
  (ft = 0 -> fval (dark_f isDark e) = if isDark then rnd64 (1 - rnd64 fi) else rnd64 fi).
Proof.
  intros V F I H.
  assert (E52 : B (-52) = 2 * u) by (change (-52)%Z with (-53 + 1)%Z; rewrite bpow_plus; change (B 1) with 2; ring).
  assert (Av : Rabs v <= B 0) by (rewrite Rabs_right by lra; cbn; lra).
  pose proof (rnd_err v 0 ltac:(lia) Av) as R1. change (B 0) with 1 in R1. rewrite Rmult_1_l in R1.
  pose proof u_tiny as U. rewrite E52.
  assert (Z : ft = 0 -> v = fi). { intros Q. rewrite Q in H. apply Rabs_le_inv in H. lra. }
  pose proof (rnd_unit (1 - v) ltac:(lra)) as I'. replace (1 - (1 - v)) with v in I' by ring. rewrite <- V in I'.
  destruct isDark; cbn [dark_f].
  - destruct (dark_val _ F I') as [Vd _]. rewrite V in Vd, I'.
    assert (A1 : Rabs (1 - rnd64 v) <= B 0) by (apply Rabs_le; change (B 0) with 1; lra).
    pose proof (rnd_err _ 0 ltac:(lia) A1) as R2. change (B 0) with 1 in R2. rewrite Rmult_1_l in R2.
    rewrite Vd. split; [|intros Q; rewrite (Z Q); reflexivity].
    apply Rabs_le_inv in R1, R2, H. apply Rabs_le. lra.
  - rewrite V. split; [|intros Q; rewrite (Z Q); reflexivity].
    apply Rabs_le_inv in R1, H. apply Rabs_le. lra.
Qed.

(** ** The rectangle *)
Definition in_rect (W H t x y : R) : bool := Rle_bool (Rabs (x * cos t + y * sin t)) (W / 2) && Rle_bool (Rabs (y * cos t - x * sin t)) (H / 2).
Definition in_rim (W H t T x y : R) : bool :=
  in_rect (W + 2 * T) (H + 2 * T) t x y && negb (Rlt_bool (Rabs (x * cos t + y * sin t)) (W / 2 - T) && Rlt_bool (Rabs (y * cos t - x * sin t)) (H / 2 - T)).
Lemma in_rect_spec W H t x y : in_rect W H t x y = true <-> rect_set W H t x y.
Proof.
  unfold in_rect, rect_set. rewrite andb_true_iff.
  destruct (Rle_bool_spec (Rabs (x * cos t + y * sin t)) (W / 2)), (Rle_bool_spec (Rabs (y * cos t - x * sin t)) (H / 2)); split; intros [A C]; split; try discriminate; auto; lra.
Qed.
Lemma in_rim_spec W H t T x y : in_rim W H t T x y = true <-> rect_rim W H t T x y.
Proof.
  unfold in_rim, rect_rim. rewrite andb_true_iff, in_rect_spec, negb_true_iff.
  destruct (Rlt_bool_spec (Rabs (x * cos t + y * sin t)) (W / 2 - T)), (Rlt_bool_spec (Rabs (y * cos t - x * sin t)) (H / 2 - T)); cbn [andb];
    split; intros [A C]; split; auto; try discriminate; try (intros [? ?]; lra). exfalso. apply C. auto.
Qed.
Lemma bool_coverage (S : R -> R -> Prop) (f : R -> R -> bool) ns x y : (forall x y, f x y = true <-> S x y) ->
  coverage S ns x y (frac ns (fun p q => f (x + sub ns q) (y + sub ns p))).
Proof.
  intros H. exists (fun p q => if f (x + sub ns q) (y + sub ns p) then 1 else 0). split; [|reflexivity]. intros p q _ _. split; intros K.
  - apply H in K. rewrite K. reflexivity.
  - destruct (f _ _) eqn:E; auto. exfalso. apply K, H, E.
Qed.
(** Comparisons with perturbed values. *)
Lemma inside_near U V W H u' v' w2 h2 d e T : Rabs (u' - U) <= d -> Rabs (v' - V) <= d -> Rabs (w2 - W / 2) <= e -> Rabs (h2 - H / 2) <= e -> d + e < T ->
  ((Rle_bool (Rabs U) ((W + 2 * T) / 2) && Rle_bool (Rabs V) ((H + 2 * T) / 2)) &&
    negb (Rlt_bool (Rabs U) (W / 2 - T) && Rlt_bool (Rabs V) (H / 2 - T))) = false ->
  (Rle_bool u' w2 && Rle_bool (- w2) u' && Rle_bool v' h2 && Rle_bool (- h2) v') = (Rle_bool (Rabs U) (W / 2) && Rle_bool (Rabs V) (H / 2)).
Proof.
  intros Hu Hv Hw Hh HT N. apply Rabs_le_inv in Hu, Hv, Hw, Hh.
  assert (AU : forall x : R, (0 <= x /\ Rabs x = x) \/ (x < 0 /\ Rabs x = - x)).
  { intros x. destruct (Rle_or_lt 0 x); [left|right]; split; auto; [apply Rabs_right; lra|apply Rabs_left; auto]. }
  assert (G : forall U u' W w2, - d <= u' - U <= d -> - e <= w2 - W / 2 <= e ->
    (W / 2 + T < Rabs U -> Rle_bool u' w2 && Rle_bool (- w2) u' = false /\ Rle_bool (Rabs U) (W / 2) = false) /\
    (Rabs U < W / 2 - T -> Rle_bool u' w2 = true /\ Rle_bool (- w2) u' = true /\ Rle_bool (Rabs U) (W / 2) = true)).
  { clear - HT AU. intros U u' W w2 Hu Hw. destruct (AU U) as [[S ->]|[S ->]]; split; intros L.
    - split; [rewrite (Rle_bool_false u') by lra; reflexivity|apply Rle_bool_false; lra].
    - repeat split; apply Rle_bool_true; lra.
    - split; [rewrite (Rle_bool_false (- w2)) by lra; apply andb_false_r|apply Rle_bool_false; lra].
    - repeat split; apply Rle_bool_true; lra. }
  destruct (G U u' W w2 Hu Hw) as [O1 I1]. destruct (G V v' H h2 Hv Hh) as [O2 I2]. clear G.
  apply andb_false_iff in N as [N|N]; [apply andb_false_iff in N as [N|N]|].
  - destruct (Rle_bool_spec (Rabs U) ((W + 2 * T) / 2)) as [|L]; [discriminate|]. destruct O1 as [E1 E2]; [lra|]. rewrite E1, E2. reflexivity.
  - destruct (Rle_bool_spec (Rabs V) ((H + 2 * T) / 2)) as [|L]; [discriminate|]. destruct O2 as [E1 E2]; [lra|].
    rewrite <- andb_assoc, E1, E2. rewrite !andb_false_r. reflexivity.
  - apply negb_false_iff, andb_true_iff in N as [N1 N2].
    destruct (Rlt_bool_spec (Rabs U) (W / 2 - T)); [|discriminate]. destruct (Rlt_bool_spec (Rabs V) (H / 2 - T)); [|discriminate].
    destruct I1 as (-> & -> & ->); [lra|]. destruct I2 as (-> & -> & ->); [lra|]. reflexivity.
Qed.

Section Rect.
Variables (M : libm) (w : R) (k nx ny ns : Z) (wd ht xo yo rot : f64) (W H X0 Y0 : R).
Hypothesis (HM : accurate_libm M) (Ew : w = B k) (Hk : (0 <= k <= 36)%Z) (Wr : within 10 rot) (Hn : (1 <= ns <= 2 ^ 26)%Z).
Hypothesis (Hx : (1 < nx <= 2 ^ k)%Z) (Hy : (0 < ny <= 2 ^ k)%Z).
Hypothesis (Ww : within k wd) (Wh : within k ht) (Wx : within k xo) (Wy : within k yo).
Hypothesis (NW : Rabs (fval wd - W) <= 8 * w * u) (NH : Rabs (fval ht - H) <= 8 * w * u).
Hypothesis (NX : Rabs (fval xo - X0) <= 32 * w * u) (NY : Rabs (fval yo - Y0) <= 32 * w * u).
Let t := deg (fval rot).
Let T := 1024 * w * u.
Lemma tol_T : 0 < w * u /\ T <= / 100.
Proof.
  split; [apply Rmult_lt_0_compat; [pose proof (w1 w k Ew Hk); lra|apply u_tiny]|]. unfold T. rewrite Ew. change 1024 with (B 10).
  rewrite <- !bpow_plus. apply Rle_trans with (B (-7)); [apply bpow_le; lia|]. cbn. lra.
Qed.
Lemma half_err z Z : within k z -> Rabs (fval z - Z) <= 8 * w * u ->
  within k (fdiv z (fofZ 2)) /\ is_finite (fdiv (fopp z) (fofZ 2)) = true /\
  fval (fdiv (fopp z) (fofZ 2)) = - fval (fdiv z (fofZ 2)) /\ Rabs (fval (fdiv z (fofZ 2)) - Z / 2) <= 5 * w * u.
Proof.
  intros Wz NZ. destruct (fdiv_int_within k z 2 ltac:(lia) Wz ltac:(lia)) as [V Wq].
  assert (Wo : within k (fopp z)) by (destruct Wz as [F A]; split; [rewrite fin_opp; exact F|rewrite fval_opp, Rabs_Ropp; exact A]).
  destruct (fdiv_int_within k _ 2 ltac:(lia) Wo ltac:(lia)) as [V' [F' _]]. rewrite fval_opp in V'.
  split; [exact Wq|]. split; [exact F'|]. split.
  - rewrite V, V'. replace (- fval z / 2) with (- (fval z / 2)) by (unfold Rdiv; ring). apply rnd_opp.
  - destruct Wz as [_ A]. rewrite <- Ew in A.
    assert (A2 : Rabs (fval z / 2) <= B k) by (rewrite <- Ew; apply Rabs_le_inv in A; apply Rabs_le; lra).
    pose proof (rnd_err _ k ltac:(lia) A2) as R1. rewrite <- V, <- Ew in R1. apply Rabs_le_inv in R1, NZ. apply Rabs_le. lra.
Qed.
(** Coordinates of pixels and subpixels. *)
Lemma axis_near n off Z0 i : (0 <= i < n)%Z -> (n <= 2 ^ k)%Z -> within k off -> Rabs (fval off - Z0) <= 32 * w * u ->
  is_finite (axis_f n off i) = true /\ Rabs (fval (axis_f n off i)) <= 4 * w /\ Rabs (fval (axis_f n off i) - px n Z0 i) <= 40 * w * u /\
  forall q, (0 <= q < ns)%Z -> is_finite (fadd (xUp_f ns q) (axis_f n off i)) = true /\ Rabs (fval (fadd (xUp_f ns q) (axis_f n off i))) <= 4 * w /\
    Rabs (fval (fadd (xUp_f ns q) (axis_f n off i)) - (px n Z0 i + sub ns q)) <= 40 * w * u.
Proof.
  intros Hi Hnn Wo No. destruct tol_T as [T0 T1]. unfold T in T1. pose proof (w1 w k Ew Hk) as W1.
  assert (P2 : (2 ^ k <= 2 ^ 50)%Z) by (apply Z.pow_le_mono_r; lia).
  assert (Nw : IZR n <= w) by (rewrite Ew, <- (IZR_Zpower radix2) by lia; apply IZR_le; exact Hnn).
  assert (W400 : within 400 off) by (apply (within_le k); [lia|exact Wo]).
  pose proof (proj2 Wo) as Ao. rewrite <- Ew in Ao.
  pose proof (px_bound n (fval off) i w k Ew ltac:(lia) Hi Nw Ao) as Bx. pose proof (col_err n (fval off) i w k Ew ltac:(lia) Hi Nw Ao) as Ex.
  destruct (axis_val n off i Hi ltac:(lia) W400) as [V Wa]. fold (col n (fval off) i) in V.
  assert (D : px n Z0 i = px n (fval off) i + (fval off - Z0)) by (unfold px; ring).
  split; [apply Wa|]. rewrite D. apply Rabs_le_inv in No. split; [|split].
  - rewrite V. apply Rabs_le_inv in Bx, Ex. apply Rabs_le. lra.
  - rewrite V. apply Rabs_le_inv in Ex. apply Rabs_le. lra.
  - intros q Hq. destruct (xUp_val ns q Hq ltac:(lia)) as [Vq Wq].
    destruct (fadd_within 401 _ (axis_f n off i) ltac:(lia) (within_le 60 401 _ ltac:(lia) Wq) Wa) as [Vs [Fs _]].
    rewrite Vs, Vq, V. destruct (sub_coord w k ns Ew ltac:(lia) Hn _ _ q Bx Ex Hq) as [S1 S2].
    split; [exact Fs|]. split; [exact S2|]. apply Rabs_le_inv in S1. apply Rabs_le. lra.
Qed.
Lemma near_turn x y X Y : is_finite x = true -> is_finite y = true -> Rabs (fval x) <= 4 * w -> Rabs (fval y) <= 4 * w ->
  Rabs (fval x - X) <= 40 * w * u -> Rabs (fval y - Y) <= 40 * w * u ->
  (is_finite (rect_u_f M (rad_f rot) x y) = true /\ Rabs (fval (rect_u_f M (rad_f rot) x y) - (X * cos t + Y * sin t)) <= 800 * w * u) /\
  (is_finite (rect_v_f M (rad_f rot) x y) = true /\ Rabs (fval (rect_v_f M (rad_f rot) x y) - (Y * cos t - X * sin t)) <= 800 * w * u).
Proof.
  intros Fx Fy Bx By Nx Ny. destruct (turn_err M w k rot HM Ew Hk Wr x y Fx Fy Bx By) as [[F1 E1] [F2 E2]]. fold t in E1, E2.
  destruct tol_T as [T0 _].
  assert (C : forall z z' s, Rabs (z - z') <= 40 * w * u -> Rabs s <= 1 -> - (40 * w * u) <= z * s - z' * s <= 40 * w * u).
  { intros z z' s Hz Hs. apply Rabs_le_inv. replace (z * s - z' * s) with ((z - z') * s) by ring. rewrite Rabs_mult.
    pose proof (Rabs_pos (z - z')). pose proof (Rabs_pos s). nra. }
  assert (Cc : Rabs (cos t) <= 1) by (apply Rabs_le; pose proof (COS_bound t); lra).
  assert (Cs : Rabs (sin t) <= 1) by (apply Rabs_le; pose proof (SIN_bound t); lra).
  pose proof (C _ _ _ Nx Cc). pose proof (C _ _ _ Nx Cs). pose proof (C _ _ _ Ny Cc). pose proof (C _ _ _ Ny Cs).
  apply Rabs_le_inv in E1, E2. split; (split; [assumption|apply Rabs_le; lra]).
Qed.
Lemma sub_turn X Y p q : (0 <= p < ns)%Z -> (0 <= q < ns)%Z ->
  Rabs ((X + sub ns q) * cos t + (Y + sub ns p) * sin t - (X * cos t + Y * sin t)) <= 1 /\
  Rabs ((Y + sub ns p) * cos t - (X + sub ns q) * sin t - (Y * cos t - X * sin t)) <= 1.
Proof.
  intros Hp Hq. destruct (up_err ns q Hq ltac:(lia)) as [_ E1]. destruct (up_err ns p Hp ltac:(lia)) as [_ E2].
  assert (C : forall z s, Rabs z <= / 2 -> Rabs s <= 1 -> - / 2 <= z * s <= / 2).
  { intros z s Hz Hs. apply Rabs_le_inv. rewrite Rabs_mult. pose proof (Rabs_pos z). pose proof (Rabs_pos s). nra. }
  assert (Cc : Rabs (cos t) <= 1) by (apply Rabs_le; pose proof (COS_bound t); lra).
  assert (Cs : Rabs (sin t) <= 1) by (apply Rabs_le; pose proof (SIN_bound t); lra).
  pose proof (C _ _ E1 Cc). pose proof (C _ _ E1 Cs). pose proof (C _ _ E2 Cc). pose proof (C _ _ E2 Cs).
  split; apply Rabs_le; lra.
Qed.
(** The window of pixels that are supersampled. *)
Lemma window_f : let h := fmul fsqrt2 (fsub (axis_f nx xo 1) (axis_f nx xo 0)) in is_finite h = true /\ 7 / 5 <= fval h <= 3 / 2.
Proof.
  cbv zeta. assert (P2 : (2 ^ k <= 2 ^ 50)%Z) by (apply Z.pow_le_mono_r; lia).
  assert (Nw : IZR nx <= w) by (rewrite Ew, <- (IZR_Zpower radix2) by lia; apply IZR_le, Hx).
  assert (W400 : within 400 xo) by (apply (within_le k); [lia|exact Wx]). pose proof (proj2 Wx) as Ao. rewrite <- Ew in Ao.
  destruct (axis_val nx xo 0 ltac:(lia) ltac:(lia) W400) as [V0 W0]. destruct (axis_val nx xo 1 ltac:(lia) ltac:(lia) W400) as [V1 W1].
  destruct (fsub_within 401 _ _ ltac:(lia) W1 W0) as [Vd Wd]. destruct (fofZ_spec 2 ltac:(lia)) as [V2 F2].
  destruct (fsqrt_within 1 (fofZ 2)) as [Vq Wq]; [lia|apply (fofZ_within 2 2); lia|rewrite V2; lra|].
  destruct (fmul_within 1 402 _ _ ltac:(lia) Wq Wd) as [Vh Wh']. split; [apply Wh'|].
  change fsqrt2 with (fsqrt (fofZ 2)). rewrite Vh, Vq, Vd, V0, V1, V2.
  exact (band_range nx (fval xo) w k Ew ltac:(lia) ltac:(lia) Nw Ao).
Qed.
Lemma window_add z h : within k z -> is_finite h = true -> 7 / 5 <= fval h <= 3 / 2 ->
  (is_finite (fadd z h) = true /\ Rabs (fval (fadd z h) - (fval z + fval h)) <= / 100) /\
  (is_finite (fsub z h) = true /\ Rabs (fval (fsub z h) - (fval z - fval h)) <= / 100).
Proof.
  intros Wz Fh Hh. destruct tol_T as [T0 T1]. unfold T in T1. pose proof (w1 w k Ew Hk) as W1.
  assert (Wh2 : within (k + 1) h).
  { split; auto. rewrite bpow_plus, <- Ew. change (B 1) with 2. apply Rabs_le. lra. }
  assert (Wz2 : within (k + 1) z) by (apply (within_le k); [lia|exact Wz]).
  destruct (fadd_within (k + 1) z h ltac:(lia) Wz2 Wh2) as [Va [Fa _]]. destruct (fsub_within (k + 1) z h ltac:(lia) Wz2 Wh2) as [Vs [Fs _]].
  destruct Wz as [_ Az]. rewrite <- Ew in Az. apply Rabs_le_inv in Az. assert (E4 : B (k + 2) = 4 * w) by (rewrite bpow_plus, <- Ew; change (B 2) with 4; ring).
  assert (A1 : Rabs (fval z + fval h) <= B (k + 2)) by (rewrite E4; apply Rabs_le; lra).
  assert (A2 : Rabs (fval z - fval h) <= B (k + 2)) by (rewrite E4; apply Rabs_le; lra).
  pose proof (rnd_err _ (k + 2) ltac:(lia) A1) as R1. pose proof (rnd_err _ (k + 2) ltac:(lia) A2) as R2. rewrite <- Va in R1. rewrite <- Vs in R2. rewrite E4 in R1, R2.
  apply Rabs_le_inv in R1, R2. split; (split; [assumption|apply Rabs_le; lra]).
Qed.
Lemma rectangle_near isDark : 0 < fval wd -> 0 < fval ht ->
  exists m, rectangle_f M nx ny wd ht xo yo rot ns isDark = Ok m /\ nr m = ny /\ nc m = nx /\
  forall i j, (0 <= i < ny)%Z -> (0 <= j < nx)%Z -> exists v r,
    coverage (rect_set W H t) ns (px nx X0 j) (px ny Y0 i) v /\
    coverage (rect_rim W H t T) ns (px nx X0 j) (px ny Y0 i) r /\
    Rabs (fval (at2 m i j) - (if isDark then 1 - v else v)) <= r + B (-52) /\
    (r = 0 -> fval (at2 m i j) = if isDark then rnd64 (1 - rnd64 v) else rnd64 v).
Proof.
  intros Pw Ph. unfold rectangle_f.
  rewrite guard_true by (apply Z.ltb_lt; lia). rewrite guard_true by (apply Z.ltb_lt; lia).
  rewrite guard_true by (apply negb_true_iff; rewrite fle_val by (try reflexivity; apply Ww); apply Rle_bool_false; exact Pw).
  rewrite guard_true by (apply negb_true_iff; rewrite fle_val by (try reflexivity; apply Wh); apply Rle_bool_false; exact Ph).
  rewrite guard_true by (apply Z.ltb_lt; lia). cbv zeta. rewrite guard_true by (apply Z.ltb_lt; lia).
  eexists. split; [reflexivity|]. split; [reflexivity|]. split; [reflexivity|]. intros i j Hi Hj. cbn [at2].
  destruct tol_T as [T0 T1]. pose proof (w1 w k Ew Hk) as W1. change (fdiv (fmul rot fpi) (fofZ 180)) with (rad_f rot).
  destruct window_f as [Fh Hh]. set (h := fmul fsqrt2 _) in *.
  destruct (half_err wd W Ww NW) as (Ww2 & Fw2' & Vw2' & Ew2). destruct (half_err ht H Wh NH) as (Wh2 & Fh2' & Vh2' & Eh2).
  assert (Ww2' : within k (fdiv (fopp wd) (fofZ 2))) by (split; [exact Fw2'|rewrite Vw2', Rabs_Ropp; apply Ww2]).
  assert (Wh2' : within k (fdiv (fopp ht) (fofZ 2))) by (split; [exact Fh2'|rewrite Vh2', Rabs_Ropp; apply Wh2]).
  set (w2 := fdiv wd (fofZ 2)) in *. set (h2 := fdiv ht (fofZ 2)) in *. set (w2' := fdiv (fopp wd) (fofZ 2)) in *. set (h2' := fdiv (fopp ht) (fofZ 2)) in *.
  destruct (axis_near nx xo X0 j Hj ltac:(lia) Wx NX) as (Fj & Bj & Nj & Sj). destruct (axis_near ny yo Y0 i Hi ltac:(lia) Wy NY) as (Fi & Bi & Ni & Si).
  set (x := axis_f nx xo j) in *. set (y := axis_f ny yo i) in *.
  match goal with |- context [edge_f ?o ?z ?n _ _ _ _] => set (one := o); set (zero := z); set (inside := n) end.
  destruct (near_turn x y _ _ Fj Fi Bj Bi Nj Ni) as [[Fu Eu] [Fv Ev]].
  destruct (window_add w2 h Ww2 Fh Hh) as [[A1 A2] [A3 A4]]. destruct (window_add w2' h Ww2' Fh Hh) as [[A5 A6] [A7 A8]].
  destruct (window_add h2 h Wh2 Fh Hh) as [[C1 C2] [C3 C4]]. destruct (window_add h2' h Wh2' Fh Hh) as [[C5 C6] [C7 C8]].
  rewrite Vw2' in A6, A8. rewrite Vh2' in C6, C8.
  set (X := px nx X0 j) in *. set (Y := px ny Y0 i) in *.
  assert (SM : 0 <= 800 * w * u <= / 100 /\ 5 * w * u <= / 100) by (unfold T in T1; lra).
  apply Rabs_le_inv in A2, A4, A6, A8, C2, C4, C6, C8, Eu, Ev.
  pose proof (Rabs_le_inv _ _ Ew2) as Ew3. pose proof (Rabs_le_inv _ _ Eh2) as Eh3.
  destruct (edge_rounded one zero inside (xUp_f ns) ns x y
    (fun p q => in_rect W H t (X + sub ns q) (Y + sub ns p)) (fun p q => in_rim W H t T (X + sub ns q) (Y + sub ns p)) Hn) as (v & V1 & V2 & V3 & V4).
  - intros p q Hp Hq N. destruct (Sj q Hq) as (F1 & B1 & N1). destruct (Si p Hp) as (F2 & B2 & N2).
    destruct (near_turn _ _ _ _ F1 F2 B1 B2 N1 N2) as [[Fu1 Eu1] [Fv1 Ev1]]. unfold inside.
    rewrite !fle_val; auto; [|apply Wh2|apply Ww2]. rewrite Vw2', Vh2'.
    apply (inside_near _ _ _ _ _ _ _ _ _ _ T Eu1 Ev1 Ew2 Eh2); [unfold T; lra|exact N].
  - intros Z p q Hp Hq. destruct (sub_turn X Y p q Hp Hq) as [S1 S2]. apply Rabs_le_inv in S1, S2.
    unfold zero in Z. rewrite !fle_val in Z by auto. unfold in_rect.
    set (U := (X + sub ns q) * cos t + (Y + sub ns p) * sin t) in *. set (V := (Y + sub ns p) * cos t - (X + sub ns q) * sin t) in *.
    pose proof (Rle_abs U). pose proof (Rle_abs (- U)). rewrite Rabs_Ropp in *. pose proof (Rle_abs V). pose proof (Rle_abs (- V)). rewrite Rabs_Ropp in *.
    apply orb_true_iff in Z as [Z|Z]; [apply orb_true_iff in Z as [Z|Z]; [apply orb_true_iff in Z as [Z|Z]|]|].
    + match type of Z with Rle_bool ?a ?b = _ => destruct (Rle_bool_spec a b); [|discriminate] end. rewrite Rle_bool_false by lra. reflexivity.
    + match type of Z with Rle_bool ?a ?b = _ => destruct (Rle_bool_spec a b); [|discriminate] end. rewrite Rle_bool_false by lra. reflexivity.
    + match type of Z with Rle_bool ?a ?b = _ => destruct (Rle_bool_spec a b); [|discriminate] end. rewrite (Rle_bool_false (Rabs V)) by lra. apply andb_false_r.
    + match type of Z with Rle_bool ?a ?b = _ => destruct (Rle_bool_spec a b); [|discriminate] end. rewrite (Rle_bool_false (Rabs V)) by lra. apply andb_false_r.
  - intros Z p q Hp Hq. destruct (sub_turn X Y p q Hp Hq) as [S1 S2]. apply Rabs_le_inv in S1, S2.
    unfold one in Z. rewrite !fle_val in Z by auto. unfold in_rect.
    apply andb_true_iff in Z as [Z Z4]. apply andb_true_iff in Z as [Z Z3]. apply andb_true_iff in Z as [Z1 Z2].
    match type of Z1 with Rle_bool ?a ?b = _ => destruct (Rle_bool_spec a b); [|discriminate] end.
    match type of Z2 with Rle_bool ?a ?b = _ => destruct (Rle_bool_spec a b); [|discriminate] end.
    match type of Z3 with Rle_bool ?a ?b = _ => destruct (Rle_bool_spec a b); [|discriminate] end.
    match type of Z4 with Rle_bool ?a ?b = _ => destruct (Rle_bool_spec a b); [|discriminate] end.
    apply andb_true_iff. split; apply Rle_bool_true, Rabs_le; lra.
  - eexists. eexists. split; [apply (bool_coverage _ (in_rect W H t)); intros; apply in_rect_spec|].
    split; [apply (bool_coverage _ (in_rim W H t T)); intros; apply in_rim_spec|].
    exact (dark_rounded isDark _ v _ _ V1 V2 V3 V4).
Qed.
End Rect.
Lemma rectangle_f_accurate M k nx ny wd ht xo yo rot ns isDark : accurate_libm M -> rect_args_upto k nx ny wd ht xo yo rot ns ->
  exists m, rectangle_f M nx ny wd ht xo yo rot ns isDark = Ok m /\ nr m = ny /\ nc m = nx /\
  forall i j, (0 <= i < ny)%Z -> (0 <= j < nx)%Z -> exists v r,
    coverage (rect_set (fval wd) (fval ht) (deg (fval rot))) ns (px nx (fval xo) j) (px ny (fval yo) i) v /\
    coverage (rect_rim (fval wd) (fval ht) (deg (fval rot)) (B (k - 43))) ns (px nx (fval xo) j) (px ny (fval yo) i) r /\
    Rabs (fval (at2 m i j) - (if isDark then 1 - v else v)) <= r + B (-52) /\
    (r = 0 -> fval (at2 m i j) = if isDark then rnd64 (1 - rnd64 v) else rnd64 v).
Proof.
  intros HM (Hk & Hx & Hy & Hn & Ww & Wh & Wx & Wy & Wr & Pw & Ph).
  assert (Tk : B (k - 43) = 1024 * B k * u).
  { change 1024 with (B 10). rewrite <- !bpow_plus. f_equal. lia. }
  rewrite Tk. assert (Z : forall a c, 0 <= c -> Rabs (a - a) <= c * B k * u).
  { intros a c Hc. rewrite Rminus_diag_eq by reflexivity. rewrite Rabs_R0. apply Rmult_le_pos; [apply Rmult_le_pos; [exact Hc|apply bpow_ge_0]|apply bpow_ge_0]. }
  apply (rectangle_near M (B k) k nx ny ns wd ht xo yo rot (fval wd) (fval ht) (fval xo) (fval yo) HM eq_refl Hk Wr Hn Hx Hy Ww Wh Wx Wy); auto; apply Z; lra.
Qed.
